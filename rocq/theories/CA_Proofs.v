(** Proofs about hfst-check-alpha and hfst-dump-alphabets. *)
From Verif Require Import Base OrdMap BT_Model BT_Proofs SU_Spec CA_Spec CA_Model.
From Coq Require Import Sorted.

Lemma symbols_used_sorted g : in_byte_order (symbols_used g).
Proof.
  unfold symbols_used. assert (G : forall l s, in_byte_order s -> in_byte_order (fold_left (fun s a => sadd bcmp (osy a) (sadd bcmp (isy a) s)) l s)).
  { induction l as [|a l IH]; intros s S; [exact S|]. cbn [fold_left]. apply IH.
    apply (sorted_sadd bcmp bcmp_eq bcmp_trans bcmp_op).
    apply (sorted_sadd bcmp bcmp_eq bcmp_trans bcmp_op). exact S. }
  apply G. constructor.
Qed.
Lemma symbols_used_occurs g x : In x (symbols_used g) <-> occurs g x.
Proof.
  unfold symbols_used, occurs.
  assert (G : forall l s, In x (fold_left (fun s a => sadd bcmp (osy a) (sadd bcmp (isy a) s)) l s) <-> In x s \/ exists a, In a l /\ (x = isy a \/ x = osy a)).
  { induction l as [|a l IH]; intros s; cbn [fold_left].
    - split; [auto|]. intros [H|(a & [] & _)]. exact H.
    - rewrite IH, !(In_sadd bcmp bcmp_eq). split.
      + intros [[H|[H|H]]|(b & H & E)]; [right; exists a; cbn; auto|right; exists a; cbn; auto|auto|right; exists b; cbn; auto].
      + intros [H|(b & [<-|H] & E)]; [auto|destruct E; auto|right; exists b; auto]. }
  rewrite G. split.
  - intros [[]|(a & H & E)]. apply in_concat in H. destruct H as (l & Hl & Ha). exists l, a. auto.
  - intros (l & a & Hl & Ha & E). right. exists a. split; [apply in_concat; exists l; auto|exact E].
Qed.
Lemma bcmp_gt x y : bcmp x y = Gt -> bcmp y x = Lt.
Proof. intros H. rewrite bcmp_op, H. reflexivity. Qed.
Lemma sorted_inv x l : in_byte_order (x :: l) -> in_byte_order l /\ forall y, In y l -> bcmp x y = Lt.
Proof. intros S. inversion S as [|a b S' F]; subst. split; [exact S'|]. apply Forall_forall. exact F. Qed.
Lemma lt_ne x y : bcmp x y = Lt -> x <> y.
Proof. intros H ->. rewrite (proj2 (bcmp_eq y y) eq_refl) in H. discriminate. Qed.
Lemma set_difference_In l1 : forall l2, in_byte_order l1 -> in_byte_order l2 ->
  forall z, In z (set_difference l1 l2) <-> In z l1 /\ ~ In z l2.
Proof.
  induction l1 as [|x r1 IH1]; intros l2 S1 S2 z; [cbn; tauto|].
  destruct (sorted_inv _ _ S1) as [T1 L1]. induction l2 as [|y r2 IH2]; [cbn; tauto|].
  destruct (sorted_inv _ _ S2) as [T2 L2]. cbn [set_difference]. destruct (bcmp x y) eqn:E.
  - apply bcmp_eq in E. subst y. rewrite (IH1 r2 T1 T2). cbn [In]. split.
    + intros [H N]. split; [auto|]. intros [->|K]; [|tauto]. exact (lt_ne z z (L1 z H) eq_refl).
    + intros [[->|H] N]; tauto.
  - cbn [In]. rewrite (IH1 (y :: r2) T1 S2). cbn [In]. split.
    + intros [<-|H]; [|tauto]. split; [auto|]. intros [->|K]; [exact (lt_ne _ _ E eq_refl)|].
      exact (lt_ne _ _ (bcmp_trans _ _ _ E (L2 x K)) eq_refl).
    + intros [[H|H] N]; tauto.
  - assert (Q : In z (set_difference (x :: r1) r2) <-> In z (x :: r1) /\ ~ In z r2) by exact (IH2 T2).
    cbn [set_difference] in Q. rewrite Q. cbn [In]. split; [|tauto]. intros [H N]. split; [exact H|]. intros [->|K]; [|tauto].
    apply bcmp_gt in E. destruct H as [->|H]; [exact (lt_ne _ _ E eq_refl)|]. exact (lt_ne _ _ (bcmp_trans _ _ _ E (L1 z H)) eq_refl).
Qed.
Lemma set_difference_incl l1 : forall l2 z, In z (set_difference l1 l2) -> In z l1.
Proof.
  induction l1 as [|x r1 IH1]; intros l2 z; [intros []|]. induction l2 as [|y r2 IH2]; [auto|]. cbn [set_difference]. destruct (bcmp x y).
  - intros H. right. exact (IH1 _ _ H).
  - intros [->|H]; [left; reflexivity|right; exact (IH1 _ _ H)].
  - exact IH2.
Qed.
Lemma set_difference_sorted l1 : forall l2, in_byte_order l1 -> in_byte_order (set_difference l1 l2).
Proof.
  induction l1 as [|x r1 IH1]; intros l2 S1; [constructor|]. destruct (sorted_inv _ _ S1) as [T1 L1].
  induction l2 as [|y r2 IH2]; [exact S1|]. cbn [set_difference]. destruct (bcmp x y).
  - apply IH1, T1.
  - constructor; [apply IH1, T1|]. apply Forall_forall. intros z H. apply L1. exact (set_difference_incl _ _ _ H).
  - exact IH2.
Qed.
Lemma difference_lists l1 l2 (P Q : bstr -> Prop) : in_byte_order l1 -> in_byte_order l2 -> (forall x, In x l1 <-> P x) -> (forall x, In x l2 <-> Q x) ->
  lists_difference (set_difference l1 l2) P Q.
Proof.
  intros S1 S2 HP HQ. split; [apply set_difference_sorted, S1|]. intros x. rewrite (set_difference_In l1 l2 S1 S2), HP, HQ. tauto.
Qed.
Lemma no_mismatch l P Q : lists_difference l P Q -> (forall x, Q x \/ ~ Q x) -> is_mismatch l = false <-> forall x, P x -> Q x.
Proof.
  intros [_ L] D. destruct l as [|y l]; cbn [is_mismatch].
  - split; [|reflexivity]. intros _ x H. destruct (D x) as [K|K]; [exact K|]. destruct (proj2 (L x) (conj H K)).
  - split; [discriminate|]. intros H. destruct (proj1 (L y) (or_introl eq_refl)) as [K N]. exfalso. exact (N (H y K)).
Qed.
Lemma in_dec_bstr (x : bstr) l : In x l \/ ~ In x l.
Proof. destruct (in_dec (list_eq_dec ascii_dec) x l); auto. Qed.

Lemma is_multichar_spec s : is_multichar s = true <-> tag_like s.
Proof.
  unfold is_multichar, tag_like. split.
  - destruct s as [|c [|d [|e r]]]; cbn; intros H; try discriminate. rewrite !orb_true_iff, !Ascii.eqb_eq in H. exists c, d, e, r. tauto.
  - intros (c & d & e & r & -> & H). cbn. rewrite !orb_true_iff, !Ascii.eqb_eq. tauto.
Qed.
Lemma sorted_filter p l : in_byte_order l -> in_byte_order (filter p l).
Proof.
  intros S. induction S as [|x l S IH F]; [constructor|]. cbn. destruct (p x); [|exact IH]. constructor; [exact IH|].
  apply Forall_forall. intros y H. apply filter_In in H. apply (proj1 (Forall_forall _ _) F). tauto.
Qed.
Lemma dump_filter f l : dump_symbols f l = flat_map (symbol_line f) (filter (fun s => negb (only_multichars f && negb (is_multichar s))) l).
Proof. induction l as [|s l IH]; [reflexivity|]. cbn [dump_symbols filter]. rewrite IH. destruct (only_multichars f && negb (is_multichar s)); reflexivity. Qed.
Lemma shown f s : negb (only_multichars f && negb (is_multichar s)) = true <-> f = TSV \/ tag_like s.
Proof.
  rewrite <- is_multichar_spec. destruct f; cbn; destruct (is_multichar s); cbn; split; auto; try discriminate; intros [H|H]; discriminate.
Qed.
