(** Proofs about the conversion to the optimized-lookup tables. *)
From Coq Require Import Sorted Permutation NArith.
From Verif Require Import Base OrdMap Flags_Model BT_Model BT_Spec An_Model LK_Model OLF_Model OLF_Proofs OLC_Model OLL_Model.

(** * Symbol numbers *)
Lemma is_epsilon_spec x : is_epsilon x = true <-> x = EPS.
Proof. unfold is_epsilon. apply bstr_eqb_eq. Qed.

Lemma In_fold_sadd {A} (f : A -> bstr) (c : A -> bool) l : forall acc x,
  In x (fold_left (fun acc a => if c a then sadd bcmp (f a) acc else acc) l acc)
  <-> In x acc \/ exists a, In a l /\ c a = true /\ x = f a.
Proof.
  induction l as [|a l IH]; intros acc x; cbn [fold_left].
  - split; [auto|]. intros [H|(a & [] & _)]. exact H.
  - rewrite IH. destruct (c a) eqn:E.
    + rewrite (In_sadd bcmp bcmp_eq). split.
      * intros [[-> |H]|(b & H1 & H2)]; [right; exists a; simpl; auto|auto|right; exists b; simpl; tauto].
      * intros [H|(b & [-> |H1] & H2 & H3)]; [auto|subst; auto|right; exists b; auto].
    + split.
      * intros [H|(b & H1 & H2)]; [auto|right; exists b; simpl; tauto].
      * intros [H|(b & [-> |H1] & H2 & H3)]; [auto|congruence|right; exists b; auto].
Qed.

Lemma sorted_fold_sadd {A} (f : A -> bstr) (c : A -> bool) l : forall acc,
  StronglySorted (klt bcmp) acc ->
  StronglySorted (klt bcmp) (fold_left (fun acc a => if c a then sadd bcmp (f a) acc else acc) l acc).
Proof.
  induction l as [|a l IH]; intros acc H; cbn [fold_left]; [exact H|].
  apply IH. destruct (c a); [|exact H]. apply (sorted_sadd bcmp bcmp_eq bcmp_trans bcmp_op), H.
Qed.

Lemma fold_left_ext {A B} (f h : A -> B -> A) l : (forall a b, f a b = h a b) -> forall acc, fold_left f l acc = fold_left h l acc.
Proof. intros H. induction l as [|b l IH]; intros acc; cbn [fold_left]; [reflexivity|]. rewrite H. apply IH. Qed.

Lemma input_set_eq g : input_set g = fold_left (fun acc a => if negb (flag_like (isy a)) then sadd bcmp (isy a) acc else acc) (all_arcs g) [].
Proof. apply fold_left_ext. intros acc a. destruct (flag_like (isy a)); reflexivity. Qed.

Lemma In_input_set g x : In x (input_set g) <-> exists a, In a (all_arcs g) /\ flag_like x = false /\ x = isy a.
Proof.
  rewrite input_set_eq, In_fold_sadd. split.
  - intros [[]|(a & H1 & H2 & ->)]. exists a. apply negb_true_iff in H2. auto.
  - intros (a & H1 & H2 & ->). right. exists a. rewrite H2. auto.
Qed.
Lemma In_flag_set g x : In x (flag_set g) <-> exists a, In a (all_arcs g) /\ flag_like x = true /\ x = isy a.
Proof.
  unfold flag_set. rewrite In_fold_sadd. split.
  - intros [[]|(a & H1 & H2 & ->)]. exists a. auto.
  - intros (a & H1 & H2 & ->). right. exists a. auto.
Qed.
Lemma input_set_sorted g : StronglySorted (klt bcmp) (input_set g).
Proof. rewrite input_set_eq. apply sorted_fold_sadd. constructor. Qed.
Lemma flag_set_sorted g : StronglySorted (klt bcmp) (flag_set g).
Proof. apply sorted_fold_sadd. constructor. Qed.

Lemma other_set_eq g : other_set g =
  fold_left (fun acc x => if negb (smem bcmp x (input_set g) || smem bcmp x (flag_set g)) then sadd bcmp x acc else acc)
    (alpha g) (fold_left (fun acc a => if true then sadd bcmp (osy a) acc else acc) (all_arcs g) []).
Proof. apply fold_left_ext. intros acc x. destruct (_ || _); reflexivity. Qed.
Lemma other_set_sorted g : StronglySorted (klt bcmp) (other_set g).
Proof. rewrite other_set_eq. apply (sorted_fold_sadd (fun x => x)). apply (sorted_fold_sadd osy (fun _ => true)). constructor. Qed.
Lemma In_other_set g x : In x (other_set g) <->
  (exists a, In a (all_arcs g) /\ x = osy a) \/
  (In x (alpha g) /\ smem bcmp x (input_set g) = false /\ smem bcmp x (flag_set g) = false).
Proof.
  rewrite other_set_eq.
  etransitivity; [apply (In_fold_sadd (fun x => x) (fun x => negb (smem bcmp x (input_set g) || smem bcmp x (flag_set g))))|].
  etransitivity; [apply or_iff_compat_r; apply (In_fold_sadd osy (fun _ => true))|].
  split.
  - intros [[[]|(a & H1 & _ & ->)]|(y & H1 & H2 & ->)]; [left; eauto|right].
    rewrite negb_true_iff, orb_false_iff in H2. tauto.
  - intros [(a & H1 & ->)|(H1 & H2 & H3)]; [left; right; eauto|right; exists x].
    rewrite H2, H3. auto.
Qed.

Lemma sorted_filter {A} (R : A -> A -> Prop) f l : StronglySorted R l -> StronglySorted R (filter f l).
Proof.
  induction 1 as [|a l S IH F]; simpl; [constructor|]. destruct (f a); [|exact IH].
  constructor; [exact IH|]. rewrite Forall_forall in *. intros y Hy. apply filter_In in Hy. apply F, Hy.
Qed.

Lemma NoDup_app_intro {A} (l1 l2 : list A) : NoDup l1 -> NoDup l2 -> (forall x, In x l1 -> ~ In x l2) -> NoDup (l1 ++ l2).
Proof.
  induction l1 as [|a l1 IH]; simpl; intros H1 H2 H; [exact H2|].
  inversion H1 as [|x y H3 H4]; subst. constructor.
  - rewrite in_app_iff. intros [H5|H5]; [exact (H3 H5)|exact (H a (or_introl eq_refl) H5)].
  - apply IH; auto.
Qed.

Lemma not_flag_both g x : In x (input_set g) -> ~ In x (flag_set g).
Proof. rewrite In_input_set, In_flag_set. intros (a & _ & H1 & _) (b & _ & H2 & _). congruence. Qed.

Lemma symbol_table_NoDup g : NoDup (symbol_table g).
Proof.
  pose proof (sorted_NoDup bcmp bcmp_eq) as ND.
  unfold symbol_table. constructor.
  - rewrite !in_app_iff. unfold input_part, flag_part, other_part. rewrite !filter_In.
    assert (E : is_epsilon EPS = true) by (apply is_epsilon_spec; reflexivity).
    rewrite E. simpl. intuition discriminate.
  - apply NoDup_app_intro; [|apply NoDup_app_intro|].
    + apply ND, sorted_filter, input_set_sorted.
    + apply ND, sorted_filter, flag_set_sorted.
    + apply ND, sorted_filter, other_set_sorted.
    + intros x. unfold flag_part, other_part. rewrite !filter_In, !andb_true_iff, !negb_true_iff.
      intros (H1 & _) (_ & _ & H2). apply (smem_In bcmp bcmp_eq) in H1. congruence.
    + intros x. unfold input_part, flag_part, other_part. rewrite in_app_iff, !filter_In, !andb_true_iff, !negb_true_iff.
      intros (H1 & _) [(H2 & _)|(_ & (_ & H2) & _)]; [exact (not_flag_both g x H1 H2)|].
      apply (smem_In bcmp bcmp_eq) in H1. congruence.
Qed.

Lemma symbol_table_In g x :
  In x (symbol_table g) <-> x = EPS \/ In x (alpha g) \/ exists a, In a (all_arcs g) /\ (x = isy a \/ x = osy a).
Proof.
  unfold symbol_table, input_part, flag_part, other_part. simpl. rewrite !in_app_iff, !filter_In, !andb_true_iff, !negb_true_iff.
  destruct (is_epsilon x) eqn:E.
  - apply is_epsilon_spec in E. subst. split; [auto|auto].
  - assert (N : x <> EPS) by (intros ->; rewrite (proj2 (is_epsilon_spec EPS) eq_refl) in E; discriminate).
    rewrite In_other_set, In_input_set, In_flag_set. split.
    + intros [H|[((a & H1 & H2 & H3) & _)|[((a & H1 & H2 & H3) & _)|([(a & H1 & H2)|(H1 & H2)] & _)]]]; eauto 8.
    + intros [H|[H|(a & H1 & [H2|H2])]]; [congruence|..].
      * destruct (smem bcmp x (input_set g)) eqn:E1.
        { right. left. split; [|reflexivity]. apply In_input_set. apply (smem_In bcmp bcmp_eq), E1. }
        destruct (smem bcmp x (flag_set g)) eqn:E2.
        { right. right. left. split; [|reflexivity]. apply In_flag_set. apply (smem_In bcmp bcmp_eq), E2. }
        right. right. right. auto.
      * destruct (flag_like x) eqn:F; [right; right; left|right; left]; (split; [|reflexivity]); eauto.
      * destruct (smem bcmp x (input_set g)) eqn:E1.
        { right. left. split; [|reflexivity]. apply In_input_set. apply (smem_In bcmp bcmp_eq), E1. }
        destruct (smem bcmp x (flag_set g)) eqn:E2.
        { right. right. left. split; [|reflexivity]. apply In_flag_set. apply (smem_In bcmp bcmp_eq), E2. }
        right. right. right. eauto 8.
Qed.

Lemma position_nth x l k : position x l = Some k -> nth_error l k = Some x.
Proof.
  revert k. induction l as [|y l IH]; simpl; intros k H; [discriminate|].
  destruct (bstr_eqb_spec x y) as [-> |N]; [injection H as <-; reflexivity|].
  destruct (position x l) as [j|]; [|discriminate]. injection H as <-. simpl. auto.
Qed.
Lemma position_In x l : In x l -> exists k, position x l = Some k.
Proof.
  induction l as [|y l IH]; simpl; intros H; [destruct H|].
  destruct (bstr_eqb_spec x y) as [E|N]; [eauto|].
  destruct H as [-> |H]; [congruence|]. destruct (IH H) as (k & ->). simpl. eauto.
Qed.
Lemma number_In l x : In x l -> nth_error l (number l x) = Some x.
Proof. intros H. unfold number. destruct (position_In x l H) as (k & E). rewrite E. apply position_nth, E. Qed.
Lemma number_nth l x k : NoDup l -> nth_error l k = Some x -> number l x = k.
Proof.
  intros N H. assert (H' := number_In l x (nth_error_In _ _ H)).
  rewrite NoDup_nth_error in N. apply N; [|congruence]. apply nth_error_Some. congruence.
Qed.
Lemma number_inj l x y : In x l -> In y l -> number l x = number l y -> x = y.
Proof. intros H1 H2 E. apply number_In in H1, H2. congruence. Qed.

Lemma number_eps g : number (symbol_table g) EPS = 0.
Proof. reflexivity. Qed.

Lemma arc_symbols g s a : In a (arcs g s) -> In (isy a) (symbol_table g) /\ In (osy a) (symbol_table g).
Proof.
  intros H. assert (HA : In a (all_arcs g)).
  { unfold all_arcs, arcs in *. apply in_concat. exists (nth s (sts g) []). split; [|exact H].
    destruct (Nat.lt_ge_cases s (length (sts g))) as [L|L]; [apply nth_In, L|].
    rewrite nth_overflow in H by exact L. destruct H. }
  split; apply symbol_table_In; right; right; eauto.
Qed.

Lemma all_arcs_In g a : In a (all_arcs g) <-> exists s, In a (arcs g s).
Proof.
  unfold all_arcs, arcs. rewrite in_concat. split.
  - intros (l & H1 & H2). apply (In_nth _ _ []) in H1. destruct H1 as (s & _ & <-). eauto.
  - intros (s & H). exists (nth s (sts g) []). split; [|exact H].
    destruct (Nat.lt_ge_cases s (length (sts g))) as [L|L]; [apply nth_In, L|].
    rewrite nth_overflow in H by exact L. destruct H.
Qed.

(** Which numbers are flags, and which are input symbols. *)
Lemma is_flag_no_spec l k : is_flag_no l k = true <-> In k l.
Proof.
  unfold is_flag_no. rewrite existsb_exists. split.
  - intros (x & H & E). apply Nat.eqb_eq in E. subst. exact H.
  - intros H. exists k. split; [exact H|]. apply Nat.eqb_refl.
Qed.
Lemma flag_numbers_In g k : In k (flag_numbers g) <-> seen_inputs g <= k < seen_inputs g + length (flag_part g).
Proof. unfold flag_numbers. rewrite in_seq. tauto. Qed.
Lemma seen_pos g : 0 < seen_inputs g.
Proof. unfold seen_inputs. lia. Qed.

Lemma eps_not_flag : flag_like EPS = false.
Proof. vm_compute. reflexivity. Qed.

Lemma table_nth_input g k x : nth_error (symbol_table g) k = Some x -> k < seen_inputs g ->
  x = EPS /\ k = 0 \/ In x (input_set g) /\ x <> EPS /\ k <> 0.
Proof.
  unfold symbol_table, seen_inputs. destruct k as [|k]; simpl; intros H L; [left; split; congruence|].
  right. rewrite nth_error_app1 in H by lia. apply nth_error_In in H. unfold input_part in H.
  apply filter_In in H. destruct H as (H & E). apply negb_true_iff in E. split; [exact H|]. split; [|discriminate].
  intros ->. rewrite (proj2 (is_epsilon_spec EPS) eq_refl) in E. discriminate.
Qed.
Lemma table_nth_flag g k x : nth_error (symbol_table g) k = Some x -> In k (flag_numbers g) -> In x (flag_set g).
Proof.
  rewrite flag_numbers_In. unfold symbol_table, seen_inputs. destruct k as [|k]; [simpl; intros; lia|].
  cbn [nth_error]. intros H L. rewrite nth_error_app2 in H by lia. rewrite nth_error_app1 in H by lia.
  apply nth_error_In in H. unfold flag_part in H. apply filter_In in H. tauto.
Qed.
Lemma table_nth_other g k x : nth_error (symbol_table g) k = Some x -> seen_inputs g + length (flag_part g) <= k ->
  ~ In x (input_set g) /\ ~ In x (flag_set g) /\ x <> EPS.
Proof.
  unfold symbol_table, seen_inputs. destruct k as [|k]; [simpl; intros; lia|].
  cbn [nth_error]. intros H L. rewrite nth_error_app2 in H by lia. rewrite nth_error_app2 in H by lia.
  apply nth_error_In in H. unfold other_part in H. apply filter_In in H. destruct H as (_ & H).
  rewrite !andb_true_iff, !negb_true_iff in H. destruct H as ((H1 & H2) & H3).
  repeat split; intros E; [apply (smem_In bcmp bcmp_eq) in E; congruence|apply (smem_In bcmp bcmp_eq) in E; congruence|].
  subst. rewrite (proj2 (is_epsilon_spec EPS) eq_refl) in H1. discriminate.
Qed.

(** The number of an input symbol. *)
Lemma arc_input_number g s a : In a (arcs g s) ->
  let k := number (symbol_table g) (isy a) in
  (flag_like (isy a) = false /\ k < seen_inputs g) \/ (flag_like (isy a) = true /\ In k (flag_numbers g)).
Proof.
  intros H k. assert (HI := proj1 (arc_symbols g s a H)). apply number_In in HI. fold k in HI.
  assert (HA : In a (all_arcs g)) by (apply all_arcs_In; eauto).
  destruct (Nat.lt_ge_cases k (seen_inputs g)) as [L|L].
  - left. split; [|exact L]. destruct (table_nth_input g k _ HI L) as [(E & _)|(E & _)].
    + rewrite E. apply eps_not_flag.
    + apply In_input_set in E. destruct E as (_ & _ & E & _). exact E.
  - destruct (Nat.lt_ge_cases k (seen_inputs g + length (flag_part g))) as [L2|L2].
    + right. assert (F : In k (flag_numbers g)) by (apply flag_numbers_In; lia). split; [|exact F].
      apply (table_nth_flag g k _ HI) in F. apply In_flag_set in F. destruct F as (_ & _ & F & _). exact F.
    + exfalso. destruct (table_nth_other g k _ HI L2) as (H1 & H2 & H3).
      destruct (flag_like (isy a)) eqn:F; [apply H2, In_flag_set; eauto|apply H1, In_input_set; eauto].
Qed.
