(** Proofs about hfst-summarize. *)
From Coq Require Import Sorted Permutation.
From Verif Require Import Base OrdMap BT_Model BT_Spec BT_Proofs An_Model SU_Spec SU_Model.

Lemma pcmp_op x y : pcmp y x = CompOpp (pcmp x y).
Proof.
  unfold pcmp. rewrite (bcmp_op (fst x) (fst y)). destruct (bcmp (fst x) (fst y)); cbn; [apply bcmp_op|reflexivity|reflexivity].
Qed.
Lemma pcmp_trans x y z : pcmp x y = Lt -> pcmp y z = Lt -> pcmp x z = Lt.
Proof.
  unfold pcmp. intros H K.
  destruct (bcmp (fst x) (fst y)) eqn:E1; try discriminate.
  - apply bcmp_eq in E1. rewrite E1. destruct (bcmp (fst y) (fst z)); try discriminate; [|reflexivity].
    eapply bcmp_trans; eassumption.
  - destruct (bcmp (fst y) (fst z)) eqn:E2; try discriminate.
    + apply bcmp_eq in E2. rewrite <- E2, E1. reflexivity.
    + rewrite (bcmp_trans _ _ _ E1 E2). reflexivity.
Qed.

(** * Counting with a map *)
Section Count.
  Context {K : Type} (cmp : K -> K -> comparison) (dec : forall x y : K, {x = y} + {x <> y}).
  Hypothesis Heq : forall x y, cmp x y = Eq <-> x = y.
  Hypothesis Htr : forall x y z, cmp x y = Lt -> cmp y z = Lt -> cmp x z = Lt.
  Hypothesis Hop : forall x y, cmp y x = CompOpp (cmp x y).
  Definition counted (l : list K) : list (K * nat) := fold_left (bump cmp) l [].
  Lemma counted_snoc l k : counted (l ++ [k]) = bump cmp (counted l) k.
  Proof. unfold counted. rewrite fold_left_app. reflexivity. Qed.
  Lemma counted_sorted l : StronglySorted (klt cmp) (map fst (counted l)).
  Proof.
    induction l as [|k l IH] using rev_ind; [constructor|].
    rewrite counted_snoc. unfold bump. apply sorted_mset; assumption.
  Qed.
  Lemma counted_get l k : mget cmp k (counted l) = match count_occ dec l k with 0 => None | n => Some n end.
  Proof.
    induction l as [|x l IH] using rev_ind; [reflexivity|].
    rewrite counted_snoc, count_occ_app. unfold bump. cbn [count_occ]. destruct (dec x k) as [->|N].
    - rewrite (mget_mset_same _ Heq). unfold counter. rewrite IH. rewrite Nat.add_comm. cbn.
      destruct (count_occ dec l k); reflexivity.
    - rewrite (mget_mset_other _ Heq) by congruence. rewrite Nat.add_0_r. exact IH.
  Qed.
  Lemma counter_counted l k : counter cmp (counted l) k = count_occ dec l k.
  Proof. unfold counter. rewrite counted_get. destruct (count_occ dec l k); reflexivity. Qed.
  Lemma counted_In l k n : In (k, n) (counted l) <-> n = count_occ dec l k /\ 0 < n.
  Proof.
    rewrite <- (mget_sorted_In cmp Heq k n (counted l) (sorted_NoDup cmp Heq _ (counted_sorted l))). rewrite counted_get.
    destruct (count_occ dec l k) eqn:E.
    - split; [discriminate|]. intros [-> H]. inversion H.
    - split; [intros H; injection H as <-; split; [reflexivity|apply Nat.lt_0_succ]|]. intros [-> _]. reflexivity.
  Qed.
  Lemma counted_keys l k : In k (map fst (counted l)) <-> In k l.
  Proof.
    rewrite (count_occ_In dec l k). split.
    - intros H. apply in_map_iff in H. destruct H as ((k', n) & <- & H). apply counted_In in H. destruct H as [-> H]. exact H.
    - intros H. apply in_map_iff. exists (k, count_occ dec l k). split; [reflexivity|]. apply counted_In. auto.
  Qed.
  Lemma counted_length l : length (counted l) = length (nodup dec l).
  Proof.
    rewrite <- (map_length fst (counted l)). apply Permutation_length, NoDup_Permutation.
    - apply (sorted_NoDup cmp Heq), counted_sorted.
    - apply NoDup_nodup.
    - intros x. rewrite counted_keys, nodup_In. reflexivity.
  Qed.
End Count.

Lemma is_epsilon_iff x : is_epsilon x = true <-> x = B "@_EPSILON_SYMBOL_@".
Proof. unfold is_epsilon. apply bstr_eqb_eq. Qed.

(** * The transitions of one state *)
Section State.
  Variable pairs : bool.
  Variable s : nat.
  Variable v0 : tally.
  Let go l := fold_left (one_arc pairs s) l (v0, Here 0 [] []).
  Lemma go_snoc l a : go (l ++ [a]) = one_arc pairs s (go l) a.
  Proof. unfold go. rewrite fold_left_app. reflexivity. Qed.
  Lemma go_here l : snd (go l) = Here (length l) (counted bcmp (map isy l)) (counted bcmp (map osy l)).
  Proof.
    induction l as [|a l IH] using rev_ind; [reflexivity|].
    rewrite go_snoc. unfold one_arc. destruct (go l) as [v h]. cbn in IH |- *. subst h. cbn.
    rewrite !map_app, app_length, Nat.add_comm. cbn. rewrite !counted_snoc. reflexivity.
  Qed.
  Ltac step l a := rewrite go_snoc; let v := fresh "v" in let h := fresh "h" in
    unfold one_arc; pose proof (go_here l) as Hh; destruct (go l) as [v h]; cbn [fst snd] in *; subst h; cbn [fst snd h_arcs h_in h_out v_states v_finals v_arcs v_io v_ie v_oe v_dense v_sparse v_uin v_uout v_min v_mout v_found v_acc v_idet v_odet v_cyc v_cyc0 v_pairs].
  Lemma go_same l : let v := fst (go l) in
    v_states v = v_states v0 /\ v_finals v = v_finals v0 /\ v_dense v = v_dense v0 /\ v_sparse v = v_sparse v0 /\
    v_uin v = v_uin v0 /\ v_uout v = v_uout v0 /\ v_min v = v_min v0 /\ v_mout v = v_mout v0.
  Proof.
    induction l as [|a l IH] using rev_ind; [cbn; repeat split|]. step l a. exact IH.
  Qed.
  Lemma go_arcs l : v_arcs (fst (go l)) = v_arcs v0 + length l.
  Proof.
    induction l as [|a l IH] using rev_ind; [cbn; lia|]. step l a. rewrite IH, app_length. cbn. lia.
  Qed.
  Definition io_eps (a : arc) := is_epsilon (isy a) && is_epsilon (osy a).
  Lemma count_snoc {A} (p : A -> bool) l a : length (filter p (l ++ [a])) = length (filter p l) + if p a then 1 else 0.
  Proof. rewrite filter_app, app_length. cbn. destruct (p a); reflexivity. Qed.
  Lemma go_eps l : let v := fst (go l) in
    v_io v = v_io v0 + length (filter io_eps l) /\
    v_ie v = v_ie v0 + length (filter (fun a => is_epsilon (isy a)) l) /\
    v_oe v = v_oe v0 + length (filter (fun a => is_epsilon (osy a)) l).
  Proof.
    induction l as [|a l IH] using rev_ind; [cbn; lia|]. cbv zeta in *. rewrite !count_snoc.
    step l a. destruct IH as (I1 & I2 & I3). unfold io_eps at 2.
    destruct (is_epsilon (isy a)), (is_epsilon (osy a)); cbn; rewrite ?I1, ?I2, ?I3; lia.
  Qed.
  Lemma go_found l x : In x (v_found (fst (go l))) <-> In x (v_found v0) \/ exists a, In a l /\ (x = isy a \/ x = osy a).
  Proof.
    induction l as [|a l IH] using rev_ind.
    - cbn. split; [auto|]. intros [H|(a & [] & _)]. exact H.
    - step l a. rewrite !(In_sadd _ bcmp_eq). rewrite IH. split.
      + intros [->|[->|[H|(b & H & E)]]]; [right|right|left; exact H|right].
        * exists a. split; [apply in_or_app; right; left; reflexivity|right; reflexivity].
        * exists a. split; [apply in_or_app; right; left; reflexivity|left; reflexivity].
        * exists b. split; [apply in_or_app; left; exact H|exact E].
      + intros [H|(b & H & E)]; [right; right; left; exact H|].
        apply in_app_or in H. destruct H as [H|[->|[]]].
        * right; right; right. exists b. auto.
        * destruct E as [->| ->]; auto.
  Qed.
  Lemma go_acc l : v_acc (fst (go l)) = true <-> v_acc v0 = true /\ forall a, In a l -> isy a = osy a.
  Proof.
    induction l as [|a l IH] using rev_ind; [cbn; split; [intros H; split; [exact H|intros a []]|intros [H _]; exact H]|].
    step l a. destruct (bstr_eqb (isy a) (osy a)) eqn:E.
    - apply bstr_eqb_eq in E. rewrite IH. split.
      + intros [H K]. split; [exact H|]. intros b I. apply in_app_or in I. destruct I as [I|[<-|[]]]; [apply K; exact I|exact E].
      + intros [H K]. split; [exact H|]. intros b I. apply K, in_or_app. left. exact I.
    - split; [discriminate|]. intros [_ K]. rewrite (K a) in E by (apply in_or_app; right; left; reflexivity).
      rewrite (proj2 (bstr_eqb_eq _ _) eq_refl) in E. discriminate.
  Qed.
  Definition det (side : arc -> bstr) (l : list arc) : Prop := NoDup (map side l) /\ ~ In (B "@_EPSILON_SYMBOL_@") (map side l).
  Lemma NoDup_snoc {A} (l : list A) x : NoDup (l ++ [x]) <-> NoDup l /\ ~ In x l.
  Proof.
    split.
    - intros H. apply NoDup_remove in H. rewrite app_nil_r in H. exact H.
    - intros [H K]. induction H as [|y l N H IH]; cbn; [constructor; [intros []|constructor]|].
      constructor; [|apply IH; intros I; apply K; right; exact I].
      intros I. apply in_app_or in I. destruct I as [I|[->|[]]]; [contradiction|]. apply K. left. reflexivity.
  Qed.
  Lemma det_snoc side l a : det side (l ++ [a]) <-> det side l /\ ~ In (side a) (map side l) /\ is_epsilon (side a) = false.
  Proof.
    unfold det. rewrite map_app. cbn [map]. rewrite NoDup_snoc. split.
    - intros [[H K] E]. repeat split; try assumption.
      + intros I. apply E, in_or_app. left. exact I.
      + destruct (is_epsilon (side a)) eqn:Q; [|reflexivity]. apply is_epsilon_iff in Q. exfalso. apply E, in_or_app. right. left. exact Q.
    - intros [[H E] [K Q]]. repeat split; try assumption. intros I. apply in_app_or in I. destruct I as [I|[I|[]]]; [contradiction|].
      apply is_epsilon_iff in I. congruence.
  Qed.
  Lemma twice (l : list bstr) x : (1 <? counter bcmp (bump bcmp (counted bcmp l) x) x) = true <-> In x l.
  Proof.
    rewrite <- counted_snoc. rewrite (counter_counted bcmp bstr_eq_dec bcmp_eq), count_occ_app. cbn [count_occ]. destruct (bstr_eq_dec x x) as [_|N]; [|congruence].
    rewrite Nat.ltb_lt, (count_occ_In bstr_eq_dec). lia.
  Qed.
  Lemma go_det l : let v := fst (go l) in
    (v_idet v = true <-> v_idet v0 = true /\ det isy l) /\ (v_odet v = true <-> v_odet v0 = true /\ det osy l).
  Proof.
    induction l as [|a l IH] using rev_ind.
    - cbn. unfold det. cbn. split; (split; [intros H; split; [exact H|split; [constructor|intros []]]|intros [H _]; exact H]).
    - cbv zeta in *. rewrite !det_snoc.
      step l a. destruct IH as [I1 I2].
      pose proof (twice (map isy l) (isy a)) as T1. pose proof (twice (map osy l) (osy a)) as T2.
      destruct (1 <? counter bcmp (bump bcmp (counted bcmp (map isy l)) (isy a)) (isy a)),
        (1 <? counter bcmp (bump bcmp (counted bcmp (map osy l)) (osy a)) (osy a)),
        (is_epsilon (isy a)), (is_epsilon (osy a)); cbn; intuition congruence.
  Qed.
  Lemma go_cyc l : let v := fst (go l) in
    (v_cyc v = true <-> v_cyc v0 = true \/ exists a, In a l /\ tgt a = s) /\
    (v_cyc0 v = true <-> v_cyc0 v0 = true \/ s = 0 /\ exists a, In a l /\ tgt a = 0).
  Proof.
    induction l as [|a l IH] using rev_ind.
    - cbn. split; (split; [auto|]); [intros [H|(a & [] & _)]; exact H|intros [H|(_ & a & [] & _)]; exact H].
    - cbv zeta in *. step l a. destruct IH as [I1 I2].
      assert (X : forall P : arc -> Prop, (exists b, In b (l ++ [a]) /\ P b) <-> (exists b, In b l /\ P b) \/ P a).
      { intros P. split.
        - intros (b & H & Q). apply in_app_or in H. destruct H as [H|[<-|[]]]; [left; exists b; auto|right; exact Q].
        - intros [(b & H & Q)|Q]; [exists b; split; [apply in_or_app; left; exact H|exact Q]|].
          exists a. split; [apply in_or_app; right; left; reflexivity|exact Q]. }
      rewrite !X.
      destruct (Nat.eqb_spec s 0) as [E0|N0]; destruct (Nat.eqb_spec (tgt a) 0) as [E1|N1]; cbn;
        destruct (Nat.eqb_spec s (tgt a)) as [E2|N2]; rewrite ?I1, ?I2; intuition congruence.
  Qed.
  Lemma go_pairs l : pairs = true -> v_pairs (fst (go l)) = fold_left (bump pcmp) (map label l) (v_pairs v0).
  Proof.
    intros P. induction l as [|a l IH] using rev_ind; [reflexivity|]. rewrite map_app, fold_left_app. cbn [map fold_left].
    rewrite <- IH. step l a. rewrite P. reflexivity.
  Qed.
End State.
