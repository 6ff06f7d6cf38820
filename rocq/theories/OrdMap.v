(** Ordered maps and sets stay strictly sorted by their comparison; strictly sorted lists
    have no repeated keys.  No HFST code is modelled here. *)
From Coq Require Import Sorted.
From Verif Require Import Base.

Section Ord.
  Context {K : Type} (cmp : K -> K -> comparison).
  Hypothesis Heq : forall x y, cmp x y = Eq <-> x = y.
  Hypothesis Htr : forall x y z, cmp x y = Lt -> cmp y z = Lt -> cmp x z = Lt.
  Hypothesis Hop : forall x y, cmp y x = CompOpp (cmp x y).

  Definition klt (x y : K) : Prop := cmp x y = Lt.

  Lemma klt_irrefl x : ~ klt x x.
  Proof. unfold klt. rewrite (proj2 (Heq x x) eq_refl). discriminate. Qed.

  Lemma gt_lt x y : cmp x y = Gt -> klt y x.
  Proof. intros H. unfold klt. rewrite Hop, H. reflexivity. Qed.

  Lemma sorted_NoDup l : StronglySorted klt l -> NoDup l.
  Proof.
    induction 1 as [|a l S IH F]; constructor; [|exact IH].
    intros Hin. rewrite Forall_forall in F. exact (klt_irrefl a (F a Hin)).
  Qed.

  Lemma sorted_mset {V} k (v : V) m :
    StronglySorted klt (map fst m) -> StronglySorted klt (map fst (mset cmp k v m)).
  Proof.
    induction m as [|[k' v'] r IH]; simpl; intros S.
    - constructor; constructor.
    - inversion S as [|x y S1 F]; subst. destruct (cmp k k') eqn:E; simpl.
      + apply Heq in E. subst k'. exact S.
      + constructor; [exact S|]. constructor; [exact E|].
        rewrite Forall_forall in *. intros z Hz. eapply Htr; [exact E|]. apply F, Hz.
      + constructor; [apply IH, S1|]. rewrite Forall_forall in *. intros z Hz.
        apply in_map_iff in Hz. destruct Hz as ([k2 v2] & <- & Hz).
        apply In_mset in Hz. destruct Hz as [Hz|Hz].
        * injection Hz as -> ->. apply gt_lt, E.
        * apply F. apply in_map_iff. exists (k2, v2). auto.
  Qed.

  Lemma sorted_sadd k s : StronglySorted klt s -> StronglySorted klt (sadd cmp k s).
  Proof.
    induction s as [|k' r IH]; simpl; intros S.
    - constructor; constructor.
    - inversion S as [|x y S1 F]; subst. destruct (cmp k k') eqn:E.
      + exact S.
      + constructor; [exact S|]. constructor; [exact E|].
        rewrite Forall_forall in *. intros z Hz. eapply Htr; [exact E|]. apply F, Hz.
      + constructor; [apply IH, S1|]. rewrite Forall_forall in *. intros z Hz.
        apply (In_sadd cmp Heq) in Hz. destruct Hz as [-> |Hz]; [apply gt_lt, E|apply F, Hz].
  Qed.

  Lemma sorted_ext s1 : forall s2, StronglySorted klt s1 -> StronglySorted klt s2 ->
    (forall x, In x s1 <-> In x s2) -> s1 = s2.
  Proof.
    induction s1 as [|a s1 IH]; intros s2 S1 S2 H.
    - destruct s2 as [|b s2]; [reflexivity|]. exfalso. apply (H b). left. reflexivity.
    - destruct s2 as [|b s2]; [exfalso; apply (H a); left; reflexivity|].
      inversion S1 as [|x y S1' F1]; subst. inversion S2 as [|x y S2' F2]; subst.
      rewrite Forall_forall in F1, F2.
      assert (E : a = b).
      { destruct (proj1 (H a) (or_introl eq_refl)) as [E|Ha]; [auto|].
        destruct (proj2 (H b) (or_introl eq_refl)) as [E|Hb]; [auto|].
        exfalso. apply (klt_irrefl a). eapply Htr; [apply F1, Hb|apply F2, Ha]. }
      subst b. f_equal. apply IH; [exact S1'|exact S2'|].
      intros x. split; intros Hx.
      + destruct (proj1 (H x) (or_intror Hx)) as [-> |Hy]; [|exact Hy].
        exfalso. exact (klt_irrefl x (F1 x Hx)).
      + destruct (proj2 (H x) (or_intror Hx)) as [-> |Hy]; [|exact Hy].
        exfalso. exact (klt_irrefl x (F2 x Hx)).
  Qed.

  Lemma mget_sorted_In {V} k (v : V) m :
    NoDup (map fst m) -> (mget cmp k m = Some v <-> In (k, v) m).
  Proof.
    intros N. split; [apply (mget_In cmp Heq)|].
    induction m as [|[k' v'] r IH]; simpl; [intros []|].
    inversion N as [|x y N1 N2]; subst. intros [E|Hin].
    - injection E as -> ->. rewrite (proj2 (Heq k k) eq_refl). reflexivity.
    - destruct (cmp k k') eqn:E; [|exact (IH N2 Hin)|exact (IH N2 Hin)].
      apply Heq in E. subst k'. exfalso. apply N1. apply in_map_iff. exists (k, v). auto.
  Qed.
End Ord.

Lemma acmp_op a b : acmp b a = CompOpp (acmp a b).
Proof. unfold acmp. apply N.compare_antisym. Qed.

Lemma bcmp_op x : forall y, bcmp y x = CompOpp (bcmp x y).
Proof.
  induction x as [|a x IH]; intros [|b y]; simpl; try reflexivity.
  rewrite (acmp_op a b). destruct (acmp a b); simpl; [apply IH|reflexivity|reflexivity].
Qed.

Lemma acmp_lt a b : acmp a b = Lt <-> (N_of_ascii a < N_of_ascii b)%N.
Proof. unfold acmp. apply N.compare_lt_iff. Qed.

Lemma bcmp_trans x : forall y z, bcmp x y = Lt -> bcmp y z = Lt -> bcmp x z = Lt.
Proof.
  induction x as [|a x IH]; intros [|b y] [|c z]; simpl; try discriminate; try reflexivity.
  intros H1 H2.
  destruct (acmp a b) eqn:E1; try discriminate; destruct (acmp b c) eqn:E2; try discriminate.
  - apply acmp_eq in E1, E2. subst. rewrite (proj2 (acmp_eq c c) eq_refl). eauto.
  - apply acmp_eq in E1. subst. rewrite E2. reflexivity.
  - apply acmp_eq in E2. subst. rewrite E1. reflexivity.
  - apply acmp_lt in E1. apply acmp_lt in E2. rewrite (proj2 (acmp_lt a c) (N.lt_trans _ _ _ E1 E2)). reflexivity.
Qed.

Lemma ncmp_op x y : Nat.compare y x = CompOpp (Nat.compare x y).
Proof. apply Nat.compare_antisym. Qed.
Lemma ncmp_trans x y z : Nat.compare x y = Lt -> Nat.compare y z = Lt -> Nat.compare x z = Lt.
Proof. rewrite !Nat.compare_lt_iff. lia. Qed.
