(** Difference and intersection exist: the subset construction and the product. *)
From Verif Require Import Base Flags_Model BT_Model BT_Spec BT_Proofs BT_Proofs3 Harm_Spec Co_Spec Co_Model Co_Proofs PU_Spec PU_Model PU_Proofs PU_Proofs5.

(** * Sets of states as numbers *)
Fixpoint code (n : nat) (f : nat -> bool) : nat :=
  match n with 0 => 0 | S n => Nat.b2n (f 0) + 2 * code n (fun i => f (S i)) end.
Lemma code_bit n : forall f i, i < n -> Nat.testbit (code n f) i = f i.
Proof.
  induction n as [|n IH]; intros f i L; [lia|]. cbn [code]. destruct i as [|i].
  - apply Nat.add_b2n_double_bit0.
  - rewrite Nat.add_comm, Nat.testbit_succ_r. exact (IH (fun j => f (S j)) i ltac:(lia)).
Qed.
Lemma code_lt n : forall f, code n f < 2 ^ n.
Proof. induction n as [|n IH]; intros f; cbn [code Nat.pow]; [lia|]. specialize (IH (fun i => f (S i))). destruct (f 0); cbn [Nat.b2n]; lia. Qed.

(** * The states reached *)
Section Subset.
  Variable g : graph.
  Hypothesis S : structure_ok g.
  Let n := length (sts g).
  Definition ee (a : arc) : bool := bstr_eqb (isy a) EPS && bstr_eqb (osy a) EPS.
  Lemma ee_spec a : ee a = true <-> (isy a, osy a) = EE.
  Proof. unfold ee. rewrite andb_true_iff, !bstr_eqb_eq. split; [intros [-> ->]; reflexivity|intros E; injection E; auto]. Qed.
  Definition has_arc (P : arc -> bool) (s t : nat) : bool := existsb (fun a => P a && (tgt a =? t)) (nth s (sts g) []).
  Definition via (P : arc -> bool) (f : nat -> bool) (t : nat) : bool := existsb (fun s => f s && has_arc P s t) (seq 0 n).
  Definition grow (f : nat -> bool) (t : nat) : bool := f t || via ee f t.
  Definition closure (f : nat -> bool) : nat -> bool := Nat.iter n grow f.
  Lemma via_spec P f t : via P f t = true <-> exists s a, s < n /\ f s = true /\ In a (nth s (sts g) []) /\ P a = true /\ tgt a = t.
  Proof.
    unfold via, has_arc. rewrite existsb_exists. split.
    - intros (s & Hs & H). apply in_seq in Hs. apply andb_true_iff in H. destruct H as [H1 H2]. apply existsb_exists in H2. destruct H2 as (a & Ha & H2).
      apply andb_true_iff in H2. destruct H2 as [H2 H3]. apply Nat.eqb_eq in H3. exists s, a. repeat split; auto; lia.
    - intros (s & a & L & H1 & Ha & H2 & H3). exists s. split; [apply in_seq; lia|]. rewrite H1. apply existsb_exists. exists a. rewrite H2, H3, Nat.eqb_refl. auto.
  Qed.
  Definition stable (f : nat -> bool) : Prop := forall t, t < n -> grow f t = f t.
  Definition count (f : nat -> bool) : nat := length (filter f (seq 0 n)).
  Lemma filter_grows (f h : nat -> bool) l : (forall t, In t l -> f t = true -> h t = true) ->
    length (filter f l) <= length (filter h l) /\ ((exists t, In t l /\ f t = false /\ h t = true) -> length (filter f l) < length (filter h l)).
  Proof.
    induction l as [|x l IH]; intros H; [split; [simpl; lia|intros (t & [] & _)]|]. destruct IH as [I1 I2]; [intros t Ht; apply H; right; exact Ht|].
    cbn [filter]. specialize (H x (or_introl eq_refl)). destruct (f x) eqn:Ef; [rewrite (H eq_refl)|]; cbn [length].
    - split; [lia|]. intros (t & [<-|Ht] & E1 & E2); [congruence|]. assert (length (filter f l) < length (filter h l)) by (apply I2; eauto). lia.
    - destruct (h x) eqn:Eh; cbn [length]; [split; [lia|intros _; lia]|]. split; [exact I1|]. intros (t & [<-|Ht] & E1 & E2); [congruence|]. apply I2. eauto.
  Qed.
  Lemma grow_grows f t : f t = true -> grow f t = true. Proof. unfold grow. intros ->. reflexivity. Qed.
  Lemma stable_or_more f : stable f \/ count f < count (grow f).
  Proof.
    destruct (existsb (fun t => negb (f t) && grow f t) (seq 0 n)) eqn:E.
    - right. apply existsb_exists in E. destruct E as (t & Ht & E). apply andb_true_iff in E. destruct E as [E1 E2]. apply negb_true_iff in E1.
      apply filter_grows; [intros s _; apply grow_grows|]. eauto.
    - left. intros t L. destruct (f t) eqn:F; [apply grow_grows, F|]. destruct (grow f t) eqn:G; [|reflexivity]. exfalso.
      assert (K : existsb (fun t => negb (f t) && grow f t) (seq 0 n) = true); [|congruence]. apply existsb_exists. exists t. split; [apply in_seq; lia|]. rewrite F, G. reflexivity.
  Qed.
  Lemma stable_next f : stable f -> stable (grow f).
  Proof.
    intros H t L. assert (E : forall s, s < n -> grow f s = f s) by exact H. unfold grow at 1. rewrite E by exact L. destruct (f t) eqn:F; [reflexivity|]. cbn [orb].
    destruct (via ee (grow f) t) eqn:V; [|reflexivity]. apply via_spec in V. destruct V as (s & a & Ls & Fs & Ha & Ea & Et). rewrite E in Fs by exact Ls.
    rewrite <- F. rewrite <- (E t L). symmetry. unfold grow. apply orb_true_iff. right. apply via_spec. exists s, a. auto.
  Qed.
  Lemma iter_stable k f : stable (Nat.iter k grow f) \/ k <= count (Nat.iter k grow f).
  Proof.
    induction k as [|k IH]; [right; lia|]. cbn [Nat.iter nat_rect]. destruct IH as [IH|IH]; [left; apply stable_next, IH|].
    destruct (stable_or_more (Nat.iter k grow f)) as [H|H]; [left; apply stable_next, H|right]. unfold Nat.iter in *. lia.
  Qed.
  Lemma filter_all {X} (f : X -> bool) l : length l <= length (filter f l) -> forall x, In x l -> f x = true.
  Proof.
    induction l as [|y l IH]; intros H x; [intros []|]. cbn [filter length] in H. destruct (f y) eqn:E.
    - cbn [length] in H. intros [<-|Hx]; [exact E|]. apply IH; [lia|exact Hx].
    - assert (length (filter f l) <= length l); [|lia]. clear. induction l as [|z l IH]; [simpl; lia|]. cbn [filter length]. destruct (f z); cbn [length]; lia.
  Qed.
  Lemma closure_stable f : stable (closure f).
  Proof.
    destruct (iter_stable n f) as [H|H]; [exact H|]. intros t L. fold (closure f) in H. unfold count in H.
    assert (A : closure f t = true); [|rewrite A; apply grow_grows, A]. apply (filter_all (closure f) (seq 0 n)); [rewrite seq_length; exact H|]. apply in_seq. lia.
  Qed.
  (** Paths of epsilon:epsilon. *)
  Inductive epath : nat -> nat -> Prop :=
  | ep_nil s : epath s s
  | ep_cons s a t : In a (nth s (sts g) []) -> (isy a, osy a) = EE -> epath (tgt a) t -> epath s t.
  Lemma epath_snoc s t : epath s t -> forall a, In a (nth t (sts g) []) -> (isy a, osy a) = EE -> epath s (tgt a).
  Proof.
    intros H. induction H as [s|s b t Hb Eb H IH]; intros a Ha Ea; [exact (ep_cons s a _ Ha Ea (ep_nil _))|]. exact (ep_cons s b _ Hb Eb (IH a Ha Ea)).
  Qed.
  Lemma closure_spec f t : t < n -> closure f t = true <-> exists s, s < n /\ f s = true /\ epath s t.
  Proof using All.
    intros L. split.
    - enough (Q : forall k t, t < n -> Nat.iter k grow f t = true -> exists s, s < n /\ f s = true /\ epath s t) by (apply Q, L). clear t L.
      induction k as [|k IH]; intros t L H; [exists t; split; [exact L|split; [exact H|constructor]]|].
      cbn [Nat.iter nat_rect] in H. fold (Nat.iter k grow f) in H. unfold grow at 1 in H. apply orb_true_iff in H. destruct H as [H|H]; [exact (IH t L H)|].
      apply via_spec in H. destruct H as (s & a & Ls & Fs & Ha & Ea & <-). destruct (IH s Ls Fs) as (u & Lu & Fu & P). exists u. split; [exact Lu|]. split; [exact Fu|].
      apply (epath_snoc _ _ P a Ha). apply ee_spec, Ea.
    - intros (s & Ls & Fs & P). assert (C : closure f s = true).
      { unfold closure. generalize n at 1 as k. intros k. induction k as [|k IH]; [exact Fs|]. cbn [Nat.iter nat_rect]. apply grow_grows, IH. }
      clear Fs. induction P as [s|s a t Ha Ea P IH]; [exact C|]. assert (La : tgt a < n) by exact (proj1 (proj2 S) _ _ Ha). apply IH; [exact L|exact La|].
      rewrite <- closure_stable by exact La. unfold grow. apply orb_true_iff. right. apply via_spec. exists s, a. repeat split; auto. apply ee_spec, Ea.
  Qed.

  Definition is_label (p : bstr * bstr) (a : arc) : bool := bstr_eqb (isy a) (fst p) && bstr_eqb (osy a) (snd p).
  Lemma is_label_spec p a : is_label p a = true <-> (isy a, osy a) = p.
  Proof. destruct p as [x y]. unfold is_label. cbn [fst snd]. rewrite andb_true_iff, !bstr_eqb_eq. split; [intros [-> ->]; reflexivity|intros E; injection E; auto]. Qed.
  Definition start : nat := code n (closure (fun t => t =? 0)).
  Definition next (k : nat) (p : bstr * bstr) : nat := code n (closure (via (is_label p) (Nat.testbit k))).
  Definition nexts (k : nat) (l : list (bstr * bstr)) : nat := fold_left next l k.
  Lemma epath_run s t : epath s t -> exists c w, run g s c w t /\ without_empty c = [].
  Proof.
    intros P. induction P as [s|s a t Ha Ea P (c & w & R & E)]; [exists [], 0%Z; split; [constructor|reflexivity]|].
    exists ((isy a, osy a) :: c), (wt a + w)%Z. split; [exact (run_cons g s a c w t Ha R)|]. rewrite Ea, we_empty. exact E.
  Qed.
  Lemma run_epath s c w t : run g s c w t -> without_empty c = [] -> epath s t.
  Proof.
    intros R. induction R as [s|s a c w t Ha R IH]; intros E; [constructor|]. destruct (pair_dec (isy a, osy a) EE) as [Ea|N]; [|rewrite we_keep in E by exact N; discriminate].
    rewrite Ea, we_empty in E. exact (ep_cons s a t Ha Ea (IH E)).
  Qed.
  Lemma we_app a b : without_empty (a ++ b) = without_empty a ++ without_empty b.
  Proof. apply filter_app. Qed.
  Lemma we_split c : forall l p, without_empty c = l ++ [p] -> exists c1 c2, c = c1 ++ p :: c2 /\ without_empty c1 = l /\ without_empty c2 = [].
  Proof.
    induction c as [|q c IH]; intros l p E; [destruct l; discriminate|]. destruct (pair_dec q EE) as [->|N].
    - rewrite we_empty in E. destruct (IH l p E) as (c1 & c2 & -> & E1 & E2). exists (EE :: c1), c2. rewrite we_empty. auto.
    - rewrite we_keep in E by exact N. destruct l as [|q' l]; cbn [app] in E.
      + injection E as -> E. exists [], c. auto.
      + injection E as -> E. destruct (IH l p E) as (c1 & c2 & -> & E1 & E2). exists (q' :: c1), c2. rewrite we_keep by exact N. rewrite E1. auto.
  Qed.
  (** The set holds the states reached by the sequence. *)
  Lemma nexts_spec l : Forall (fun p => p <> EE) l -> forall t, t < n -> Nat.testbit (nexts start l) t = true <-> exists c w, run g 0 c w t /\ without_empty c = l.
  Proof using All.
    pose proof (structure_zero g S) as Z0. fold n in Z0. induction l as [|p l IH] using rev_ind; intros NE t L.
    - cbn [nexts fold_left]. unfold start. rewrite code_bit by exact L. rewrite closure_spec by exact L. split.
      + intros (s & _ & E & P). apply Nat.eqb_eq in E. subst s. exact (epath_run 0 t P).
      + intros (c & w & R & E). exists 0. split; [exact Z0|]. split; [reflexivity|]. exact (run_epath _ _ _ _ R E).
    - apply Forall_app in NE. destruct NE as [NE Np]. inversion Np as [|? ? Np' _]; subst. unfold nexts. rewrite fold_left_app. cbn [fold_left]. fold (nexts start l). unfold next at 1. rewrite code_bit by exact L.
      rewrite closure_spec by exact L. split.
      + intros (s & Ls & V & P). apply via_spec in V. destruct V as (u & a & Lu & T & Ha & Ea & <-). apply (IH NE u Lu) in T. destruct T as (c & w & R & E).
        apply is_label_spec in Ea. destruct (epath_run _ _ P) as (c2 & w2 & R2 & E2). exists (c ++ (isy a, osy a) :: c2), (w + (wt a + w2))%Z.
        split; [exact (run_app _ _ _ _ _ _ _ _ R (run_cons g u a c2 w2 t Ha R2))|]. rewrite we_app, we_keep by congruence. rewrite E, E2, Ea. reflexivity.
      + intros (c & w & R & E). destruct (we_split c l p E) as (c1 & c2 & -> & E1 & E2). apply run_app_inv in R. destruct R as (w1 & w2 & u & R1 & R2 & _).
        inversion R2 as [|s a c' v t' Ha R3]; subst. exists (tgt a). split; [exact (proj1 (proj2 S) _ _ Ha)|]. split; [|exact (run_epath _ _ _ _ R3 E2)].
        apply via_spec. exists u, a. pose proof (run_bound _ _ _ _ _ S R1 Z0) as Lu. fold n in Lu. repeat split; auto; [|apply is_label_spec; reflexivity]. apply (IH NE u Lu). eauto.
  Qed.
  Lemma nexts_lt k l : k < 2 ^ n -> nexts k l < 2 ^ n.
  Proof. revert k. induction l as [|p l IH]; intros k L; [exact L|]. cbn [nexts fold_left]. apply IH. apply code_lt. Qed.
  Definition is_end (t : nat) : bool := match mget Nat.compare t (fin g) with Some _ => true | None => false end.
  Definition accepting (k : nat) : bool := existsb (fun t => Nat.testbit k t && is_end t) (seq 0 n).
  Lemma accepting_spec l : Forall (fun p => p <> EE) l -> accepting (nexts start l) = true <-> exists w, label_string g l w.
  Proof using All.
    intros NE. pose proof (structure_zero g S) as Z0. fold n in Z0. unfold accepting. rewrite existsb_exists. split.
    - intros (t & Ht & H). apply in_seq in Ht. apply andb_true_iff in H. destruct H as [H1 H2]. apply nexts_spec in H1; [|exact NE|lia]. destruct H1 as (c & w & R & E).
      unfold is_end in H2. destruct (mget Nat.compare t (fin g)) as [f|] eqn:F; [|discriminate]. exists (w + f)%Z, c. split; [exists t, w, f; auto|auto].
    - intros (w & c & (t & v & f & R & F & _) & ->). pose proof (run_bound _ _ _ _ _ S R Z0) as L. fold n in L. exists t. split; [apply in_seq; lia|].
      apply andb_true_iff. split; [apply nexts_spec; eauto|]. unfold is_end. rewrite F. reflexivity.
  Qed.
End Subset.

(** * Difference *)
Section Difference.
  Variables g1 g2 : graph.
  Hypothesis S1 : structure_ok g1.
  Hypothesis S2 : structure_ok g2.
  Let n1 := length (sts g1).
  Let m := 2 ^ length (sts g2).
  (** The numbers 0 and [start g2] exchanged, so that state 0 is the initial one. *)
  Definition sw (k : nat) : nat := if k =? 0 then start g2 else if k =? start g2 then 0 else k.
  Definition dst (s k : nat) : nat := s * m + sw k.
  Definition cur (q : nat) : nat := sw (q mod m).
  Definition move (k : nat) (a : arc) : nat := if ee a then k else next g2 k (isy a, osy a).
  Definition darcs (q : nat) : list arc := map (fun a => Arc (dst (tgt a) (move (cur q) a)) (isy a) (osy a) (wt a)) (nth (q / m) (sts g1) []).
  Definition dfin (q : nat) : option Z := if accepting g2 (cur q) then None else mget Nat.compare (q / m) (fin g1).
  Definition difference_of : graph := built (n1 * m) darcs dfin (alpha g1).
  Lemma m_pos : 0 < m. Proof. unfold m. apply Nat.neq_0_lt_0, Nat.pow_nonzero. lia. Qed.
  Lemma start_lt : start g2 < m. Proof. apply code_lt. Qed.
  Lemma sw_sw k : sw (sw k) = k.
  Proof.
    unfold sw. destruct (Nat.eqb_spec k 0) as [->|N0].
    - destruct (Nat.eqb_spec (start g2) 0) as [->|]; [reflexivity|]. rewrite Nat.eqb_refl. reflexivity.
    - destruct (Nat.eqb_spec k (start g2)) as [->|N1]; [reflexivity|]. rewrite (proj2 (Nat.eqb_neq _ _) N0), (proj2 (Nat.eqb_neq _ _) N1). reflexivity.
  Qed.
  Lemma sw_lt k : k < m -> sw k < m.
  Proof. intros L. pose proof start_lt. pose proof m_pos. unfold sw. destruct (k =? 0); [assumption|]. destruct (k =? start g2); assumption. Qed.
  Lemma dst_div s k : k < m -> dst s k / m = s /\ cur (dst s k) = k.
  Proof.
    intros L. apply sw_lt in L. unfold cur, dst. pose proof m_pos. split.
    - rewrite Nat.div_add_l by lia. rewrite Nat.div_small by exact L. lia.
    - rewrite Nat.add_comm, Nat.mod_add by lia. rewrite Nat.mod_small by exact L. apply sw_sw.
  Qed.
  Lemma dst_lt s k : s < n1 -> k < m -> dst s k < n1 * m. Proof. unfold dst. intros L K. apply sw_lt in K. nia. Qed.
  Lemma move_lt k a : k < m -> move k a < m.
  Proof. intros L. unfold move. destruct (ee a); [exact L|]. apply code_lt. Qed.
  Lemma dpos : 0 < n1 * m.
  Proof using S1. pose proof (structure_zero g1 S1) as Z1. fold n1 in Z1. pose proof m_pos. nia. Qed.
  Lemma dtgt s a : s < n1 * m -> In a (darcs s) -> tgt a < n1 * m.
  Proof using S1.
    intros L Ha. apply in_map_iff in Ha. destruct Ha as (b & <- & Hb). cbn [tgt]. apply dst_lt; [exact (proj1 (proj2 S1) _ _ Hb)|]. apply move_lt. apply sw_lt. apply Nat.mod_upper_bound. pose proof m_pos. lia.
  Qed.
  Lemma drun s k c w q : s < n1 -> k < m -> run difference_of (dst s k) c w q <-> exists t, run g1 s c w t /\ q = dst t (nexts g2 k (without_empty c)).
  Proof using S1 S2.
    intros L K. split.
    - remember (dst s k) as r eqn:E. intros R. revert s k L K E. induction R as [r|r a c w q Ha R IH]; intros s k L K ->; [exists s; split; [constructor|reflexivity]|].
      unfold difference_of in Ha. rewrite built_arcs in Ha by (apply dst_lt; assumption). unfold darcs in Ha. destruct (dst_div s k K) as [E1 E2]. rewrite E1, E2 in Ha.
      apply in_map_iff in Ha. destruct Ha as (b & <- & Hb). cbn [tgt isy osy wt] in *.
      destruct (IH (tgt b) (move k b) (proj1 (proj2 S1) _ _ Hb) (move_lt k b K) eq_refl) as (t & Rt & ->). exists t. split; [exact (run_cons g1 s b c w t Hb Rt)|].
      f_equal. unfold move. destruct (ee b) eqn:Eb; [apply ee_spec in Eb; rewrite Eb, we_empty; reflexivity|].
      rewrite we_keep; [reflexivity|]. intros X. apply ee_spec in X. congruence.
    - intros (t & R & ->). revert k K. induction R as [s|s a c w t Ha R IH]; intros k K; [constructor|].
      assert (E : nexts g2 k (without_empty ((isy a, osy a) :: c)) = nexts g2 (move k a) (without_empty c)).
      { unfold move. destruct (ee a) eqn:Eb; [apply ee_spec in Eb; rewrite Eb, we_empty; reflexivity|]. rewrite we_keep; [reflexivity|]. intros X. apply ee_spec in X. congruence. }
      rewrite E. destruct (dst_div s k K) as [E1 E2].
      apply (run_cons difference_of (dst s k) (Arc (dst (tgt a) (move k a)) (isy a) (osy a) (wt a))).
      + unfold difference_of. rewrite built_arcs by (apply dst_lt; assumption). unfold darcs. rewrite E1, E2. apply in_map_iff. exists a. auto.
      + cbn [tgt]. apply IH; [exact (proj1 (proj2 S1) _ _ Ha)|apply move_lt, K].
  Qed.
  Lemma subtracted_exists : subtracted g1 g2 difference_of.
  Proof using S1 S2.
    pose proof (structure_zero g1 S1) as Z1. fold n1 in Z1. pose proof start_lt as K0.
    assert (D0 : dst 0 (start g2) = 0) by (unfold dst, sw; rewrite Nat.eqb_refl; destruct (Nat.eqb_spec (start g2) 0) as [->|]; reflexivity).
    assert (Q : forall c, Forall (fun p => p <> EE) (without_empty c)) by (intros c; apply Forall_forall; intros p Hp; apply we_In in Hp; tauto).
    assert (E : forall l w, label_string difference_of l w <-> label_string g1 l w /\ ~ exists w2, label_string g2 l w2).
    { intros l w. unfold label_string at 1 2. split.
      - intros (c & Ac & ->). apply built_accepts in Ac; [|apply dpos|apply dtgt]. destruct Ac as (q & v & f & R & Lq & F & ->). fold difference_of in R. rewrite <- D0 in R.
        apply (drun _ _ _ _ _ Z1 K0) in R. destruct R as (t & R & ->). pose proof (nexts_lt g2 (start g2) (without_empty c) K0) as KL. fold m in KL. destruct (dst_div t _ KL) as [E1 E2].
        unfold dfin in F. rewrite E1, E2 in F. destruct (accepting g2 _) eqn:Acc; [discriminate|]. split; [exists c; split; [exists t, v, f; auto|reflexivity]|].
        rewrite <- (accepting_spec g2 S2 _ (Q c)). congruence.
      - intros [(c & (t & v & f & R & F & ->) & ->) N]. exists c. split; [|reflexivity]. apply built_accepts; [apply dpos|apply dtgt|].
        pose proof (nexts_lt g2 (start g2) (without_empty c) K0) as KL. fold m in KL. destruct (dst_div t _ KL) as [E1 E2]. exists (dst t (nexts g2 (start g2) (without_empty c))), v, f.
        split; [fold difference_of; rewrite <- D0 at 1; apply (drun _ _ _ _ _ Z1 K0); eauto|]. pose proof (run_bound _ _ _ _ _ S1 R Z1) as Lt. fold n1 in Lt.
        split; [apply dst_lt; assumption|]. split; [|reflexivity]. unfold dfin. rewrite E1, E2. rewrite <- (accepting_spec g2 S2 _ (Q c)) in N. destruct (accepting g2 _); [tauto|exact F]. }
    split; [split; [apply built_structure; [apply dpos|apply dtgt]|]|split; [reflexivity|split]].
    - intros s a Ha. unfold difference_of in Ha. rewrite built_nth in Ha. destruct (s <? n1 * m); [|destruct Ha]. apply in_map_iff in Ha. destruct Ha as (b & <- & Hb). right.
      exists g1, (s / m), b. split; [left; reflexivity|auto].
    - intros l w. apply E.
    - intros l w H N. exists w. split; [apply E; auto|lia].
  Qed.
End Difference.

(** * Intersection *)
Section Intersection.
  Variables g1 g2 : graph.
  Hypothesis S1 : structure_ok g1.
  Hypothesis S2 : structure_ok g2.
  Let n1 := length (sts g1).
  Let n2 := length (sts g2).
  Definition ist (s1 s2 : nat) := s1 * n2 + s2.
  Definition iarcs' (s1 s2 : nat) : list arc :=
    map (fun a => Arc (ist (tgt a) s2) EPS EPS (wt a)) (filter ee (nth s1 (sts g1) []))
    ++ map (fun b => Arc (ist s1 (tgt b)) EPS EPS (wt b)) (filter ee (nth s2 (sts g2) []))
    ++ flat_map (fun a => map (fun b => Arc (ist (tgt a) (tgt b)) (isy a) (osy a) (wt a + wt b))
                              (filter (is_label (isy a, osy a)) (nth s2 (sts g2) [])))
                (filter (fun a => negb (ee a)) (nth s1 (sts g1) [])).
  Definition iarcs (q : nat) : list arc := iarcs' (q / n2) (q mod n2).
  Definition ifin (q : nat) : option Z :=
    match mget Nat.compare (q / n2) (fin g1), mget Nat.compare (q mod n2) (fin g2) with Some x, Some y => Some (x + y)%Z | _, _ => None end.
  Definition intersection_of : graph := built (n1 * n2) iarcs ifin (alpha g1).
  Lemma ist_div s1 s2 : s2 < n2 -> ist s1 s2 / n2 = s1 /\ ist s1 s2 mod n2 = s2.
  Proof.
    intros L. unfold ist. split.
    - rewrite Nat.div_add_l by lia. rewrite Nat.div_small by exact L. lia.
    - rewrite Nat.add_comm, Nat.mod_add by lia. apply Nat.mod_small, L.
  Qed.
  Lemma ist_lt s1 s2 : s1 < n1 -> s2 < n2 -> ist s1 s2 < n1 * n2. Proof. unfold ist. intros. nia. Qed.
  Lemma iarcs_In s1 s2 a : In a (iarcs' s1 s2) <->
    (exists b, In b (nth s1 (sts g1) []) /\ (isy b, osy b) = EE /\ a = Arc (ist (tgt b) s2) EPS EPS (wt b)) \/
    (exists b, In b (nth s2 (sts g2) []) /\ (isy b, osy b) = EE /\ a = Arc (ist s1 (tgt b)) EPS EPS (wt b)) \/
    (exists b c, In b (nth s1 (sts g1) []) /\ In c (nth s2 (sts g2) []) /\ (isy b, osy b) <> EE /\ (isy c, osy c) = (isy b, osy b) /\
       a = Arc (ist (tgt b) (tgt c)) (isy b) (osy b) (wt b + wt c)).
  Proof.
    unfold iarcs'. rewrite !in_app_iff, !in_map_iff, in_flat_map. split.
    - intros [(b & <- & H)|[(b & <- & H)|(b & H & K)]].
      + apply filter_In in H. rewrite ee_spec in H. left. exists b. tauto.
      + apply filter_In in H. rewrite ee_spec in H. right. left. exists b. tauto.
      + apply filter_In in H. destruct H as [Hb N]. apply in_map_iff in K. destruct K as (c & <- & K). apply filter_In in K. rewrite is_label_spec in K. right. right. exists b, c.
        repeat split; try tauto. intros X. apply ee_spec in X. rewrite X in N. discriminate.
    - intros [(b & H & E & ->)|[(b & H & E & ->)|(b & c & H & K & N & E & ->)]].
      + left. exists b. split; [reflexivity|]. apply filter_In. rewrite ee_spec. auto.
      + right. left. exists b. split; [reflexivity|]. apply filter_In. rewrite ee_spec. auto.
      + right. right. exists b. split; [apply filter_In; split; [exact H|]; destruct (ee b) eqn:X; [apply ee_spec in X; congruence|reflexivity]|].
        apply in_map_iff. exists c. split; [reflexivity|]. apply filter_In. rewrite is_label_spec. auto.
  Qed.
  Lemma i_arcs s1 s2 : s1 < n1 -> s2 < n2 -> nth (ist s1 s2) (sts intersection_of) [] = iarcs' s1 s2.
  Proof. intros L1 L2. unfold intersection_of. rewrite built_arcs by (apply ist_lt; assumption). unfold iarcs. destruct (ist_div s1 s2 L2) as [-> ->]. reflexivity. Qed.
  Lemma ipos : 0 < n1 * n2.
  Proof using S1 S2. pose proof (structure_zero g1 S1). pose proof (structure_zero g2 S2). unfold n1, n2. nia. Qed.
  Lemma itgt s a : s < n1 * n2 -> In a (iarcs s) -> tgt a < n1 * n2.
  Proof using S1 S2.
    intros L Ha. assert (N : n2 <> 0) by (pose proof ipos; nia). assert (L1 : s / n2 < n1) by (apply Nat.div_lt_upper_bound; [exact N|lia]). assert (L2 : s mod n2 < n2) by (apply Nat.mod_upper_bound, N).
    apply iarcs_In in Ha. destruct Ha as [(b & H & _ & ->)|[(b & H & _ & ->)|(b & c & H & K & _ & _ & ->)]]; cbn [tgt]; apply ist_lt; try assumption;
      first [exact (proj1 (proj2 S1) _ _ H)|exact (proj1 (proj2 S2) _ _ H)|exact (proj1 (proj2 S2) _ _ K)].
  Qed.
  Lemma isound q c w r : run intersection_of q c w r -> forall s1 s2, s1 < n1 -> s2 < n2 -> q = ist s1 s2 ->
    exists c1 w1 t1 c2 w2 t2, run g1 s1 c1 w1 t1 /\ run g2 s2 c2 w2 t2 /\ without_empty c1 = without_empty c /\ without_empty c2 = without_empty c /\ w = (w1 + w2)%Z /\ r = ist t1 t2 /\ t1 < n1 /\ t2 < n2.
  Proof using S1 S2.
    intros R. induction R as [q|q a c w r Ha R IH]; intros s1 s2 L1 L2 ->; [exists [], 0%Z, s1, [], 0%Z, s2; repeat split; try constructor; auto|].
    rewrite i_arcs in Ha by assumption. apply iarcs_In in Ha. destruct Ha as [(b & H & E & ->)|[(b & H & E & ->)|(b & d & H & K & N & E & ->)]]; cbn [tgt isy osy wt] in *.
    - destruct (IH (tgt b) s2 (proj1 (proj2 S1) _ _ H) L2 eq_refl) as (c1 & w1 & t1 & c2 & w2 & t2 & R1 & R2 & E1 & E2 & -> & -> & T).
      exists ((isy b, osy b) :: c1), (wt b + w1)%Z, t1, c2, w2, t2. split; [exact (run_cons g1 s1 b c1 w1 t1 H R1)|]. split; [exact R2|].
      rewrite E, !we_empty. repeat split; try tauto; lia.
    - destruct (IH s1 (tgt b) L1 (proj1 (proj2 S2) _ _ H) eq_refl) as (c1 & w1 & t1 & c2 & w2 & t2 & R1 & R2 & E1 & E2 & -> & -> & T).
      exists c1, w1, t1, ((isy b, osy b) :: c2), (wt b + w2)%Z, t2. split; [exact R1|]. split; [exact (run_cons g2 s2 b c2 w2 t2 H R2)|].
      rewrite E, !we_empty. repeat split; try tauto; lia.
    - destruct (IH (tgt b) (tgt d) (proj1 (proj2 S1) _ _ H) (proj1 (proj2 S2) _ _ K) eq_refl) as (c1 & w1 & t1 & c2 & w2 & t2 & R1 & R2 & E1 & E2 & -> & -> & T).
      exists ((isy b, osy b) :: c1), (wt b + w1)%Z, t1, ((isy d, osy d) :: c2), (wt d + w2)%Z, t2. split; [exact (run_cons g1 s1 b c1 w1 t1 H R1)|]. split; [exact (run_cons g2 s2 d c2 w2 t2 K R2)|].
      rewrite E, !we_keep by exact N. rewrite E1, E2. repeat split; try tauto; lia.
  Qed.
  Lemma icomplete s1 c1 w1 t1 : run g1 s1 c1 w1 t1 -> forall s2 c2 w2 t2, run g2 s2 c2 w2 t2 -> s1 < n1 -> s2 < n2 -> without_empty c1 = without_empty c2 ->
    exists c, run intersection_of (ist s1 s2) c (w1 + w2) (ist t1 t2) /\ without_empty c = without_empty c1.
  Proof using S1 S2.
    intros R1. induction R1 as [s1|s1 a c1 w1 t1 Ha R1 IH1]; intros s2 c2 w2 t2 R2; induction R2 as [s2|s2 b c2 w2 t2 Hb R2 IH2]; intros L1 L2 E.
    - exists []. split; [constructor|reflexivity].
    - destruct (pair_dec (isy b, osy b) EE) as [Eb|N]; [|rewrite we_keep in E by exact N; discriminate]. rewrite Eb, we_empty in E.
      destruct (IH2 L1 (proj1 (proj2 S2) _ _ Hb) E) as (c & R & Ec). exists (EE :: c). rewrite we_empty. split; [|exact Ec]. replace (0 + (wt b + w2))%Z with (wt b + (0 + w2))%Z by lia.
      apply (run_cons intersection_of (ist s1 s2) (Arc (ist s1 (tgt b)) EPS EPS (wt b))); [|exact R]. rewrite i_arcs by assumption. apply iarcs_In. right. left. eauto.
    - destruct (pair_dec (isy a, osy a) EE) as [Ea|N]; [|rewrite we_keep in E by exact N; discriminate]. rewrite Ea, we_empty in *.
      destruct (IH1 _ _ _ _ (run_nil g2 s2) (proj1 (proj2 S1) _ _ Ha) L2 E) as (c & R & Ec). exists (EE :: c). rewrite we_empty. split; [|exact Ec]. replace (wt a + w1 + 0)%Z with (wt a + (w1 + 0))%Z by lia.
      apply (run_cons intersection_of (ist s1 s2) (Arc (ist (tgt a) s2) EPS EPS (wt a))); [|exact R]. rewrite i_arcs by assumption. apply iarcs_In. left. eauto.
    - destruct (pair_dec (isy a, osy a) EE) as [Ea|Na].
      + rewrite Ea, we_empty in *. destruct (IH1 _ _ _ _ (run_cons g2 s2 b c2 w2 t2 Hb R2) (proj1 (proj2 S1) _ _ Ha) L2 E) as (c & R & Ec). exists (EE :: c). rewrite we_empty. split; [|exact Ec].
        replace (wt a + w1 + (wt b + w2))%Z with (wt a + (w1 + (wt b + w2)))%Z by lia.
        apply (run_cons intersection_of (ist s1 s2) (Arc (ist (tgt a) s2) EPS EPS (wt a))); [|exact R]. rewrite i_arcs by assumption. apply iarcs_In. left. eauto.
      + destruct (pair_dec (isy b, osy b) EE) as [Eb|Nb].
        * rewrite Eb, we_empty in E. destruct (IH2 L1 (proj1 (proj2 S2) _ _ Hb) E) as (c & R & Ec). exists (EE :: c). rewrite we_empty. split; [|exact Ec].
          replace (wt a + w1 + (wt b + w2))%Z with (wt b + (wt a + w1 + w2))%Z by lia.
          apply (run_cons intersection_of (ist s1 s2) (Arc (ist s1 (tgt b)) EPS EPS (wt b))); [|exact R]. rewrite i_arcs by assumption. apply iarcs_In. right. left. eauto.
        * rewrite !we_keep in E by assumption. injection E as Ei Eo E.
          destruct (IH1 _ _ _ _ R2 (proj1 (proj2 S1) _ _ Ha) (proj1 (proj2 S2) _ _ Hb) E) as (c & R & Ec). exists ((isy a, osy a) :: c). rewrite !we_keep by exact Na. rewrite Ec. split; [|reflexivity].
          replace (wt a + w1 + (wt b + w2))%Z with (wt a + wt b + (w1 + w2))%Z by lia.
          apply (run_cons intersection_of (ist s1 s2) (Arc (ist (tgt a) (tgt b)) (isy a) (osy a) (wt a + wt b))); [|exact R]. rewrite i_arcs by assumption. apply iarcs_In. right. right. exists a, b.
          repeat split; try assumption. congruence.
  Qed.
  Lemma intersected_exists : intersected g1 g2 intersection_of.
  Proof using S1 S2.
    pose proof (structure_zero g1 S1) as Z1. fold n1 in Z1. pose proof (structure_zero g2 S2) as Z2. fold n2 in Z2. assert (D0 : ist 0 0 = 0) by reflexivity.
    split; [split; [apply built_structure; [apply ipos|apply itgt]|]|split; [reflexivity|split]].
    - intros s a Ha. unfold intersection_of in Ha. rewrite built_nth in Ha. destruct (s <? n1 * n2); [|destruct Ha]. apply iarcs_In in Ha.
      destruct Ha as [(b & H & E & ->)|[(b & H & E & ->)|(b & d & H & K & N & E & ->)]]; [left; auto|left; auto|right]. exists g1, (s / n2), b. split; [left; reflexivity|auto].
    - intros l w (c & Ac & ->). apply built_accepts in Ac; [|apply ipos|apply itgt]. destruct Ac as (q & v & f & R & Lq & F & ->). fold intersection_of in R.
      destruct (isound _ _ _ _ R 0 0 Z1 Z2 eq_refl) as (c1 & w1 & t1 & c2 & w2 & t2 & R1 & R2 & E1 & E2 & -> & -> & T1 & T2). unfold ifin in F. destruct (ist_div t1 t2 T2) as [Q1 Q2]. rewrite Q1, Q2 in F.
      destruct (mget Nat.compare t1 (fin g1)) as [f1|] eqn:F1; [|discriminate]. destruct (mget Nat.compare t2 (fin g2)) as [f2|] eqn:F2; [|discriminate]. injection F as <-.
      exists (w1 + f1)%Z, (w2 + f2)%Z. split; [exists c1; split; [exists t1, w1, f1; auto|auto]|]. split; [exists c2; split; [exists t2, w2, f2; auto|auto]|lia].
    - intros l w1 w2 (c1 & (t1 & v1 & f1 & R1 & F1 & ->) & ->) (c2 & (t2 & v2 & f2 & R2 & F2 & ->) & E). exists (v1 + v2 + (f1 + f2))%Z. split; [|lia].
      destruct (icomplete _ _ _ _ R1 _ _ _ _ R2 Z1 Z2 E) as (c & R & Ec). exists c. split; [|symmetry; exact Ec]. apply built_accepts; [apply ipos|apply itgt|].
      pose proof (run_bound _ _ _ _ _ S1 R1 Z1) as T1. pose proof (run_bound _ _ _ _ _ S2 R2 Z2) as T2. fold n1 in T1. fold n2 in T2.
      exists (ist t1 t2), (v1 + v2)%Z, (f1 + f2)%Z. split; [exact R|]. split; [apply ist_lt; assumption|]. split; [|reflexivity]. unfold ifin. destruct (ist_div t1 t2 T2) as [-> ->]. rewrite F1, F2. reflexivity.
  Qed.
End Intersection.
