(** An intersection exists: the product of two automata. *)
From Verif Require Import Base BT_Model BT_Spec BT_Proofs BT_Proofs3 Sh_Spec Sh_Model Sh_Proofs.

Section Product.
  Variables g1 g2 : graph.
  Hypothesis S1 : structure_ok g1.
  Hypothesis S2 : structure_ok g2.
  Hypothesis A1 : automaton g1.
  Hypothesis A2 : automaton g2.
  Let n1 := length (sts g1).
  Let n2 := length (sts g2).
  Definition pst (s1 s2 : nat) := s1 * n2 + s2.
  Definition parcs (s1 s2 : nat) : list arc :=
    map (fun a => Arc (pst (tgt a) s2) (isy a) (osy a) (wt a)) (filter (fun a => negb (neps (isy a))) (nth s1 (sts g1) []))
    ++ map (fun a => Arc (pst s1 (tgt a)) (isy a) (osy a) (wt a)) (filter (fun a => negb (neps (isy a))) (nth s2 (sts g2) []))
    ++ flat_map (fun a => map (fun b => Arc (pst (tgt a) (tgt b)) (isy a) (isy a) (wt a + wt b))
                              (filter (fun b => bstr_eqb (isy a) (isy b)) (nth s2 (sts g2) [])))
                (filter (fun a => neps (isy a)) (nth s1 (sts g1) [])).
  Definition pfins (s1 s2 : nat) : option Z :=
    match mget Nat.compare s1 (fin g1), mget Nat.compare s2 (fin g2) with Some x, Some y => Some (x + y)%Z | _, _ => None end.
  Definition product : graph :=
    Graph (map (fun k => parcs (k / n2) (k mod n2)) (seq 0 (n1 * n2)))
          (flat_map (fun k => match pfins (k / n2) (k mod n2) with Some f => [(k, f)] | None => [] end) (seq 0 (n1 * n2)))
          (alpha g1).

  Lemma n2_pos : 0 < n2. Proof. apply structure_zero, S2. Qed.
  Lemma pst_div s1 s2 : s2 < n2 -> pst s1 s2 / n2 = s1 /\ pst s1 s2 mod n2 = s2.
  Proof using All.
    intros L. unfold pst. pose proof n2_pos. split.
    - rewrite Nat.div_add_l by lia. rewrite Nat.div_small by exact L. lia.
    - rewrite Nat.add_comm, Nat.mod_add by lia. apply Nat.mod_small, L.
  Qed.
  Lemma pst_lt s1 s2 : s1 < n1 -> s2 < n2 -> pst s1 s2 < n1 * n2.
  Proof using All. intros L1 L2. unfold pst. nia. Qed.
  Lemma parcs_nth s1 s2 : s1 < n1 -> s2 < n2 -> nth (pst s1 s2) (sts product) [] = parcs s1 s2.
  Proof using All.
    intros L1 L2. cbn [product sts]. pose proof (pst_lt s1 s2 L1 L2) as L.
    rewrite nth_indep with (d' := (fun k => parcs (k / n2) (k mod n2)) 0) by (rewrite map_length, seq_length; exact L).
    rewrite (map_nth (fun k => parcs (k / n2) (k mod n2))). rewrite seq_nth by exact L. cbn [plus].
    destruct (pst_div s1 s2 L2) as [-> ->]. reflexivity.
  Qed.
  Lemma mget_seq (F : nat -> option Z) k n m : k < n ->
    mget Nat.compare (m + k) (flat_map (fun k => match F k with Some f => [(k, f)] | None => [] end) (seq m n)) = F (m + k).
  Proof using All.
    revert k m. induction n as [|n IH]; intros k m L; [lia|]. cbn [seq flat_map]. destruct k as [|k].
    - rewrite Nat.add_0_r. destruct (F m) as [f|] eqn:E.
      + cbn [app mget]. rewrite Nat.compare_refl. reflexivity.
      + cbn [app]. destruct (mget _ m _) as [f|] eqn:M; [|reflexivity]. exfalso.
        assert (K : forall l : list (nat * Z), (forall x, In x l -> m < fst x) -> mget Nat.compare m l = None).
        { induction l as [|[x y] l IHl]; intros K; [reflexivity|]. cbn [mget]. specialize (K _ (or_introl eq_refl)) as K'. cbn [fst] in K'.
          rewrite (proj2 (Nat.compare_lt_iff m x) K'). apply IHl; intros z Hz; apply K; right; exact Hz. }
        rewrite K in M; [discriminate|]. intros x Hx. apply in_flat_map in Hx. destruct Hx as (j & Hj & Hx). apply in_seq in Hj.
        destruct (F j); [destruct Hx as [<-|[]]; cbn [fst]; lia|destruct Hx].
    - replace (m + S k) with (S m + k) by lia. rewrite <- (IH k (S m)) by lia. destruct (F m) as [f|]; [|reflexivity].
      cbn [app mget]. rewrite (proj2 (Nat.compare_gt_iff (S m + k) m)) by lia. reflexivity.
  Qed.
  Lemma pfin_get s1 s2 : s1 < n1 -> s2 < n2 -> mget Nat.compare (pst s1 s2) (fin product) = pfins s1 s2.
  Proof using All.
    intros L1 L2. cbn [product fin]. pose proof (pst_lt s1 s2 L1 L2) as L.
    change (pst s1 s2) with (0 + pst s1 s2). rewrite (mget_seq (fun k => pfins (k / n2) (k mod n2))) by exact L.
    cbn [plus]. destruct (pst_div s1 s2 L2) as [-> ->]. reflexivity.
  Qed.
  Lemma parcs_In s1 s2 a : In a (parcs s1 s2) <->
    (exists b, In b (nth s1 (sts g1) []) /\ isy b = EPS /\ a = Arc (pst (tgt b) s2) (isy b) (osy b) (wt b)) \/
    (exists b, In b (nth s2 (sts g2) []) /\ isy b = EPS /\ a = Arc (pst s1 (tgt b)) (isy b) (osy b) (wt b)) \/
    (exists b c, In b (nth s1 (sts g1) []) /\ In c (nth s2 (sts g2) []) /\ isy b <> EPS /\ isy b = isy c /\
       a = Arc (pst (tgt b) (tgt c)) (isy b) (isy b) (wt b + wt c)).
  Proof using All.
    assert (N : forall x, negb (neps x) = true <-> x = EPS).
    { intros x. rewrite negb_true_iff. unfold neps. change (B "@_EPSILON_SYMBOL_@") with EPS. destruct (bstr_eq_dec x EPS); split; congruence. }
    unfold parcs. rewrite !in_app_iff, !in_map_iff, in_flat_map. split.
    - intros [(b & <- & H)|[(b & <- & H)|(b & H & K)]].
      + apply filter_In in H. rewrite N in H. left. exists b. tauto.
      + apply filter_In in H. rewrite N in H. right. left. exists b. tauto.
      + apply filter_In in H. rewrite neps_t in H. apply in_map_iff in K. destruct K as (c & <- & K). apply filter_In in K. rewrite bstr_eqb_eq in K.
        right. right. exists b, c. tauto.
    - intros [(b & H & E & ->)|[(b & H & E & ->)|(b & c & H & K & N1 & E & ->)]].
      + left. exists b. split; [reflexivity|]. apply filter_In. rewrite N. auto.
      + right. left. exists b. split; [reflexivity|]. apply filter_In. rewrite N. auto.
      + right. right. exists b. split; [apply filter_In; rewrite neps_t; auto|]. apply in_map_iff. exists c. split; [reflexivity|].
        apply filter_In. rewrite bstr_eqb_eq. auto.
  Qed.

  Lemma product_sound s l v t : run product s l v t -> forall s1 s2, s1 < n1 -> s2 < n2 -> s = pst s1 s2 ->
    exists l1 v1 t1 l2 v2 t2, t1 < n1 /\ t2 < n2 /\ t = pst t1 t2 /\ run g1 s1 l1 v1 t1 /\ run g2 s2 l2 v2 t2 /\
      string_of l1 = string_of l /\ string_of l2 = string_of l /\ v = (v1 + v2)%Z.
  Proof using All.
    intros R. induction R as [s|s a l w t Ha R IH]; intros s1 s2 L1 L2 ->.
    - exists [], 0%Z, s1, [], 0%Z, s2. repeat split; try assumption; constructor.
    - rewrite parcs_nth in Ha by assumption. apply parcs_In in Ha.
      destruct Ha as [(b & H & E & ->)|[(b & H & E & ->)|(b & c & H & K & N1 & E & ->)]]; cbn [tgt isy osy wt] in *.
      + assert (L : tgt b < n1) by (apply (proj1 (proj2 S1) s1 b H)).
        destruct (IH _ _ L L2 eq_refl) as (l1 & v1 & t1 & l2 & v2 & t2 & T1 & T2 & -> & R1 & R2 & E1 & E2 & ->).
        exists ((isy b, osy b) :: l1), (wt b + v1)%Z, t1, l2, v2, t2. repeat (split; [assumption|]). split; [reflexivity|]. split; [constructor; assumption|].
        split; [assumption|]. rewrite !string_of_cons. cbn [fst]. rewrite E. change (neps EPS) with false. cbn iota. split; [assumption|]. split; [assumption|lia].
      + assert (L : tgt b < n2) by (apply (proj1 (proj2 S2) s2 b H)).
        destruct (IH _ _ L1 L eq_refl) as (l1 & v1 & t1 & l2 & v2 & t2 & T1 & T2 & -> & R1 & R2 & E1 & E2 & ->).
        exists l1, v1, t1, ((isy b, osy b) :: l2), (wt b + v2)%Z, t2. repeat (split; [assumption|]). split; [reflexivity|]. split; [assumption|].
        split; [constructor; assumption|]. rewrite !string_of_cons. cbn [fst]. rewrite E. change (neps EPS) with false. cbn iota. split; [assumption|]. split; [assumption|lia].
      + assert (L : tgt b < n1) by (apply (proj1 (proj2 S1) s1 b H)). assert (L' : tgt c < n2) by (apply (proj1 (proj2 S2) s2 c K)).
        destruct (IH _ _ L L' eq_refl) as (l1 & v1 & t1 & l2 & v2 & t2 & T1 & T2 & -> & R1 & R2 & E1 & E2 & ->).
        exists ((isy b, osy b) :: l1), (wt b + v1)%Z, t1, ((isy c, osy c) :: l2), (wt c + v2)%Z, t2.
        repeat (split; [assumption|]). split; [reflexivity|]. split; [constructor; assumption|]. split; [constructor; assumption|].
        rewrite !string_of_cons. cbn [fst]. rewrite <- E. rewrite (proj2 (neps_t _) N1). rewrite E1, E2. split; [reflexivity|]. split; [reflexivity|lia].
  Qed.
  Lemma product_complete s1 l1 v1 t1 : run g1 s1 l1 v1 t1 -> forall s2 l2 v2 t2, run g2 s2 l2 v2 t2 -> s1 < n1 -> s2 < n2 -> string_of l1 = string_of l2 ->
    exists l, run product (pst s1 s2) l (v1 + v2)%Z (pst t1 t2) /\ string_of l = string_of l1.
  Proof using All.
    assert (EP : forall x, neps x = false -> x = EPS).
    { intros x. unfold neps. change (B "@_EPSILON_SYMBOL_@") with EPS. destruct (bstr_eq_dec x EPS); congruence. }
    intros R1. induction R1 as [s1|s1 a l1 v1 t1 Ha R1 IH]; intros s2 l2 v2 t2 R2 L1.
    - induction R2 as [s2|s2 b l2 v2 t2 Hb R2 IH2]; intros L2 E.
      + exists []. split; [constructor|reflexivity].
      + rewrite string_of_cons in E. cbn [fst] in E. destruct (neps (isy b)) eqn:N; [discriminate|].
        destruct IH2 as (l & R & E'); [apply (proj1 (proj2 S2) s2 b Hb)|exact E|].
        exists ((isy b, osy b) :: l). split; [|rewrite string_of_cons; cbn [fst]; rewrite N; exact E'].
        replace (0 + (wt b + v2))%Z with (wt b + (0 + v2))%Z by lia.
        apply (run_cons product (pst s1 s2) (Arc (pst s1 (tgt b)) (isy b) (osy b) (wt b))); [|exact R].
        rewrite parcs_nth by assumption. apply parcs_In. right. left. exists b. split; [exact Hb|]. split; [apply EP, N|reflexivity].
    - assert (La : tgt a < n1) by (apply (proj1 (proj2 S1) s1 a Ha)). destruct (neps (isy a)) eqn:N.
      + induction R2 as [s2|s2 b l2 v2 t2 Hb R2 IH2]; intros L2 E.
        * rewrite string_of_cons in E. cbn [fst] in E. rewrite N in E. discriminate.
        * assert (Lb : tgt b < n2) by (apply (proj1 (proj2 S2) s2 b Hb)). rewrite !string_of_cons in E. cbn [fst] in E. rewrite N in E. destruct (neps (isy b)) eqn:Nb.
          -- injection E as E0 E. destruct (IH _ _ _ _ R2 La Lb E) as (l & R & E').
             exists ((isy a, isy a) :: l). split; [|rewrite !string_of_cons; cbn [fst]; rewrite N, E'; reflexivity].
             replace (wt a + v1 + (wt b + v2))%Z with ((wt a + wt b) + (v1 + v2))%Z by lia.
             apply (run_cons product (pst s1 s2) (Arc (pst (tgt a) (tgt b)) (isy a) (isy a) (wt a + wt b))); [|exact R].
             rewrite parcs_nth by assumption. apply parcs_In. right. right. exists a, b. apply neps_t in N. auto.
          -- destruct IH2 as (l & R & E'); [exact Lb|rewrite string_of_cons; cbn [fst]; rewrite N; exact E|].
             exists ((isy b, osy b) :: l). split; [|rewrite string_of_cons; cbn [fst]; rewrite Nb; exact E'].
             replace (wt a + v1 + (wt b + v2))%Z with (wt b + (wt a + v1 + v2))%Z by lia.
             apply (run_cons product (pst s1 s2) (Arc (pst s1 (tgt b)) (isy b) (osy b) (wt b))); [|exact R].
             rewrite parcs_nth by assumption. apply parcs_In. right. left. exists b. split; [exact Hb|]. split; [apply EP, Nb|reflexivity].
      + intros L2 E. rewrite string_of_cons in E. cbn [fst] in E. rewrite N in E. destruct (IH _ _ _ _ R2 La L2 E) as (l & R & E').
        exists ((isy a, osy a) :: l). split; [|rewrite !string_of_cons; cbn [fst]; rewrite N; exact E'].
        replace (wt a + v1 + v2)%Z with (wt a + (v1 + v2))%Z by lia.
        apply (run_cons product (pst s1 s2) (Arc (pst (tgt a) s2) (isy a) (osy a) (wt a))); [|exact R].
        rewrite parcs_nth by assumption. apply parcs_In. left. exists a. split; [exact Ha|]. split; [apply EP, N|reflexivity].
  Qed.

  Lemma product_intersection : intersection g1 g2 product.
  Proof using All.
    pose proof (structure_zero _ S1) as Z1. pose proof (structure_zero _ S2) as Z2. fold n1 in Z1. fold n2 in Z2.
    assert (P0 : 0 = pst 0 0) by reflexivity. split; [|split].
    - intros s a Ha. cbn [product sts] in Ha. assert (L : s < n1 * n2).
      { destruct (Nat.lt_ge_cases s (n1 * n2)) as [L|L]; [exact L|]. rewrite nth_overflow in Ha by (rewrite map_length, seq_length; exact L). destruct Ha. }
      assert (K : In a (parcs (s / n2) (s mod n2))).
      { rewrite nth_indep with (d' := (fun k => parcs (k / n2) (k mod n2)) 0) in Ha by (rewrite map_length, seq_length; exact L).
        rewrite (map_nth (fun k => parcs (k / n2) (k mod n2))) in Ha. rewrite seq_nth in Ha by exact L. exact Ha. }
      apply parcs_In in K. destruct K as [(b & H & E & ->)|[(b & H & E & ->)|(b & c & H & K & N1 & E & ->)]]; cbn [isy osy].
      + split; [apply (A1 _ _ H)|left; exact E].
      + split; [apply (A2 _ _ H)|left; exact E].
      + split; [reflexivity|]. right. exists (s / n2), b. auto.
    - intros x w (l & (t & v & f & R & Hf & ->) & ->).
      destruct (product_sound 0 l v t R 0 0 Z1 Z2 P0) as (l1 & v1 & t1 & l2 & v2 & t2 & T1 & T2 & -> & R1 & R2 & E1 & E2 & ->).
      rewrite pfin_get in Hf by assumption. unfold pfins in Hf.
      destruct (mget Nat.compare t1 (fin g1)) as [f1|] eqn:F1; [|discriminate]. destruct (mget Nat.compare t2 (fin g2)) as [f2|] eqn:F2; [|discriminate].
      injection Hf as <-. exists (v1 + f1)%Z, (v2 + f2)%Z. split; [exists l1; split; [exists t1, v1, f1; auto|auto]|].
      split; [exists l2; split; [exists t2, v2, f2; auto|auto]|lia].
    - intros x w1 w2 (l1 & (t1 & v1 & f1 & R1 & F1 & ->) & ->) (l2 & (t2 & v2 & f2 & R2 & F2 & ->) & E).
      destruct (product_complete _ _ _ _ R1 _ _ _ _ R2 Z1 Z2 E) as (l & R & E').
      exists (v1 + v2 + (f1 + f2))%Z. split; [|lia]. exists l. split; [|auto]. exists (pst t1 t2), (v1 + v2)%Z, (f1 + f2)%Z. split; [exact R|].
      split; [|reflexivity]. rewrite pfin_get; [|exact (run_bound _ _ _ _ _ S1 R1 Z1)|exact (run_bound _ _ _ _ _ S2 R2 Z2)].
      unfold pfins. rewrite F1, F2. reflexivity.
  Qed.
End Product.
