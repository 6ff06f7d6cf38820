(** A composition exists: the product of two transducers. *)
From Verif Require Import Base BT_Model BT_Spec BT_Proofs BT_Proofs3 Harm_Spec Co_Spec Co_Model Co_Proofs.

Section Product.
  Variables g1 g2 : graph.
  Hypothesis S1 : structure_ok g1.
  Hypothesis S2 : structure_ok g2.
  Let n1 := length (sts g1).
  Let n2 := length (sts g2).
  Definition pst (s1 s2 : nat) := s1 * n2 + s2.
  Definition parcs (s1 s2 : nat) : list arc :=
    map (fun a => Arc (pst (tgt a) s2) (isy a) EPS (wt a)) (filter (fun a => negb (neps (osy a))) (nth s1 (sts g1) []))
    ++ map (fun a => Arc (pst s1 (tgt a)) EPS (osy a) (wt a)) (filter (fun a => negb (neps (isy a))) (nth s2 (sts g2) []))
    ++ flat_map (fun a => map (fun b => Arc (pst (tgt a) (tgt b)) (isy a) (osy b) (wt a + wt b))
                              (filter (fun b => bstr_eqb (osy a) (isy b)) (nth s2 (sts g2) [])))
                (filter (fun a => neps (osy a)) (nth s1 (sts g1) [])).
  Definition pfins (s1 s2 : nat) : option Z :=
    match mget Nat.compare s1 (fin g1), mget Nat.compare s2 (fin g2) with Some x, Some y => Some (x + y)%Z | _, _ => None end.
  Definition product : graph :=
    Graph (map (fun k => parcs (k / n2) (k mod n2)) (seq 0 (n1 * n2)))
          (flat_map (fun k => match pfins (k / n2) (k mod n2) with Some f => [(k, f)] | None => [] end) (seq 0 (n1 * n2)))
          (alpha g1 ++ alpha g2).

  Lemma n2_pos : 0 < n2. Proof. apply structure_zero, S2. Qed.
  Lemma pst_div s1 s2 : s2 < n2 -> pst s1 s2 / n2 = s1 /\ pst s1 s2 mod n2 = s2.
  Proof using All.
    intros L. unfold pst. pose proof n2_pos. split.
    - rewrite Nat.div_add_l by lia. rewrite Nat.div_small by exact L. lia.
    - rewrite Nat.add_comm, Nat.mod_add by lia. apply Nat.mod_small, L.
  Qed.
  Lemma pst_lt s1 s2 : s1 < n1 -> s2 < n2 -> pst s1 s2 < n1 * n2.
  Proof using All. intros L1 L2. unfold pst. nia. Qed.
  Lemma parcs_nth s1 s2 : s1 < n1 -> s2 < n2 -> nth (pst s1 s2) (sts product) [] = parcs s1 s2.
  Proof using All.
    intros L1 L2. cbn [product sts]. pose proof (pst_lt s1 s2 L1 L2) as L.
    rewrite nth_indep with (d' := (fun k => parcs (k / n2) (k mod n2)) 0) by (rewrite map_length, seq_length; exact L).
    rewrite (map_nth (fun k => parcs (k / n2) (k mod n2))). rewrite seq_nth by exact L. cbn [plus].
    destruct (pst_div s1 s2 L2) as [-> ->]. reflexivity.
  Qed.
  Lemma mget_seq (F : nat -> option Z) k n m : k < n ->
    mget Nat.compare (m + k) (flat_map (fun k => match F k with Some f => [(k, f)] | None => [] end) (seq m n)) = F (m + k).
  Proof using All.
    revert k m. induction n as [|n IH]; intros k m L; [lia|]. cbn [seq flat_map]. destruct k as [|k].
    - rewrite Nat.add_0_r. destruct (F m) as [f|] eqn:E.
      + cbn [app mget]. rewrite Nat.compare_refl. reflexivity.
      + cbn [app]. destruct (mget _ m _) as [f|] eqn:M; [|reflexivity]. exfalso.
        assert (K : forall l : list (nat * Z), (forall x, In x l -> m < fst x) -> mget Nat.compare m l = None).
        { induction l as [|[x y] l IHl]; intros K; [reflexivity|]. cbn [mget]. specialize (K _ (or_introl eq_refl)) as K'. cbn [fst] in K'.
          rewrite (proj2 (Nat.compare_lt_iff m x) K'). apply IHl; intros z Hz; apply K; right; exact Hz. }
        rewrite K in M; [discriminate|]. intros x Hx. apply in_flat_map in Hx. destruct Hx as (j & Hj & Hx). apply in_seq in Hj.
        destruct (F j); [destruct Hx as [<-|[]]; cbn [fst]; lia|destruct Hx].
    - replace (m + S k) with (S m + k) by lia. rewrite <- (IH k (S m)) by lia. destruct (F m) as [f|]; [|reflexivity].
      cbn [app mget]. rewrite (proj2 (Nat.compare_gt_iff (S m + k) m)) by lia. reflexivity.
  Qed.
  Lemma pfin_get s1 s2 : s1 < n1 -> s2 < n2 -> mget Nat.compare (pst s1 s2) (fin product) = pfins s1 s2.
  Proof using All.
    intros L1 L2. cbn [product fin]. pose proof (pst_lt s1 s2 L1 L2) as L.
    change (pst s1 s2) with (0 + pst s1 s2). rewrite (mget_seq (fun k => pfins (k / n2) (k mod n2))) by exact L.
    cbn [plus]. destruct (pst_div s1 s2 L2) as [-> ->]. reflexivity.
  Qed.
  Lemma parcs_In s1 s2 a : In a (parcs s1 s2) <->
    (exists b, In b (nth s1 (sts g1) []) /\ osy b = EPS /\ a = Arc (pst (tgt b) s2) (isy b) EPS (wt b)) \/
    (exists b, In b (nth s2 (sts g2) []) /\ isy b = EPS /\ a = Arc (pst s1 (tgt b)) EPS (osy b) (wt b)) \/
    (exists b c, In b (nth s1 (sts g1) []) /\ In c (nth s2 (sts g2) []) /\ osy b <> EPS /\ osy b = isy c /\
       a = Arc (pst (tgt b) (tgt c)) (isy b) (osy c) (wt b + wt c)).
  Proof using All.
    assert (N : forall x, negb (neps x) = true <-> x = EPS) by (intros x; rewrite negb_true_iff; apply neps_f).
    unfold parcs. rewrite !in_app_iff, !in_map_iff, in_flat_map. split.
    - intros [(b & <- & H)|[(b & <- & H)|(b & H & K)]].
      + apply filter_In in H. rewrite N in H. left. exists b. tauto.
      + apply filter_In in H. rewrite N in H. right. left. exists b. tauto.
      + apply filter_In in H. rewrite neps_t in H. apply in_map_iff in K. destruct K as (c & <- & K). apply filter_In in K. rewrite bstr_eqb_eq in K.
        right. right. exists b, c. tauto.
    - intros [(b & H & E & ->)|[(b & H & E & ->)|(b & c & H & K & N1 & E & ->)]].
      + left. exists b. split; [reflexivity|]. apply filter_In. rewrite N. auto.
      + right. left. exists b. split; [reflexivity|]. apply filter_In. rewrite N. auto.
      + right. right. exists b. split; [apply filter_In; rewrite neps_t; auto|]. apply in_map_iff. exists c. split; [reflexivity|].
        apply filter_In. rewrite bstr_eqb_eq. auto.
  Qed.

  Lemma product_sound s l v t : run product s l v t -> forall s1 s2, s1 < n1 -> s2 < n2 -> s = pst s1 s2 ->
    exists l1 v1 t1 l2 v2 t2, t1 < n1 /\ t2 < n2 /\ t = pst t1 t2 /\ run g1 s1 l1 v1 t1 /\ run g2 s2 l2 v2 t2 /\
      composed l1 l2 l /\ v = (v1 + v2)%Z.
  Proof using All.
    intros R. induction R as [s|s a l w t Ha R IH]; intros s1 s2 L1 L2 ->.
    - exists [], 0%Z, s1, [], 0%Z, s2. repeat split; try assumption; constructor.
    - rewrite parcs_nth in Ha by assumption. apply parcs_In in Ha.
      destruct Ha as [(b & H & E & ->)|[(b & H & E & ->)|(b & c & H & K & N1 & E & ->)]]; cbn [tgt isy osy wt] in *.
      + assert (L : tgt b < n1) by (apply (proj1 (proj2 S1) s1 b H)).
        destruct (IH _ _ L L2 eq_refl) as (l1 & v1 & t1 & l2 & v2 & t2 & T1 & T2 & -> & R1 & R2 & C & ->).
        exists ((isy b, osy b) :: l1), (wt b + v1)%Z, t1, l2, v2, t2. repeat (split; [assumption|]). split; [reflexivity|]. split; [constructor; assumption|].
        split; [assumption|]. rewrite E. split; [apply co_left; assumption|lia].
      + assert (L : tgt b < n2) by (apply (proj1 (proj2 S2) s2 b H)).
        destruct (IH _ _ L1 L eq_refl) as (l1 & v1 & t1 & l2 & v2 & t2 & T1 & T2 & -> & R1 & R2 & C & ->).
        exists l1, v1, t1, ((isy b, osy b) :: l2), (wt b + v2)%Z, t2. repeat (split; [assumption|]). split; [reflexivity|]. split; [assumption|].
        split; [constructor; assumption|]. rewrite E. split; [apply co_right; assumption|lia].
      + assert (L : tgt b < n1) by (apply (proj1 (proj2 S1) s1 b H)). assert (L' : tgt c < n2) by (apply (proj1 (proj2 S2) s2 c K)).
        destruct (IH _ _ L L' eq_refl) as (l1 & v1 & t1 & l2 & v2 & t2 & T1 & T2 & -> & R1 & R2 & C & ->).
        exists ((isy b, osy b) :: l1), (wt b + v1)%Z, t1, ((isy c, osy c) :: l2), (wt c + v2)%Z, t2.
        repeat (split; [assumption|]). split; [reflexivity|]. split; [constructor; assumption|]. split; [constructor; assumption|].
        rewrite <- E. split; [apply co_match; assumption|lia].
  Qed.
  Lemma product_complete s1 l1 v1 t1 : run g1 s1 l1 v1 t1 -> forall s2 l2 v2 t2, run g2 s2 l2 v2 t2 -> s1 < n1 -> s2 < n2 -> outs l1 = ins l2 ->
    exists l, run product (pst s1 s2) l (v1 + v2)%Z (pst t1 t2) /\ composed l1 l2 l.
  Proof using All.
    intros R1. unfold outs, ins. induction R1 as [s1|s1 a l1 v1 t1 Ha R1 IH]; intros s2 l2 v2 t2 R2 L1.
    - induction R2 as [s2|s2 b l2 v2 t2 Hb R2 IH2]; intros L2 E.
      + exists []. split; constructor.
      + cbn [map fst snd] in E. rewrite ne_cons in E. destruct (neps (isy b)) eqn:N; [discriminate|]. apply neps_f in N.
        destruct IH2 as (l & R & C); [apply (proj1 (proj2 S2) s2 b Hb)|exact E|].
        exists ((EPS, osy b) :: l). rewrite N. split; [|apply co_right; assumption].
        replace (0 + (wt b + v2))%Z with (wt b + (0 + v2))%Z by lia.
        apply (run_cons product (pst s1 s2) (Arc (pst s1 (tgt b)) EPS (osy b) (wt b))); [|exact R].
        rewrite parcs_nth by assumption. apply parcs_In. right. left. exists b. auto.
    - assert (La : tgt a < n1) by (apply (proj1 (proj2 S1) s1 a Ha)). destruct (neps (osy a)) eqn:N.
      + induction R2 as [s2|s2 b l2 v2 t2 Hb R2 IH2]; intros L2 E.
        * cbn [map fst snd] in E. rewrite ne_cons, N in E. discriminate.
        * assert (Lb : tgt b < n2) by (apply (proj1 (proj2 S2) s2 b Hb)). cbn [map fst snd] in E. rewrite !ne_cons, N in E. destruct (neps (isy b)) eqn:Nb.
          -- injection E as E0 E. destruct (IH _ _ _ _ R2 La Lb E) as (l & R & C). apply neps_t in N.
             exists ((isy a, osy b) :: l). split; [|rewrite <- E0; apply co_match; assumption].
             replace (wt a + v1 + (wt b + v2))%Z with ((wt a + wt b) + (v1 + v2))%Z by lia.
             apply (run_cons product (pst s1 s2) (Arc (pst (tgt a) (tgt b)) (isy a) (osy b) (wt a + wt b))); [|exact R].
             rewrite parcs_nth by assumption. apply parcs_In. right. right. exists a, b. auto.
          -- apply neps_f in Nb. destruct IH2 as (l & R & C); [exact Lb|cbn [map fst snd]; rewrite ne_cons, N; exact E|].
             exists ((EPS, osy b) :: l). rewrite Nb. split; [|apply co_right; assumption].
             replace (wt a + v1 + (wt b + v2))%Z with (wt b + (wt a + v1 + v2))%Z by lia.
             apply (run_cons product (pst s1 s2) (Arc (pst s1 (tgt b)) EPS (osy b) (wt b))); [|exact R].
             rewrite parcs_nth by assumption. apply parcs_In. right. left. exists b. auto.
      + intros L2 E. cbn [map fst snd] in E. rewrite ne_cons, N in E. destruct (IH _ _ _ _ R2 La L2 E) as (l & R & C). apply neps_f in N.
        exists ((isy a, EPS) :: l). rewrite N. split; [|apply co_left; assumption].
        replace (wt a + v1 + v2)%Z with (wt a + (v1 + v2))%Z by lia.
        apply (run_cons product (pst s1 s2) (Arc (pst (tgt a) s2) (isy a) EPS (wt a))); [|exact R].
        rewrite parcs_nth by assumption. apply parcs_In. left. exists a. auto.
  Qed.

  Lemma product_composition : composition g1 g2 product.
  Proof using All.
    pose proof (structure_zero _ S1) as Z1. pose proof (structure_zero _ S2) as Z2. fold n1 in Z1. fold n2 in Z2.
    assert (P0 : 0 = pst 0 0) by reflexivity. split; [|split; [|split]].
    - intros x. cbn [product alpha]. apply in_app_iff.
    - intros x (s & a & Ha & X). cbn [product sts] in Ha. assert (L : s < n1 * n2).
      { destruct (Nat.lt_ge_cases s (n1 * n2)) as [L|L]; [exact L|]. rewrite nth_overflow in Ha by (rewrite map_length, seq_length; exact L). destruct Ha. }
      assert (K : In a (parcs (s / n2) (s mod n2))).
      { rewrite nth_indep with (d' := (fun k => parcs (k / n2) (k mod n2)) 0) in Ha by (rewrite map_length, seq_length; exact L).
        rewrite (map_nth (fun k => parcs (k / n2) (k mod n2))) in Ha. rewrite seq_nth in Ha by exact L. exact Ha. }
      apply parcs_In in K. destruct K as [(b & H & E & ->)|[(b & H & E & ->)|(b & c & H & K & N1 & E & ->)]]; cbn [isy osy] in X.
      + destruct X as [->| ->]; [right; left; exists (s / n2), b; auto|left; reflexivity].
      + destruct X as [->| ->]; [left; reflexivity|right; right; exists (s mod n2), b; auto].
      + right. destruct X as [->| ->]; [left; exists (s / n2), b; auto|right; exists (s mod n2), c; auto].
    - intros l w (t & v & f & R & Hf & ->).
      destruct (product_sound 0 l v t R 0 0 Z1 Z2 P0) as (l1 & v1 & t1 & l2 & v2 & t2 & T1 & T2 & -> & R1 & R2 & C & ->).
      rewrite pfin_get in Hf by assumption. unfold pfins in Hf.
      destruct (mget Nat.compare t1 (fin g1)) as [f1|] eqn:F1; [|discriminate]. destruct (mget Nat.compare t2 (fin g2)) as [f2|] eqn:F2; [|discriminate].
      injection Hf as <-. exists l1, (v1 + f1)%Z, l2, (v2 + f2)%Z. split; [exists t1, v1, f1; auto|].
      split; [exists t2, v2, f2; auto|]. split; [exact C|lia].
    - intros l1 w1 l2 w2 (t1 & v1 & f1 & R1 & F1 & ->) (t2 & v2 & f2 & R2 & F2 & ->) E.
      destruct (product_complete _ _ _ _ R1 _ _ _ _ R2 Z1 Z2 E) as (l & R & C).
      exists l, (v1 + v2 + (f1 + f2))%Z. split; [|split; [exact C|lia]]. exists (pst t1 t2), (v1 + v2)%Z, (f1 + f2)%Z. split; [exact R|].
      split; [|reflexivity]. rewrite pfin_get; [|exact (run_bound _ _ _ _ _ S1 R1 Z1)|exact (run_bound _ _ _ _ _ S2 R2 Z2)].
      unfold pfins. rewrite F1, F2. reflexivity.
  Qed.
End Product.
