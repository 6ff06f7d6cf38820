(** Property C24: intersection of basic transducers. *)
From Verif Require Import Base BT_Model BT_Spec BT_Proofs BT_Proofs3 BT_Proofs4 BT_Proofs5 Isect_Model Isect_Proofs.
From Coq Require Import Permutation Sorted.

Section S.
  Variable num : bstr -> nat.
  Hypothesis num_inj : forall x y, num x = num y -> x = y.

  Lemma arcs_sorted g s a : In a (nth s (sts (sort_arcs num g)) []) <-> In a (nth s (sts g) []).
  Proof.
    unfold sort_arcs. cbn [sts with_sts]. rewrite nth_map_nil by reflexivity. split; apply Permutation_in; [apply Permutation_sym|]; apply std_sort_perm.
  Qed.
  Lemma run_sorted g s l w t : run (sort_arcs num g) s l w t <-> run g s l w t.
  Proof.
    split; intros R; induction R as [s|s a l w t H R IH]; try apply run_nil.
    - apply run_cons; [apply (proj1 (arcs_sorted g s a)); exact H|exact IH].
    - apply run_cons; [apply (proj2 (arcs_sorted g s a)); exact H|exact IH].
  Qed.
  Lemma structure_sorted g : structure_ok g -> structure_ok (sort_arcs num g).
  Proof. intros G. apply (structure_run_op g (OSort num)); [exact G|reflexivity]. Qed.

  Variables g1 g2 : graph.
  Hypothesis G1 : structure_ok g1.
  Hypothesis G2 : structure_ok g2.
  Let h1 := sort_arcs num g1.
  Let h2 := sort_arcs num g2.

  Lemma intersect_result fuel : length (sts g1) * length (sts g2) < fuel -> exists st, intersect num fuel g1 g2 = Ok (i_graph st) /\
    inv num h1 h2 st /\ (forall u, val st u -> done num h1 h2 st u).
  Proof.
    intros Hf. unfold intersect. fold h1 h2.
    set (r := match finw h1 0 with Some f1 => match finw h2 0 with Some f2 => _ | None => _ end | None => _ end).
    assert (L1 : length (sts h1) = length (sts g1)) by apply map_length. assert (L2 : length (sts h2) = length (sts g2)) by apply map_length.
    pose proof (structure_sorted g1 G1 : structure_ok h1) as S1. pose proof (structure_sorted g2 G2 : structure_ok h2) as S2.
    set (st := IState r [((0, 0), 0)] []).
    assert (R : length (sts r) = 1 /\ (forall u, arcs r u = []) /\ finw r 0 = pfin h1 h2 (0, 0) /\ forall u, 1 <= u -> finw r u = None).
    { unfold r, pfin. cbn [fst snd]. destruct (finw h1 0); [destruct (finw h2 0)|]; (split; [reflexivity|]);
        (split; [intros [|[|u]]; reflexivity|]); (split; [reflexivity|]); intros [|u] Hu; try lia; reflexivity. }
    destruct R as (R1 & R2 & R3 & R4).
    assert (M : forall p s, mget npcmp p [((0, 0), 0)] = Some s -> p = (0, 0) /\ s = 0).
    { intros p s. simpl. destruct (npcmp p (0, 0)) eqn:C; try discriminate. apply npcmp_eq in C. intros K. injection K as <-. auto. }
    assert (I : inv num h1 h2 st).
    { split; cbn [st i_graph i_map i_agenda].
      - reflexivity.
      - intros p s Hp. apply M in Hp. destruct Hp as [-> ->]. rewrite R1. split; [lia|]. split; apply structure_zero; assumption.
      - intros p q s Hp Hq. apply M in Hp, Hq. destruct Hp, Hq. congruence.
      - intros p s a _ Ha. rewrite R2 in Ha. destruct Ha.
      - intros p s Hp. apply M in Hp. destruct Hp as [-> ->]. exact R3.
      - intros s Hs. rewrite R1 in Hs. apply R4. exact Hs.
      - intros s [].
      - constructor. }
    destruct (find_matches_spec num num_inj h1 h2 S1 S2 fuel (0, 0) 0 st I eq_refl (fun K => K)) as (st' & E & I' & Gr & Hs & D & V).
    { cbn [st i_agenda length]. rewrite L1, L2. lia. }
    exists st'. split; [change (rmap i_graph (find_matches num fuel h1 h2 (fst (0,0)) (snd (0,0)) 0 st) = Ok (i_graph st')); rewrite E; reflexivity|].
    split; [exact I'|]. intros u Hu. destruct (D u) as [[]|K]; [|exact K]. apply V; [|exact Hu]. intros v [p Hp]. apply M in Hp. destruct Hp as [_ ->]. auto.
  Qed.
  Lemma result_run_sound st : inv num h1 h2 st -> forall s l w t, run (i_graph st) s l w t ->
    forall p, mget npcmp p (i_map st) = Some s -> exists q v1 v2, mget npcmp q (i_map st) = Some t /\
      run g1 (fst p) l v1 (fst q) /\ run g2 (snd p) l v2 (snd q) /\ w = (v1 + v2)%Z.
  Proof.
    intros I s l w t R. induction R as [s|s a l w t Ha R IH]; intros p Hp.
    - exists p, 0%Z, 0%Z. repeat split; auto; constructor.
    - destruct (inv_arcs _ _ _ _ I p s a Hp Ha) as (a1 & a2 & J & La & Wa & Ma). destruct (join_sound num num_inj _ _ _ _ J) as (J1 & J2 & L12).
      destruct (IH _ Ma) as (q & v1 & v2 & Hq & R1 & R2 & ->). exists q, (wt a1 + v1)%Z, (wt a2 + v2)%Z. split; [exact Hq|].
      split; [|split; [|lia]].
      + change (isy a, osy a) with (label a). rewrite La. constructor; [apply arcs_sorted; exact J1|exact R1].
      + change (isy a, osy a) with (label a). rewrite La, L12. constructor; [apply arcs_sorted; exact J2|exact R2].
  Qed.
  Lemma result_run_complete st : inv num h1 h2 st -> (forall u, val st u -> done num h1 h2 st u) ->
    (forall s, by_label num (arcs h1 s)) -> (forall s, by_label num (arcs h2 s)) ->
    forall s1 l v1 t1, run g1 s1 l v1 t1 -> forall s2 v2 t2, run g2 s2 l v2 t2 -> forall s, mget npcmp (s1, s2) (i_map st) = Some s ->
    exists t, mget npcmp (t1, t2) (i_map st) = Some t /\ run (i_graph st) s l (v1 + v2) t.
  Proof.
    intros I D B1 B2 s1 l v1 t1 R1. induction R1 as [s1|s1 a1 l v1 t1 H1 R1 IH]; intros s2 v2 t2 R2 s Hs.
    - inversion R2; subst. exists s. split; [exact Hs|constructor].
    - inversion R2 as [|? a2 ? v2' ? H2 R2' EL]; subst.
      assert (J : In (a1, a2) (join num (arcs h1 s1) (arcs h2 s2))).
      { apply join_complete; auto; [apply arcs_sorted; exact H1|apply arcs_sorted; exact H2|unfold label; congruence]. }
      destruct (D s (ex_intro _ _ Hs) (s1, s2) a1 a2 Hs J) as (a & A1 & A2 & A3 & A4). destruct (IH _ _ _ R2' _ A4) as (t & T & R).
      exists t. split; [exact T|]. replace (isy a2, osy a2) with (label a) by (rewrite A2; unfold label; congruence).
      replace (wt a1 + v1 + (wt a2 + v2'))%Z with (wt a + (v1 + v2'))%Z by lia. constructor; assumption.
  Qed.
End S.

(** The (target, input, output, weight) order that sort_arcs establishes also orders each
    state's transitions strictly by label. *)
Definition label_sorted (num : bstr -> nat) (g : graph) : Prop :=
  forall s, StronglySorted (fun a b => num (isy a) < num (isy b) \/ num (isy a) = num (isy b) /\ num (osy a) < num (osy b))
              (std_sort num (nth s (sts g) [])).

(** Soundness, without any assumption on the transducers: what the result accepts is
    accepted by both along runs with the sum of the weights, except that the final weight
    of the two initial states is their minimum.  It always terminates, at a recursion depth
    bounded by the product of the numbers of states. *)
Theorem C24_intersect_sound : forall num g1 g2 fuel, (forall x y, num x = num y -> x = y) -> structure_ok g1 -> structure_ok g2 ->
  length (sts g1) * length (sts g2) < fuel ->
  exists r, intersect num fuel g1 g2 = Ok r /\
    forall l w, accepts r l w -> exists s1 s2 v1 v2 f1 f2, run g1 0 l v1 s1 /\ run g2 0 l v2 s2 /\
      mget Nat.compare s1 (fin g1) = Some f1 /\ mget Nat.compare s2 (fin g2) = Some f2 /\
      ((s1 <> 0 \/ s2 <> 0) /\ w = (v1 + v2 + (f1 + f2))%Z \/ s1 = 0 /\ s2 = 0 /\ w = (v1 + v2 + Z.min f1 f2)%Z).
Proof.
  intros num g1 g2 fuel NI G1 G2 Hf. destruct (intersect_result num NI g1 g2 G1 G2 fuel Hf) as (st & E & I & D). exists (i_graph st). split; [exact E|].
  intros l w (t & v & f & R & F & ->). destruct (result_run_sound num NI g1 g2 st I _ _ _ _ R (0, 0) (inv_zero _ _ _ _ I)) as (q & v1 & v2 & Hq & R1 & R2 & ->).
  pose proof (inv_fin _ _ _ _ I _ _ Hq) as P. unfold finw at 1 in P. rewrite F in P. unfold pfin, finw in P. cbn [sort_arcs with_sts fin] in P.
  destruct q as [q1 q2]. cbn [fst snd] in *. destruct (mget Nat.compare q1 (fin g1)) as [f1|] eqn:F1; [|discriminate]. destruct (mget Nat.compare q2 (fin g2)) as [f2|] eqn:F2; [|discriminate].
  injection P as ->. exists q1, q2, v1, v2, f1, f2. repeat (split; [assumption|]). destruct (Nat.eqb_spec q1 0), (Nat.eqb_spec q2 0); cbn [andb]; [right|left|left|left]; auto.
Qed.
Print Assumptions C24_intersect_sound.

(** Full statement, under two conditions; both are needed (below). *)
Theorem C24_intersect_partial : forall num g1 g2 fuel, (forall x y, num x = num y -> x = y) -> structure_ok g1 -> structure_ok g2 ->
  length (sts g1) * length (sts g2) < fuel -> label_sorted num g1 -> label_sorted num g2 ->
  (forall f1 f2, mget Nat.compare 0 (fin g1) = Some f1 -> mget Nat.compare 0 (fin g2) = Some f2 -> Z.min f1 f2 = (f1 + f2)%Z) ->
  exists r, intersect num fuel g1 g2 = Ok r /\
    forall l w, accepts r l w <-> exists w1 w2, accepts g1 l w1 /\ accepts g2 l w2 /\ w = (w1 + w2)%Z.
Proof.
  intros num g1 g2 fuel NI G1 G2 Hf B1 B2 Z0. destruct (intersect_result num NI g1 g2 G1 G2 fuel Hf) as (st & E & I & D). exists (i_graph st). split; [exact E|].
  assert (PF : forall q1 q2, pfin (sort_arcs num g1) (sort_arcs num g2) (q1, q2) =
     match mget Nat.compare q1 (fin g1), mget Nat.compare q2 (fin g2) with Some f1, Some f2 => Some (f1 + f2)%Z | _, _ => None end).
  { intros q1 q2. unfold pfin, finw. cbn [fst snd sort_arcs with_sts fin]. destruct (mget Nat.compare q1 (fin g1)) as [f1|] eqn:F1; [|reflexivity].
    destruct (mget Nat.compare q2 (fin g2)) as [f2|] eqn:F2; [|reflexivity]. destruct (Nat.eqb_spec q1 0), (Nat.eqb_spec q2 0); cbn [andb]; try reflexivity.
    subst. rewrite (Z0 f1 f2 F1 F2). reflexivity. }
  intros l w. split.
  - intros (t & v & f & R & F & ->). destruct (result_run_sound num NI g1 g2 st I _ _ _ _ R (0, 0) (inv_zero _ _ _ _ I)) as ([q1 q2] & v1 & v2 & Hq & R1 & R2 & ->).
    pose proof (inv_fin _ _ _ _ I _ _ Hq) as P. unfold finw in P. rewrite F, PF in P. cbn [fst snd] in *.
    destruct (mget Nat.compare q1 (fin g1)) as [f1|] eqn:F1; [|discriminate]. destruct (mget Nat.compare q2 (fin g2)) as [f2|] eqn:F2; [|discriminate].
    injection P as ->. exists (v1 + f1)%Z, (v2 + f2)%Z. split; [exists q1, v1, f1; auto|]. split; [exists q2, v2, f2; auto|lia].
  - intros (w1 & w2 & (t1 & v1 & f1 & R1 & F1 & ->) & (t2 & v2 & f2 & R2 & F2 & ->) & ->).
    assert (BB : forall g, label_sorted num g -> forall s, by_label num (arcs (sort_arcs num g) s)).
    { intros g H s. unfold arcs, sort_arcs. cbn [sts with_sts]. rewrite nth_map_nil by reflexivity. specialize (H s). unfold by_label.
      induction H as [|a l' H IH Fa]; constructor; auto. eapply Forall_impl; [|exact Fa]. intros b. apply label_lt_iff. }
    destruct (result_run_complete num NI g1 g2 st I D (BB _ B1) (BB _ B2) _ _ _ _ R1 _ _ _ R2 0 (inv_zero _ _ _ _ I)) as (t & Ht & R).
    exists t, (v1 + v2)%Z, (f1 + f2)%Z. split; [exact R|]. split; [|lia]. pose proof (inv_fin _ _ _ _ I _ _ Ht) as P. rewrite PF, F1, F2 in P. exact P.
Qed.
Print Assumptions C24_intersect_partial.

(** A numbering of all symbols. *)
Definition ex_num (x : bstr) : nat := fold_right (fun c n => 256 * n + nat_of_ascii c + 1) 0 x.
Lemma ex_num_inj : forall x y, ex_num x = ex_num y -> x = y.
Proof.
  assert (A : forall c, nat_of_ascii c < 256) by apply nat_ascii_bounded.
  assert (K : forall c x, ex_num (c :: x) = 256 * ex_num x + nat_of_ascii c + 1) by reflexivity.
  induction x as [|c x IH]; intros [|d y] E; rewrite ?K in E; [reflexivity|change (ex_num []) with 0 in E; lia|change (ex_num []) with 0 in E; lia|].
  pose proof (A c). pose proof (A d). assert (nat_of_ascii c = nat_of_ascii d /\ ex_num x = ex_num y) as [E1 E2] by lia. f_equal; [|apply IH; exact E2].
  rewrite <- (ascii_nat_embedding c), E1. apply ascii_nat_embedding.
Qed.
(** Two deterministic transducers, both accepting exactly a and b: the intersection loses
    a, because transitions are sorted by target before they are merged by label. *)
Theorem C24_missing_path_refuted : exists g1 g2 r,
  run_ops empty_graph [OAddTransition 0 (Arc 2 (B "a") (B "a") 0); OAddTransition 0 (Arc 1 (B "b") (B "b") 0); OSetFinal 1 0; OSetFinal 2 0] = Ok g1 /\
  run_ops empty_graph [OAddTransition 0 (Arc 1 (B "a") (B "a") 0); OAddTransition 0 (Arc 2 (B "b") (B "b") 0); OSetFinal 1 0; OSetFinal 2 0] = Ok g2 /\
  intersect ex_num 10 g1 g2 = Ok r /\
  accepts g1 [(B "a", B "a")] 0 /\ accepts g2 [(B "a", B "a")] 0 /\ ~ exists w, accepts r [(B "a", B "a")] w.
Proof.
  eexists _, _, _. split; [vm_compute; reflexivity|]. split; [vm_compute; reflexivity|]. split; [vm_compute; reflexivity|]. split; [|split].
  - exists 2, 0%Z, 0%Z. split; [|auto]. change 0%Z with (0 + 0)%Z at 3. apply (run_cons _ 0 (Arc 2 (B "a") (B "a") 0)); [left; reflexivity|constructor].
  - exists 1, 0%Z, 0%Z. split; [|auto]. change 0%Z with (0 + 0)%Z at 3. apply (run_cons _ 0 (Arc 1 (B "a") (B "a") 0)); [left; reflexivity|constructor].
  - intros (w & t & v & f & R & _). inversion R; subst. match goal with H : In ?a _ |- _ => simpl in H; destruct H as [<-|[]] end. discriminate.
Qed.
Print Assumptions C24_missing_path_refuted.
(** Both initial states final: the empty path gets the smaller weight, not the sum. *)
Theorem C24_initial_weight_refuted : exists g1 g2 r,
  run_ops empty_graph [OSetFinal 0 1] = Ok g1 /\ run_ops empty_graph [OSetFinal 0 2] = Ok g2 /\ intersect ex_num 10 g1 g2 = Ok r /\
  accepts g1 [] 1 /\ accepts g2 [] 2 /\ ~ accepts r [] 3 /\ accepts r [] 1.
Proof.
  eexists _, _, _. split; [vm_compute; reflexivity|]. split; [vm_compute; reflexivity|]. split; [vm_compute; reflexivity|].
  split; [exists 0, 0%Z, 1%Z; split; [constructor|auto]|]. split; [exists 0, 0%Z, 2%Z; split; [constructor|auto]|]. split.
  - intros (t & v & f & R & F & E). inversion R; subst. simpl in F. injection F as <-. discriminate E.
  - exists 0, 0%Z, 1%Z. split; [constructor|auto].
Qed.
Print Assumptions C24_initial_weight_refuted.
(** Duplicate labels (non-deterministic transducers) lose paths as well. *)
Theorem C24_duplicate_labels_refuted : exists g1 g2 r,
  run_ops empty_graph [OAddTransition 0 (Arc 1 (B "a") (B "a") 0); OAddTransition 0 (Arc 2 (B "a") (B "a") 0); OSetFinal 2 0] = Ok g1 /\
  run_ops empty_graph [OAddTransition 0 (Arc 1 (B "a") (B "a") 0); OSetFinal 1 0] = Ok g2 /\
  intersect ex_num 10 g1 g2 = Ok r /\
  accepts g1 [(B "a", B "a")] 0 /\ accepts g2 [(B "a", B "a")] 0 /\ ~ exists l w, accepts r l w.
Proof.
  eexists _, _, _. split; [vm_compute; reflexivity|]. split; [vm_compute; reflexivity|]. split; [vm_compute; reflexivity|]. split; [|split].
  - exists 2, 0%Z, 0%Z. split; [|auto]. change 0%Z with (0 + 0)%Z at 3. apply (run_cons _ 0 (Arc 2 (B "a") (B "a") 0)); [right; left; reflexivity|constructor].
  - exists 1, 0%Z, 0%Z. split; [|auto]. change 0%Z with (0 + 0)%Z at 3. apply (run_cons _ 0 (Arc 1 (B "a") (B "a") 0)); [left; reflexivity|constructor].
  - intros (l & w & t & v & f & R & F & _). discriminate F.
Qed.
Print Assumptions C24_duplicate_labels_refuted.

(** A case meeting all hypotheses, with a cycle. *)
Definition w1 : graph := Graph [[Arc 0 (B "a") (B "a") 1; Arc 1 (B "b") (B "b") 2]; []] [(1, 3%Z)] [].
Definition w2 : graph := Graph [[Arc 0 (B "a") (B "a") 10]; []] [(0, 5%Z)] [].
Example C24_witness : (forall x y, ex_num x = ex_num y -> x = y) /\ structure_ok w1 /\ structure_ok w2 /\ label_sorted ex_num w1 /\ label_sorted ex_num w2 /\
  exists r, intersect ex_num 5 w1 w1 = Ok r /\ accepts r [(B "a", B "a"); (B "b", B "b")] 12.
Proof.
  assert (S1 : structure_ok w1).
  { split; [discriminate|]. split; [intros [|[|[|s]]] a Ha; simpl in Ha; repeat destruct Ha as [<-|Ha]; try destruct Ha; simpl; lia|].
    intros s w. simpl. destruct (Nat.compare s 1) eqn:C; try discriminate. apply Nat.compare_eq_iff in C. lia. }
  assert (S2 : structure_ok w2).
  { split; [discriminate|]. split; [intros [|[|[|s]]] a Ha; simpl in Ha; repeat destruct Ha as [<-|Ha]; try destruct Ha; simpl; lia|].
    intros s w. simpl. destruct (Nat.compare s 0) eqn:C; try discriminate. apply Nat.compare_eq_iff in C. lia. }
  split; [exact ex_num_inj|]. split; [exact S1|]. split; [exact S2|]. split; [|split].
  - intros [|[|[|s]]]; [|constructor..]. constructor; [repeat constructor|]. constructor; [|constructor]. left. vm_compute. lia.
  - intros [|[|[|s]]]; [|constructor..]. constructor; repeat constructor.
  - eexists. split; [vm_compute; reflexivity|]. exists 1, 6%Z, 6%Z. split; [|auto]. change 6%Z with (2 + (4 + 0))%Z.
    apply (run_cons _ 0 (Arc 0 (B "a") (B "a") 2)); [left; reflexivity|]. apply (run_cons _ 0 (Arc 1 (B "b") (B "b") 4)); [right; left; reflexivity|constructor].
Qed.
