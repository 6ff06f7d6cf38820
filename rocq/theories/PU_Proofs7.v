(** Every operation has an outcome. *)
From Verif Require Import Base Flags_Model BT_Model BT_Spec BT_Proofs BT_Proofs3 Harm_Model Harm_Spec Co_Spec Co_Model Co_Proofs Co_Proofs2 Co_Proofs3 Co_Proofs4 Co_Props
  PU_Spec PU_Model PU_Proofs PU_Proofs2 PU_Proofs3 PU_Proofs4 PU_Proofs5 PU_Proofs6.

Lemma binary_exists (op : graph -> graph -> graph -> Prop) g1 g2 : sound g1 -> sound g2 ->
  (forall h1 h2, structure_ok h1 -> structure_ok h2 -> exists m, op h1 h2 m) -> exists r, apply_binary op g1 g2 r.
Proof.
  intros S1 S2 H. destruct (binary_operands g1 g2 _ _ S1 S2 (t1_knows g1 g2) (t2_knows g1 g2)) as (h1 & h2 & E & O1 & O2 & _).
  destruct (H h1 h2) as (m & M); [apply O1|apply O2|]. exists (Ok m). unfold apply_binary. rewrite E. exists m. auto.
Qed.
Lemma disjunct_exists g1 g2 : sound g1 -> sound g2 -> exists r, disjunct g1 g2 r.
Proof. intros S1 S2. apply binary_exists; auto. intros h1 h2 T1 T2. eexists. apply united_exists; assumption. Qed.
Lemma intersect_exists g1 g2 : sound g1 -> sound g2 -> exists r, intersect g1 g2 r.
Proof. intros S1 S2. apply binary_exists; auto. intros h1 h2 T1 T2. eexists. apply intersected_exists; assumption. Qed.
Lemma subtract_exists g1 g2 : sound g1 -> sound g2 -> exists r, subtract g1 g2 r.
Proof. intros S1 S2. apply binary_exists; auto. intros h1 h2 T1 T2. eexists. apply subtracted_exists; assumption. Qed.
Lemma optimize_exists g : structure_ok g -> exists r, optimize g r.
Proof. intros S. exists (Ok g), g. split; [apply optimised_exists, S|reflexivity]. Qed.
Lemma idstar_exists g : exists s, idstar g s.
Proof.
  destruct (any_sequence_exists ((IDN, IDN) :: map (fun x => (x, x)) (flags_of g)) (EPS :: UNK :: IDN :: flags_of g)) as (m & A & E).
  - intros p [<-|Hp]; [discriminate|]. apply in_map_iff in Hp. destruct Hp as (x & <- & Hx). apply filter_In in Hx. destruct Hx as [_ D]. intros X. injection X as ->. discriminate D.
  - exists m. split; [exact A|]. intros x. rewrite E. cbn [In]. intuition congruence.
Qed.
Lemma negate_exists g : sound g -> exists r, negate g r.
Proof.
  intros S. unfold negate. destruct (is_automaton g); [|exists Throw; reflexivity]. destruct (idstar_exists g) as (s & I). destruct (idstar_sound g s S I) as [Ss _].
  destruct (subtract_exists s g Ss S) as (r & R). exists r, s. auto.
Qed.
(** Composition, with a result that can be optimised. *)
Section ProductStructure.
  Variables g1 g2 : graph.
  Hypothesis S1 : structure_ok g1.
  Hypothesis S2 : structure_ok g2.
  Lemma product_structure : structure_ok (product g1 g2).
  Proof using S1 S2.
    pose proof (structure_zero g1 S1) as Z1. pose proof (structure_zero g2 S2) as Z2.
    assert (L : length (sts (product g1 g2)) = length (sts g1) * length (sts g2)) by (cbn [product sts]; rewrite map_length, seq_length; reflexivity).
    split; [|split].
    - intros E. rewrite E in L. cbn in L. nia.
    - intros s a Ha. rewrite L. destruct (Nat.lt_ge_cases s (length (sts g1) * length (sts g2))) as [Hs|Hs]; [|rewrite nth_overflow in Ha by lia; destruct Ha].
      assert (L1 : s / length (sts g2) < length (sts g1)) by (apply Nat.div_lt_upper_bound; lia). assert (L2 : s mod length (sts g2) < length (sts g2)) by (apply Nat.mod_upper_bound; lia).
      assert (Es : s = pst g2 (s / length (sts g2)) (s mod length (sts g2))) by (unfold pst; rewrite (Nat.div_mod s (length (sts g2))) at 1 by lia; lia).
      rewrite Es, parcs_nth in Ha by assumption. apply parcs_In in Ha; [|assumption..].
      destruct Ha as [(b & H & _ & ->)|[(b & H & _ & ->)|(b & c & H & K & _ & _ & ->)]]; cbn [tgt]; apply (pst_lt g1 g2 S1 S2); try assumption;
        first [exact (proj1 (proj2 S1) _ _ H)|exact (proj1 (proj2 S2) _ _ H)|exact (proj1 (proj2 S2) _ _ K)].
    - intros s w M. rewrite L. destruct (Nat.lt_ge_cases s (length (sts g1) * length (sts g2))) as [Hs|Hs]; [exact Hs|]. exfalso.
      assert (I : exists p, In p (fin (product g1 g2)) /\ fst p = s).
      { revert M. generalize (fin (product g1 g2)). induction l as [|[k v] l IH]; cbn [mget]; [discriminate|]. destruct (Nat.compare_spec s k) as [->|_|_].
        - intros _. exists (k, v). split; [left; reflexivity|reflexivity].
        - intros M. destruct (IH M) as (p & Hp & Ep). exists p. split; [right; exact Hp|exact Ep].
        - intros M. destruct (IH M) as (p & Hp & Ep). exists p. split; [right; exact Hp|exact Ep]. }
      destruct I as (p & Hp & <-). cbn [product fin] in Hp. apply in_flat_map in Hp. destruct Hp as (k & Hk & Hp). apply in_seq in Hk.
      destruct (pfins g1 g2 _ _); [|destruct Hp]. destruct Hp as [<-|[]]. cbn [fst] in Hs. lia.
  Qed.
End ProductStructure.
Lemma compose_exists g1 g2 : sound g1 -> sound g2 -> exists h, compose g1 g2 (Ok h) /\ structure_ok h.
Proof.
  intros (W1 & P1 & N1) (W2 & P2 & N2). pose proof (Co_Proofs4.t1_knows g1 g2) as Q1. pose proof (Co_Proofs4.t2_knows g1 g2) as Q2.
  pose proof (well_formed_knows _ _ _ Q1 W1) as (ST1 & SY1 & SP1). pose proof (well_formed_knows _ _ _ Q2 W2) as (ST2 & SY2 & SP2).
  destruct (operands_facts _ _ ST1 ST2 SY1 SY2 SP1 SP2 (paired_knows _ _ _ Q1 P1) (paired_knows _ _ _ Q2 P2) (nonempty_knows _ _ _ Q1 N1) (nonempty_knows _ _ _ Q2 N2) (t_same g1 g2))
    as (h1 & h2 & k1 & k2 & E & F1 & F2 & LA).
  pose proof F1 as (_ & _ & _ & _ & T1 & _ & U1). pose proof F2 as (_ & _ & _ & _ & T2 & _ & U2).
  pose proof (product_composition k1 k2 T1 T2) as P. destruct P as (PA & PU & P).
  assert (K : exists r, substitute_func single_identity (product k1 k2) = Ok r).
  { apply single_identity_ok. intros x X. apply PU in X. destruct X as [->|[X|X]]; [discriminate|apply U1, X|apply U2, X]. }
  destruct K as (r & Er). exists r. split.
  - apply (proj1 (compose_same g1 g2 (Ok r))). unfold compose. rewrite E. exists (product k1 k2). split; [split; [exact PA|split; [exact PU|exact P]]|auto].
  - unfold substitute_func in Er. destruct (subst_func_states _ (sts (product k1 k2))) as [[ls ps]| | |] eqn:E1; try discriminate. cbn [rmap] in Er. injection Er as <-.
    destruct (subst_func_states_spec _ _ _ _ E1) as (L & A & _). apply (structure_eq (with_sts (product k1 k2) ls)); [|apply add_pairs_sts].
    apply structure_sts; [apply product_structure; assumption|exact L|]. intros s a Ha. apply A in Ha.
    destruct Ha as [[Ha _]|(b & qs & q & Hb & _ & _ & ->)]; [exists a; auto|exists b; auto].
Qed.
Lemma andthen_exists (m : res graph -> Prop) (f : graph -> res graph -> Prop) g r : m (Ok g) -> f g r -> andthen m f r.
Proof. intros M F. exists (Ok g). auto. Qed.
Lemma priority_union_exists q p : sound q -> sound p -> no_internal_symbols q -> exists r, priority_union q p r.
Proof.
  intros Sq Sp Nq. destruct (project_sound q Sq) as [Su Au].
  destruct (negate_exists (input_project q) Su) as (rc & Rc). destruct (negate_result _ _ Su Rc) as [H _]. destruct (H Au) as (c & -> & Sc & _).
  assert (O1 : optimize (input_project q) (Ok (input_project q))) by (eexists; split; [apply optimised_exists, Su|reflexivity]).
  destruct (prune_sound c Sc) as [Sc' _]. destruct (compose_exists (prune_alphabet false c) p Sc' Sp) as (co & Co & Tco).
  pose proof (compose_sound _ _ _ Sc' Sp Co) as (Y & SP & P & N). assert (Sco : sound co) by (split; [split; [exact Tco|split; assumption]|split; assumption]).
  assert (O2 : optimize co (Ok co)) by (eexists; split; [apply optimised_exists, Tco|reflexivity]).
  destruct (disjunct_exists q co Sq Sco) as (rd & Rd). destruct (disjunct_result q co _ _ Sq Sco (t1_knows q co) (t2_knows q co) rd Rd) as (d & -> & Sd & _).
  exists (Ok d). unfold priority_union. eapply andthen_exists; [exact O1|]. eapply andthen_exists; [exact Rc|]. eapply andthen_exists; [exact Co|]. eapply andthen_exists; [exact O2|].
  eapply andthen_exists; [exact Rd|]. eexists. split; [apply optimised_exists, Sd|reflexivity].
Qed.
Lemma lenient_exists t1 t2 : sound t1 -> sound t2 -> no_internal_symbols t1 -> no_internal_symbols t2 -> exists r, lenient_composition t1 t2 r.
Proof.
  intros S1 S2 N1 N2. destruct (compose_exists t1 t2 S1 S2) as (co & Co & Tco).
  pose proof (compose_sound _ _ _ S1 S2 Co) as (Y & SP & P & N). assert (Sco : sound co) by (split; [split; [exact Tco|split; assumption]|split; assumption]).
  assert (NI : no_internal_symbols co).
  { intros x Ix Hx. pose proof S1 as (W1 & P1 & M1). pose proof S2 as (W2 & P2 & M2).
    apply (C84_compose_partial t1 t2 co t1 t2 W1 W2 P1 P2 M1 M2 (knows_self t1 t2 S1 N2) (knows_self t2 t1 S2 N1) Co) in Hx. destruct Hx as [Hx|Hx]; [exact (N1 x Ix Hx)|exact (N2 x Ix Hx)]. }
  assert (O2 : optimize co (Ok co)) by (eexists; split; [apply optimised_exists, Tco|reflexivity]).
  destruct (priority_union_exists co t1 Sco S1 NI) as (r & R). destruct (priority_union_result co t1 Sco S1 NI N1 r R) as (h & -> & Sh & _).
  exists (Ok h). unfold lenient_composition. eapply andthen_exists; [exact Co|]. eapply andthen_exists; [exact O2|]. eapply andthen_exists; [exact R|]. eexists. split; [apply optimised_exists, Sh|reflexivity].
Qed.
