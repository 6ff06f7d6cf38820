(** Composition: the whole function. *)
From Verif Require Import Base Flags_Model BT_Model BT_Spec BT_Proofs BT_Proofs4 BT_Proofs5 BT_Props Harm_Model Harm_Spec Harm_Proofs Harm_Props Co_Spec Co_Model Co_Proofs Co_Proofs2 Co_Proofs3.

Lemma compose_same_internal g1 g2 h :
  well_formed g1 -> well_formed g2 -> identities_paired g1 -> identities_paired g2 ->
  no_empty_symbol g1 -> no_empty_symbol g2 -> same_internal_symbols g1 g2 ->
  compose g1 g2 (Ok h) ->
  (forall s, In s (alpha h) <-> In s (alpha g1) \/ In s (alpha g2)) /\
  (forall x z w, related h x z w -> exists y w1 w2, related g1 x y w1 /\ related g2 y z w2 /\ w = (w1 + w2)%Z) /\
  (forall x y z w1 w2, related g1 x y w1 -> related g2 y z w2 ->
     ~ unknown_input g1 \/ ~ unknown_output g2 \/ (forall s, In s x -> In s z -> In s (alpha g1) \/ In s (alpha g2)) ->
     exists w, related h x z w /\ (w <= w1 + w2)%Z).
Proof.
  intros (ST1 & SY1 & SP1) (ST2 & SY2 & SP2) P1 P2 N1 N2 SI C.
  destruct (operands_facts g1 g2 ST1 ST2 SY1 SY2 SP1 SP2 P1 P2 N1 N2 SI) as (h1 & h2 & k1 & k2 & E & F1 & F2 & LA).
  unfold compose in C. rewrite E in C. destruct C as (m & (CA & CU & CS & CC) & C). symmetry in C.
  pose proof F1 as (R1 & A1 & _ & K1 & T1 & B1 & U1). pose proof F2 as (R2 & A2 & _ & K2 & T2 & B2 & U2).
  assert (EU : In EPS (alpha m) /\ In UNK (alpha m)) by (split; apply CA; left; apply B1; left; apply SP1).
  assert (AH : forall s, In s (alpha h) <-> In s (alpha g1) \/ In s (alpha g2)).
  { intros s. rewrite (single_identity_alpha m h); [rewrite CA, B1, B2; tauto| |apply EU|exact C].
    intros x X. apply CU in X. destruct X as [->|[X|X]]; [apply EU| |]; apply CA; [left; apply U1, X|right; apply U2, X]. }
  assert (AH1 : forall s, In s (alpha h) <-> In s (alpha h1)) by (intros s; rewrite AH, A1; tauto).
  assert (M1 : forall l c, Forall2 (means (alpha h)) l c -> Forall2 (means (alpha h1)) l c) by (intros l c; apply Forall2_means, AH1).
  assert (M1' : forall l c, Forall2 (means (alpha h1)) l c -> Forall2 (means (alpha h)) l c) by (intros l c; apply Forall2_means; intros s; symmetry; apply AH1).
  assert (M2 : forall l c, Forall2 (means (alpha h2)) l c <-> Forall2 (means (alpha h1)) l c).
  { intros l c. split; apply Forall2_means; intros s; rewrite A1, A2; tauto. }
  split; [exact AH|]. split.
  - intros x z w (c & (l & A & M) & -> & ->). apply (single_identity_accepts m h C) in A. destruct A as (l0 & A & ->).
    destruct (CS _ _ A) as (l1 & w1 & l2 & w2 & Q1 & Q2 & D & ->). apply K1 in Q1. destruct Q1 as (m1 & Q1 & ->). apply K2 in Q2. destruct Q2 as (m2 & Q2 & ->).
    destruct (path_facts _ _ _ _ _ _ _ _ F1 Q1) as (D1 & _). destruct (path_facts _ _ _ _ _ _ _ _ F2 Q2) as (D2 & _).
    destruct (composed_sound (alpha h1) _ _ _ D m1 m2 c eq_refl eq_refl D1 D2 (M1 _ _ M)) as (c1 & c2 & G1 & G2 & X & Y & Z).
    exists (outs c1), w1, w2. split; [|split; [|reflexivity]].
    + exists c1. split; [apply R1; exists m1; auto|]. split; [exact Y|reflexivity].
    + exists c2. split; [apply R2; exists m2; split; [exact Q2|apply M2, G2]|]. split; [exact X|exact Z].
  - intros x y z w1 w2 (c1 & Q1 & -> & ->) (c2 & Q2 & EY & ->) H.
    apply R1 in Q1. destruct Q1 as (m1 & Q1 & G1). apply R2 in Q2. destruct Q2 as (m2 & Q2 & G2). apply M2 in G2.
    destruct (path_facts _ _ _ _ _ _ _ _ F1 Q1) as (D1 & D1' & D1'' & _). destruct (path_facts _ _ _ _ _ _ _ _ F2 Q2) as (D2 & D2' & _ & D2'').
    assert (D3 : Forall (known (alpha h1)) m2).
    { apply Forall_forall. rewrite Forall_forall in D2'. intros p Hp. destruct (D2' p Hp) as [V1 V2]. split; intros [O I]; [apply V1|apply V2]; (split; [exact O|]); rewrite A2, <- A1; exact I. }
    assert (EL : outs (map enc1 m1) = ins (map enc2 m2)).
    { apply (lab_fun (alpha h1) _ _ (outs c1)); [apply outs_lab; assumption|]. unfold outs. rewrite EY. apply (ins_lab (alpha h1) m2 c2); assumption. }
    destruct (CC (map enc1 m1) w1 (map enc2 m2) w2) as (l & w & A & D & L); [apply K1; eauto|apply K2; eauto|exact EL|].
    destruct (composed_complete (alpha h1) _ _ _ D m1 m2 c1 c2 eq_refl eq_refl D1 D2 G1 G2 EY) as (c & G & Y & Z).
    { intros p q Hp Hq. destruct H as [H|[H|H]].
      - left. intros K. apply H. eapply D1''; eassumption.
      - right. left. intros K. apply H. eapply D2''; eassumption.
      - right. right. intros s Hs1 Hs2 O. assert (NS : s <> EPS) by apply (outside_ne _ _ O). apply (proj2 O). apply A1.
        apply H; unfold no_epsilons; apply filter_In; (split; [assumption|]); apply neps_t; exact NS. }
    exists w. split; [|exact L]. exists c. split; [|split; [symmetry; exact Y|symmetry; exact Z]].
    exists (map dec l). split; [apply (single_identity_accepts m h C); eauto|apply M1', G].
Qed.

Lemma compose_total_same_internal g1 g2 :
  well_formed g1 -> well_formed g2 -> identities_paired g1 -> identities_paired g2 ->
  no_empty_symbol g1 -> no_empty_symbol g2 -> same_internal_symbols g1 g2 ->
  (exists h, compose g1 g2 (Ok h)) /\ (forall r, compose g1 g2 r -> exists h, r = Ok h).
Proof.
  intros (ST1 & SY1 & SP1) (ST2 & SY2 & SP2) P1 P2 N1 N2 SI.
  destruct (operands_facts g1 g2 ST1 ST2 SY1 SY2 SP1 SP2 P1 P2 N1 N2 SI) as (h1 & h2 & k1 & k2 & E & F1 & F2 & LA).
  pose proof F1 as (_ & _ & _ & _ & T1 & _ & U1). pose proof F2 as (_ & _ & _ & _ & T2 & _ & U2).
  assert (K : forall m, composition k1 k2 m -> exists r, substitute_func single_identity m = Ok r).
  { intros m (_ & CU & _). apply single_identity_ok. intros x X. apply CU in X. destruct X as [->|[X|X]]; [discriminate|apply U1, X|apply U2, X]. }
  unfold compose. rewrite E. split.
  - pose proof (product_composition k1 k2 T1 T2) as P. destruct (K _ P) as (r & Er). exists r, (product k1 k2). auto.
  - intros r (m & C & ->). apply K, C.
Qed.

(** Internal symbols of one operand are added to the other. *)
Lemma internal_is_special x : internal_symbol x -> is_special_symbol x = true.
Proof.
  intros (m & ->). unfold is_special_symbol. assert (L : length (B "@_" ++ m ++ B "_@") = 4 + length m) by (rewrite !app_length; cbn; lia).
  rewrite L. replace (4 + length m <? 4) with false by (symmetry; apply Nat.ltb_ge; lia).
  assert (A : forall i c, i < 2 -> nth_error (B "_@") i = Some c -> at_is (B "@_" ++ m ++ B "_@") (2 + length m + i) c = true).
  { intros i c Hi E. unfold at_is. rewrite nth_error_app2 by (cbn; lia). rewrite nth_error_app2 by (cbn; lia).
    replace (2 + length m + i - length (B "@_") - length m) with i by (cbn; lia). rewrite E. apply Ascii.eqb_refl. }
  replace (4 + length m - 1) with (2 + length m + 1) by lia. replace (4 + length m - 2) with (2 + length m + 0) by lia.
  rewrite (A 1 "@"%char), (A 0 "_"%char) by (lia || reflexivity). reflexivity.
Qed.
Lemma inserted_knows g other : knowing_internal_symbols_of other g (insert_missing_special_symbols g other).
Proof.
  unfold insert_missing_special_symbols. destruct (add_symbols_sts (filter (fun x => negb (smem bcmp x (alpha g)) && is_special_symbol x) (alpha other)) g) as [E F].
  split; [exact E|]. split; [exact F|]. intros x. rewrite In_add_symbols, filter_In, andb_true_iff, negb_true_iff. split.
  - intros [(H & _ & S)|H]; [right; split; [apply is_special_internal, S|exact H]|left; exact H].
  - intros [H|[I H]]; [right; exact H|]. destruct (smem bcmp x (alpha g)) eqn:M; [right; apply (smem_In bcmp bcmp_eq), M|].
    left. split; [exact H|]. split; [reflexivity|apply internal_is_special, I].
Qed.
Lemma well_formed_knows o g g' : knowing_internal_symbols_of o g g' -> well_formed g -> well_formed g'.
Proof.
  intros (E & F & A) (S & Y & P1 & P2 & P3). split; [apply (structure_eq g); auto|]. split.
  - intros s a Ha. rewrite E in Ha. destruct (Y s a Ha). split; apply A; auto.
  - repeat split; apply A; auto.
Qed.
Lemma paired_knows o g g' : knowing_internal_symbols_of o g g' -> identities_paired g -> identities_paired g'.
Proof. intros (E & F & A) P s a Ha. rewrite E in Ha. apply (P s a Ha). Qed.
Lemma nonempty_knows o g g' : knowing_internal_symbols_of o g g' -> no_empty_symbol g -> no_empty_symbol g'.
Proof.
  intros (E & F & A) [N1 N2]. split; [|intros s a Ha; rewrite E in Ha; apply (N2 s a Ha)]. rewrite A. intros [K|[(m & K) _]]; [auto|discriminate].
Qed.
Lemma accepts_same g g' : sts g' = sts g -> fin g' = fin g -> forall l w, accepts g l w -> accepts g' l w.
Proof.
  intros E F l w (t & v & f & R & Hf & W). exists t, v, f. rewrite F. split; [|auto]. clear - E R.
  induction R as [s|s a l v t Ha R IH]; [constructor|]. constructor; [rewrite E; exact Ha|exact IH].
Qed.
Lemma related_same g g' : sts g' = sts g -> fin g' = fin g -> (forall x, In x (alpha g) <-> In x (alpha g')) -> forall x y w, related g x y w -> related g' x y w.
Proof.
  intros E F A x y w (l & (m & Q & M) & X & Y). exists l. split; [|auto]. exists m. split; [apply (accepts_same g); assumption|]. apply (Forall2_means (alpha g)); assumption.
Qed.
Lemma knows_unique o g g1 g2 : knowing_internal_symbols_of o g g1 -> knowing_internal_symbols_of o g g2 -> forall x y w, related g1 x y w -> related g2 x y w.
Proof.
  intros (E1 & F1 & A1) (E2 & F2 & A2). apply related_same; [congruence|congruence|]. intros x. rewrite A1, A2. reflexivity.
Qed.

Section Internal.
  Variables g1 g2 : graph.
  Let t1 := insert_missing_special_symbols g1 g2.
  Let t2 := insert_missing_special_symbols g2 t1.
  Lemma t1_knows : knowing_internal_symbols_of g2 g1 t1. Proof. apply inserted_knows. Qed.
  Lemma t2_knows : knowing_internal_symbols_of g1 g2 t2.
  Proof.
    destruct (inserted_knows g2 t1) as (E & F & A). split; [exact E|]. split; [exact F|]. intros x. unfold t2. rewrite A.
    rewrite (proj2 (proj2 t1_knows)). tauto.
  Qed.
  Lemma t_same : same_internal_symbols t1 t2.
  Proof. intros x I. rewrite (proj2 (proj2 t1_knows)), (proj2 (proj2 t2_knows)). tauto. Qed.
  Lemma operands_same : compose_operands t1 t2 = compose_operands g1 g2.
  Proof.
    unfold compose_operands. fold t1. fold t2. rewrite (nothing_inserted t1 t2) by (intros x I; apply t_same, I).
    rewrite (nothing_inserted t2 t1) by (intros x I; apply t_same, I). reflexivity.
  Qed.
  Lemma compose_same r : compose t1 t2 r <-> compose g1 g2 r.
  Proof. unfold compose. rewrite operands_same. reflexivity. Qed.
End Internal.
