(** Property C83: shuffling. *)
From Verif Require Import Base BT_Model BT_Spec BT_Proofs BT_Proofs3 BT_Proofs5 Harm_Model Harm_Spec Sh_Spec Sh_Model Sh_Proofs Sh_Proofs2 Sh_Proofs3.

(** C83: the shuffle of two automata recognizes exactly the interleavings of a string of the
    first with a string of the second, with the sum of the weights (of several weights for one
    string only the least need be kept).  Partial: no transition may have the unknown or the
    identity symbol and no symbol may begin with the prefixes the operation adds (the theorems
    below show that both can make the result wrong), the reserved symbols must be in the
    alphabets, and no symbol may be the empty string. *)
Theorem C83_shuffle_partial g1 g2 h :
  structure_ok g1 -> structure_ok g2 -> specials_ok g1 -> specials_ok g2 -> no_empty_symbol g1 -> no_empty_symbol g2 ->
  no_wildcards g1 -> no_wildcards g2 -> not_prefixed g1 -> not_prefixed g2 ->
  shuffle g1 g2 (Ok h) ->
  (forall z w, recognizes h z w -> exists x w1 y w2, recognizes g1 x w1 /\ recognizes g2 y w2 /\ interleaving x y z /\ w = (w1 + w2)%Z) /\
  (forall x w1 y w2 z, recognizes g1 x w1 -> recognizes g2 y w2 -> interleaving x y z -> exists w, recognizes h z w /\ (w <= w1 + w2)%Z).
Proof.
  intros St1 St2 Sp1 Sp2 Ne1 Ne2 W1 W2 P1 P2 H. unfold shuffle in H.
  assert (A : automaton g1 /\ automaton g2).
  { destruct (fails g1) eqn:F1; [|destruct (fails g2) eqn:F2; [|split; apply failsE; assumption]]; exfalso;
    rewrite (operands_fail g1 g2) in H by (try assumption; intros [A1 A2]; apply failsE in A1; apply failsE in A2; congruence); discriminate. }
  destruct A as [A1 A2].
  destruct (operands_ok g1 g2) as (p1 & p2 & al1 & al2 & E & _ & _ & _ & _ & L1 & L2 & R1 & R2 & C1); try assumption.
  rewrite E in H. destruct H as (m & (M1 & M2 & M3) & H).
  assert (Hm : forall s a, In a (nth s (sts m) []) -> isy a = osy a /\ (isy a = EPS \/ coded_by g1 g2 (isy a))).
  { intros s a Ha. destruct (M1 s a Ha) as [K1 K2]. split; [exact K1|]. destruct K2 as [K2|K2]; [left; exact K2|apply C1, K2]. }
  pose proof (recognizes_result al1 al2 m g1 g2 Hm h (eq_sym H)) as D. split.
  - intros z w Hz. apply D in Hz. destruct Hz as (u & Hu & ->). apply M2 in Hu. destruct Hu as (w1 & w2 & H1 & H2 & ->).
    apply R1 in H1. apply R2 in H2. destruct H1 as (x & H1 & X1). destruct H2 as (y & H2 & X2). exists x, w1, y, w2. split; [exact H1|]. split; [exact H2|].
    split; [|reflexivity]. apply (mix_interleaving al1 al2); [| |exact X1|exact X2].
    + intros z Hz. apply L1 in Hz. destruct Hz as (s & _ & _ & K). eauto.
    + intros z Hz. apply L2 in Hz. destruct Hz as (s & _ & _ & K). eauto.
  - intros x w1 y w2 z H1 H2 I. destruct (interleaving_mix al1 al2 x y z I) as (u & X1 & X2 & ->).
    + intros s Hs. apply L1. destruct (recognizes_used _ _ _ H1 s Hs). eauto.
    + intros s Hs. apply L2. destruct (recognizes_used _ _ _ H2 s Hs). eauto.
    + destruct (M3 u w1 w2) as (w & Hw & Lw); [apply R1; eauto|apply R2; eauto|]. exists w. split; [|exact Lw]. apply D. eauto.
Qed.
Print Assumptions C83_shuffle_partial.

(** C83: shuffling throws exactly when one of the two is not an automaton; otherwise it
    succeeds. *)
Theorem C83_rejects_partial g1 g2 :
  structure_ok g1 -> structure_ok g2 -> specials_ok g1 -> specials_ok g2 -> no_empty_symbol g1 -> no_empty_symbol g2 ->
  no_wildcards g1 -> no_wildcards g2 -> not_prefixed g1 -> not_prefixed g2 ->
  (~ (automaton g1 /\ automaton g2) -> forall r, shuffle g1 g2 r <-> r = Throw) /\
  (automaton g1 -> automaton g2 -> (exists h, shuffle g1 g2 (Ok h)) /\ forall r, shuffle g1 g2 r -> exists h, r = Ok h).
Proof.
  intros St1 St2 Sp1 Sp2 Ne1 Ne2 W1 W2 P1 P2. split.
  - intros N r. unfold shuffle. rewrite operands_fail by assumption. reflexivity.
  - intros A1 A2. unfold shuffle.
    destruct (operands_ok g1 g2) as (p1 & p2 & al1 & al2 & E & S1 & S2 & B1 & B2 & L1 & L2 & R1 & R2 & C1); try assumption.
    rewrite E.
    assert (T : forall m, intersection p1 p2 m -> exists h, shuffle_result al1 al2 m = Ok h).
    { intros m (M1 & _). apply (result_total al1 al2 m g1 g2).
      - intros s a Ha. destruct (M1 s a Ha) as [K1 K2]. split; [exact K1|]. destruct K2 as [K2|K2]; [left; exact K2|apply C1, K2].
      - intros y U. destruct U as [(s & a & Ha & K)|(s & a & Ha & K)]; [destruct (proj2 Ne1 s a Ha)|destruct (proj2 Ne2 s a Ha)]; destruct K; congruence. }
    split.
    + assert (I : intersection p1 p2 (product p1 p2)) by (apply product_intersection; assumption).
      destruct (T _ I) as (h & Hh). exists h, (product p1 p2). split; [exact I|symmetry; exact Hh].
    + intros r (m & I & ->). apply T, I.
Qed.
Print Assumptions C83_rejects_partial.

(** * Witness *)
Definition xa := B "a". Definition xb := B "b". Definition xc := B "c".
Definition of_ops (os : list op) : graph := match run_ops empty_graph os with Ok g => g | _ => empty_graph end.
Definition ex1 : graph := of_ops [OAddTransition 0 (Arc 1 xa xa 1); OAddTransition 1 (Arc 2 xb xb 0); OSetFinal 2 2].
Definition ex2 : graph := of_ops [OAddTransition 0 (Arc 1 xc xc 4); OSetFinal 1 0].
Definition ex3 : graph := of_ops [OAddTransition 0 (Arc 1 xa xb 0); OSetFinal 1 0].
Lemma structure_of os : structure_ok (of_ops os).
Proof.
  unfold of_ops. destruct (run_ops empty_graph os) as [g| | |] eqn:E; try apply structure_empty.
  apply (structure_run_ops os empty_graph g); [|exact E]. apply structure_empty.
Qed.
Definition arcs_of (g : graph) : list arc := concat (sts g).
Lemma arcs_of_nth g s a : In a (nth s (sts g) []) -> In a (arcs_of g).
Proof.
  intros H. apply in_concat. exists (nth s (sts g) []). split; [|exact H].
  destruct (Nat.lt_ge_cases s (length (sts g))) as [L|L]; [apply nth_In, L|]. rewrite nth_overflow in H by exact L. destruct H.
Qed.
Definition arc_checks (a : arc) : bool :=
  is_valid_symbol (isy a) && is_valid_symbol (osy a) && negb (bstr_eqb (isy a) UNK) && negb (bstr_eqb (osy a) UNK)
  && negb (bstr_eqb (isy a) IDN) && negb (bstr_eqb (osy a) IDN).
Definition symbol_checks (x : bstr) : bool := is_valid_symbol x && negb (is_prefix (B "@1") x) && negb (is_prefix (B "@2") x).
Definition checks (g : graph) : bool :=
  forallb arc_checks (arcs_of g) && forallb symbol_checks (alpha g)
  && existsb (bstr_eqb EPS) (alpha g) && existsb (bstr_eqb UNK) (alpha g) && existsb (bstr_eqb IDN) (alpha g).
Lemma checks_sound g : checks g = true -> specials_ok g /\ no_empty_symbol g /\ no_wildcards g /\ not_prefixed g.
Proof.
  unfold checks. rewrite !andb_true_iff, !forallb_forall, !existsb_exists. intros ((((A & S) & E) & U) & I).
  assert (K : forall y, (exists x, In x (alpha g) /\ bstr_eqb y x = true) -> In y (alpha g)) by (intros y (x & H & Q); apply bstr_eqb_eq in Q; subst x; exact H).
  assert (AA : forall s a, In a (nth s (sts g) []) -> isy a <> [] /\ osy a <> [] /\ isy a <> UNK /\ osy a <> UNK /\ isy a <> IDN /\ osy a <> IDN).
  { intros s a Ha. apply arcs_of_nth, A in Ha. unfold arc_checks in Ha. rewrite !andb_true_iff, !negb_true_iff, !bstr_eqb_neq in Ha.
    destruct Ha as (((((H1 & H2) & H3) & H4) & H5) & H6). repeat split; try assumption; [intros Q; rewrite Q in H1|intros Q; rewrite Q in H2]; discriminate. }
  split; [split; [apply K, E|split; [apply K, U|apply K, I]]|]. split; [split|split; [split|]].
  - intros N. apply S in N. discriminate.
  - intros s a Ha. destruct (AA s a Ha). tauto.
  - intros (s & a & Ha & [Q|Q]); destruct (AA s a Ha) as (_ & _ & H1 & H2 & _); [apply H1|apply H2]; symmetry; exact Q.
  - intros (s & a & Ha & [Q|Q]); destruct (AA s a Ha) as (_ & _ & _ & _ & H1 & H2); [apply H1|apply H2]; symmetry; exact Q.
  - intros x y Hx. apply S in Hx. unfold symbol_checks in Hx. rewrite !andb_true_iff, !negb_true_iff in Hx. destruct Hx as ((_ & H1) & H2).
    split; intros ->; [cbn in H1|cbn in H2]; discriminate.
Qed.
Definition auto_check (g : graph) : bool := forallb (fun a => bstr_eqb (isy a) (osy a)) (arcs_of g).
Lemma auto_check_sound g : auto_check g = true -> automaton g.
Proof. unfold auto_check. rewrite forallb_forall. intros A s a Ha. apply bstr_eqb_eq, A, (arcs_of_nth g s), Ha. Qed.

(** The shuffle of ab (weight 3) and c (weight 4) exists and has acb with weight at most 7, and
    no other string weight than 7; a transducer is rejected. *)
Example C83_witness :
  (structure_ok ex1 /\ structure_ok ex2 /\ checks ex1 = true /\ checks ex2 = true /\ checks ex3 = true) /\
  (exists h, shuffle ex1 ex2 (Ok h) /\ recognizes h [xa; xc; xb] 7) /\
  shuffle ex1 ex3 Throw.
Proof.
  assert (S1 : structure_ok ex1) by apply structure_of.
  assert (S2 : structure_ok ex2) by apply structure_of.
  assert (S3 : structure_ok ex3) by apply structure_of.
  assert (K1 : checks ex1 = true) by (vm_compute; reflexivity). assert (K2 : checks ex2 = true) by (vm_compute; reflexivity).
  assert (K3 : checks ex3 = true) by (vm_compute; reflexivity).
  destruct (checks_sound _ K1) as (P1 & N1 & W1 & F1). destruct (checks_sound _ K2) as (P2 & N2 & W2 & F2). destruct (checks_sound _ K3) as (P3 & N3 & W3 & F3).
  split; [auto|]. split.
  - destruct (C83_rejects_partial ex1 ex2) as [_ T]; try assumption. destruct T as [(h & H) _]; [apply auto_check_sound; vm_compute; reflexivity..|].
    exists h. split; [exact H|]. destruct (C83_shuffle_partial ex1 ex2 h) as [So Co]; try assumption.
    assert (R1 : recognizes ex1 [xa; xb] 3).
    { exists [(xa, xa); (xb, xb)]. split; [|reflexivity]. exists 2, 1%Z, 2%Z. split; [|split; reflexivity].
      change 1%Z with (1 + (0 + 0))%Z. apply (run_cons _ 0 (Arc 1 xa xa 1)); [left; reflexivity|].
      apply (run_cons _ 1 (Arc 2 xb xb 0)); [left; reflexivity|constructor]. }
    assert (R2 : recognizes ex2 [xc] 4).
    { exists [(xc, xc)]. split; [|reflexivity]. exists 1, 4%Z, 0%Z. split; [|split; reflexivity].
      change 4%Z with (4 + 0)%Z. apply (run_cons _ 0 (Arc 1 xc xc 4)); [left; reflexivity|constructor]. }
    destruct (Co _ _ _ _ [xa; xc; xb] R1 R2) as (w & Rw & Lw); [repeat constructor|].
    destruct (So _ _ Rw) as (x & w1 & y & w2 & Q1 & Q2 & _ & ->).
    assert (E1 : w1 = 3%Z).
    { destruct Q1 as (l & (t & v & f & R & Hf & ->) & _). inversion R as [|? a ? ? ? Ha R']; subst; [discriminate Hf|]. cbn in Ha. destruct Ha as [<-|[]].
      inversion R' as [|? a ? ? ? Ha R'']; subst; [discriminate Hf|]. cbn in Ha. destruct Ha as [<-|[]].
      inversion R'' as [|? a ? ? ? Ha R3]; subst; [|destruct Ha]. cbn in Hf. injection Hf as <-. reflexivity. }
    assert (E2 : w2 = 4%Z).
    { destruct Q2 as (l & (t & v & f & R & Hf & ->) & _). inversion R as [|? a ? ? ? Ha R']; subst; [discriminate Hf|]. cbn in Ha. destruct Ha as [<-|[]].
      inversion R' as [|? a ? ? ? Ha R'']; subst; [|destruct Ha]. cbn in Hf. injection Hf as <-. reflexivity. }
    subst. exact Rw.
  - destruct (C83_rejects_partial ex1 ex3) as [T _]; try assumption. apply T; [|reflexivity].
    intros [_ A]. specialize (A 0 (Arc 1 xa xb 0) (or_introl eq_refl)). discriminate.
Qed.

(** * Where the full statement fails *)
(** Any symbol but a, shuffled with b, has ab: the alphabet of the result no longer has a, so
    that identity now covers it. *)
Definition not_a : graph := of_ops [OAddTransition 0 (Arc 1 IDN IDN 0); OSetFinal 1 0; OAddSymbol xa].
Definition just_b : graph := of_ops [OAddTransition 0 (Arc 1 xb xb 0); OSetFinal 1 0].
Definition structure_check (g : graph) : bool :=
  negb (length (sts g) =? 0) && forallb (fun a => tgt a <? length (sts g)) (arcs_of g) && forallb (fun p => fst p <? length (sts g)) (fin g).
Lemma structure_check_sound g : structure_check g = true -> structure_ok g.
Proof.
  unfold structure_check. rewrite !andb_true_iff, !forallb_forall, negb_true_iff, Nat.eqb_neq. intros ((N & A) & F). split; [|split].
  - intros E. rewrite E in N. apply N. reflexivity.
  - intros s a Ha. apply Nat.ltb_lt, A, (arcs_of_nth g s), Ha.
  - intros s w Hw. apply (mget_In Nat.compare) in Hw; [|intros x y; apply Nat.compare_eq_iff]. apply F in Hw. apply Nat.ltb_lt, Hw.
Qed.
Definition operands_of (g1 g2 : graph) : graph * graph * list bstr * list bstr :=
  match shuffle_operands g1 g2 with Ok r => r | _ => (g1, g2, [], []) end.
Definition p1_of g1 g2 := fst (fst (fst (operands_of g1 g2))).
Definition p2_of g1 g2 := snd (fst (fst (operands_of g1 g2))).
Definition result_of (g1 g2 : graph) : graph :=
  match shuffle_result (snd (fst (operands_of g1 g2))) (snd (operands_of g1 g2)) (product (p1_of g1 g2) (p2_of g1 g2)) with Ok h => h | _ => g1 end.
Definition good_operands (g1 g2 : graph) : bool :=
  match shuffle_operands g1 g2 with
  | Ok (p1, p2, al1, al2) =>
      structure_check p1 && structure_check p2 && auto_check p1 && auto_check p2
      && match shuffle_result al1 al2 (product p1 p2) with Ok _ => true | _ => false end
  | _ => false
  end.
Lemma shuffle_result_of g1 g2 : good_operands g1 g2 = true -> shuffle g1 g2 (Ok (result_of g1 g2)).
Proof.
  unfold good_operands, shuffle, result_of, p1_of, p2_of, operands_of. destruct (shuffle_operands g1 g2) as [[[[p1 p2] al1] al2]| | |]; try discriminate.
  cbn [fst snd]. rewrite !andb_true_iff. intros ((((S1 & S2) & A1) & A2) & R). exists (product p1 p2). split.
  - apply product_intersection; [apply structure_check_sound, S1|apply structure_check_sound, S2|apply auto_check_sound, A1|apply auto_check_sound, A2].
  - destruct (shuffle_result al1 al2 (product p1 p2)); try discriminate. reflexivity.
Qed.
Theorem C83_identity_refuted : exists h, shuffle not_a just_b (Ok h) /\ relation h [(xa, xa); (xb, xb)] 0 /\
  forall l w, relation not_a l w \/ relation just_b l w -> ~ In (xa, xa) l.
Proof.
  exists (result_of not_a just_b). split; [apply shuffle_result_of; vm_compute; reflexivity|]. split.
  - exists [(IDN, IDN); (xb, xb)]. split.
    + exists 3, 0%Z, 0%Z. split; [|split; vm_compute; reflexivity].
      change 0%Z with (0 + (0 + 0))%Z. apply (run_cons _ 0 (Arc 2 IDN IDN 0)); [vm_compute; tauto|].
      apply (run_cons _ 2 (Arc 3 xb xb 0)); [vm_compute; tauto|constructor].
    + constructor; [apply means_identity|constructor; [|constructor]].
      * split; [|vm_compute; intuition discriminate]. split; [vm_compute; intuition discriminate|]. split; [vm_compute; reflexivity|].
        intros K. apply Harm_Proofs.pmatch_special_spec in K. vm_compute in K. discriminate.
      * apply means_itself; [discriminate|discriminate|intros [K _]; discriminate].
  - intros l w [H|H] K; destruct H as (m & (t & v & f & R & _ & _) & F).
    + inversion R as [|? a ? ? ? Ha R']; subst; [inversion F; subst; destruct K|]. cbn in Ha. destruct Ha as [<-|[]].
      inversion R' as [|? a ? ? ? Ha R'']; subst; [|destruct Ha]. inversion F as [|? y ? l' M F']; subst. inversion F'; subst.
      destruct K as [->|[]]. inversion M as [x O| | | | ]; subst; [|congruence..]. destruct O as [_ O]. apply O. vm_compute. tauto.
    + inversion R as [|? a ? ? ? Ha R']; subst; [inversion F; subst; destruct K|]. cbn in Ha. destruct Ha as [<-|[]].
      inversion R' as [|? a ? ? ? Ha R'']; subst; [|destruct Ha]. inversion F as [|? y ? l' M F']; subst. inversion F'; subst.
      destruct K as [->|[]]. inversion M.
Qed.
Print Assumptions C83_identity_refuted.
(** A symbol that looks like an encoded one of the other transducer is lost from the alphabets:
    shuffling a with the symbol @1a gives nothing at all. *)
Definition just_a : graph := of_ops [OAddTransition 0 (Arc 1 xa xa 0); OSetFinal 1 0].
Definition just_1a : graph := of_ops [OAddTransition 0 (Arc 1 (B "@1a") (B "@1a") 0); OSetFinal 1 0].
Theorem C83_prefixed_refuted : exists h, shuffle just_a just_1a (Ok h) /\ recognizes just_a [xa] 0 /\ recognizes just_1a [B "@1a"] 0 /\
  forall z w, ~ recognizes h z w.
Proof.
  exists (result_of just_a just_1a). split; [apply shuffle_result_of; vm_compute; reflexivity|]. split; [|split].
  - exists [(xa, xa)]. split; [|reflexivity]. exists 1, 0%Z, 0%Z. split; [|split; reflexivity].
    change 0%Z with (0 + 0)%Z. apply (run_cons _ 0 (Arc 1 xa xa 0)); [left; reflexivity|constructor].
  - exists [(B "@1a", B "@1a")]. split; [|reflexivity]. exists 1, 0%Z, 0%Z. split; [|split; reflexivity].
    change 0%Z with (0 + 0)%Z. apply (run_cons _ 0 (Arc 1 (B "@1a") (B "@1a") 0)); [left; reflexivity|constructor].
  - intros z w (l & (t & v & f & R & Hf & _) & _).
    assert (T : forall s l v t, run (result_of just_a just_1a) s l v t -> s = 0 \/ s = 1 -> t = 0 \/ t = 1).
    { clear. intros s l v t R. induction R as [|s a l w t Ha R IH]; [auto|]. intros [->| ->]; apply IH; vm_compute in Ha; intuition (subst; cbn; auto). }
    destruct (T _ _ _ _ R (or_introl eq_refl)) as [->| ->]; vm_compute in Hf; discriminate.
Qed.
Print Assumptions C83_prefixed_refuted.
(** A transducer that pairs different symbols with unknown on both sides is not rejected. *)
Definition unknowns : graph := of_ops [OAddTransition 0 (Arc 1 UNK UNK 0); OSetFinal 1 0].
Theorem C83_unknown_refuted : (exists h, shuffle unknowns unknowns (Ok h)) /\ relation unknowns [(xa, xb)] 0.
Proof.
  split; [exists (result_of unknowns unknowns); apply shuffle_result_of; vm_compute; reflexivity|].
  exists [(UNK, UNK)]. split.
  - exists 1, 0%Z, 0%Z. split; [|split; reflexivity]. change 0%Z with (0 + 0)%Z. apply (run_cons _ 0 (Arc 1 UNK UNK 0)); [left; reflexivity|constructor].
  - constructor; [|constructor]. apply means_unknowns; [| |discriminate];
    (split; [|vm_compute; intuition discriminate]; split; [vm_compute; intuition discriminate|]; split; [vm_compute; reflexivity|];
     intros K; apply Harm_Proofs.pmatch_special_spec in K; vm_compute in K; discriminate).
Qed.
Print Assumptions C83_unknown_refuted.
