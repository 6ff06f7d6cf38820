(** Property C84: composition. *)
From Verif Require Import Base Flags_Model BT_Model BT_Spec BT_Proofs BT_Proofs4 BT_Proofs5 BT_Props Harm_Model Harm_Spec Harm_Proofs Harm_Props Co_Spec Co_Model Co_Proofs Co_Proofs2 Co_Proofs3 Co_Proofs4.

(** C84: the composition of two transducers relates x to z if and only if the first relates x to
    some y and the second relates y to z; the weight is the sum.  Unknown and identity stand for
    the symbols outside a transducer's own alphabet, before and after, except for symbols of the
    form @_..._@ in the alphabet of the other one.
    Partial: of several ways to relate x to z only the lightest need be kept (that is all the
    back end promises); pairs that use the same unknown symbol on both ends are lost if both
    transducers have unknown there (C84_unknown_refuted); and as for harmonization (C25) the
    reserved symbols are in both alphabets, identity stands on both sides of a transition or
    none, and no symbol is empty. *)
Theorem C84_compose_partial g1 g2 h t1 t2 :
  well_formed g1 -> well_formed g2 -> identities_paired g1 -> identities_paired g2 ->
  no_empty_symbol g1 -> no_empty_symbol g2 ->
  knowing_internal_symbols_of g2 g1 t1 -> knowing_internal_symbols_of g1 g2 t2 ->
  compose g1 g2 (Ok h) ->
  (forall s, In s (alpha h) <-> In s (alpha g1) \/ In s (alpha g2)) /\
  (forall x z w, related h x z w -> exists y w1 w2, related t1 x y w1 /\ related t2 y z w2 /\ w = (w1 + w2)%Z) /\
  (forall x y z w1 w2, related t1 x y w1 -> related t2 y z w2 ->
     ~ unknown_input g1 \/ ~ unknown_output g2 \/ (forall s, In s x -> In s z -> In s (alpha g1) \/ In s (alpha g2)) ->
     exists w, related h x z w /\ (w <= w1 + w2)%Z).
Proof.
  intros W1 W2 P1 P2 N1 N2 K1 K2 C. pose proof (t1_knows g1 g2) as Q1. pose proof (t2_knows g1 g2) as Q2. apply (proj2 (compose_same g1 g2 (Ok h))) in C.
  destruct (compose_same_internal _ _ h (well_formed_knows _ _ _ Q1 W1) (well_formed_knows _ _ _ Q2 W2) (paired_knows _ _ _ Q1 P1) (paired_knows _ _ _ Q2 P2)
    (nonempty_knows _ _ _ Q1 N1) (nonempty_knows _ _ _ Q2 N2) (t_same g1 g2) C) as (A & S & Co). clear C.
  assert (U : forall s, In s (alpha (insert_missing_special_symbols g1 g2)) \/ In s (alpha (insert_missing_special_symbols g2 (insert_missing_special_symbols g1 g2)))
    <-> In s (alpha g1) \/ In s (alpha g2)).
  { intros s. rewrite (proj2 (proj2 Q1)), (proj2 (proj2 Q2)). tauto. }
  split; [intros s; rewrite A; apply U|]. split.
  - intros x z w R. destruct (S x z w R) as (y & w1 & w2 & R1 & R2 & E). exists y, w1, w2.
    split; [apply (knows_unique _ _ _ _ Q1 K1), R1|]. split; [apply (knows_unique _ _ _ _ Q2 K2), R2|exact E].
  - intros x y z w1 w2 R1 R2 H. apply (Co x y z w1 w2); [apply (knows_unique _ _ _ _ K1 Q1), R1|apply (knows_unique _ _ _ _ K2 Q2), R2|].
    destruct H as [H|[H|H]].
    + left. intros (s & a & Ha & E). apply H. exists s, a. rewrite (proj1 Q1) in Ha. auto.
    + right. left. intros (s & a & Ha & E). apply H. exists s, a. rewrite (proj1 Q2) in Ha. auto.
    + right. right. intros s Hx Hz. apply U. auto.
Qed.
Print Assumptions C84_compose_partial.

(** C84: composing always succeeds under these conditions. *)
Theorem C84_total_partial g1 g2 :
  well_formed g1 -> well_formed g2 -> identities_paired g1 -> identities_paired g2 ->
  no_empty_symbol g1 -> no_empty_symbol g2 ->
  (exists h, compose g1 g2 (Ok h)) /\ (forall r, compose g1 g2 r -> exists h, r = Ok h).
Proof.
  intros W1 W2 P1 P2 N1 N2. pose proof (t1_knows g1 g2) as Q1. pose proof (t2_knows g1 g2) as Q2.
  destruct (compose_total_same_internal _ _ (well_formed_knows _ _ _ Q1 W1) (well_formed_knows _ _ _ Q2 W2) (paired_knows _ _ _ Q1 P1) (paired_knows _ _ _ Q2 P2)
    (nonempty_knows _ _ _ Q1 N1) (nonempty_knows _ _ _ Q2 N2) (t_same g1 g2)) as [(h & C) T].
  split; [exists h; exact (proj1 (compose_same g1 g2 (Ok h)) C)|]. intros r R. exact (T r (proj2 (compose_same g1 g2 r) R)).
Qed.
Print Assumptions C84_total_partial.

(** * Examples *)
Definition of_ops (os : list op) : graph := match run_ops empty_graph os with Ok g => g | _ => empty_graph end.
Lemma structure_of os : structure_ok (of_ops os).
Proof.
  unfold of_ops. destruct (run_ops empty_graph os) as [g| | |] eqn:E; try apply structure_empty.
  apply (structure_run_ops os empty_graph g); [|exact E]. apply structure_empty.
Qed.
Definition sym_check (g : graph) : bool := forallb (forallb (fun a => smem bcmp (isy a) (alpha g) && smem bcmp (osy a) (alpha g))) (sts g).
Lemma sym_check_sound g : sym_check g = true -> symbols_ok g.
Proof.
  unfold sym_check. rewrite forallb_forall. intros A s a H.
  destruct (nth_in_or_default s (sts g) []) as [D|D]; [|rewrite D in H; destruct H]. apply A in D. rewrite forallb_forall in D. apply D in H.
  apply andb_true_iff in H. rewrite !(smem_In bcmp bcmp_eq) in H. exact H.
Qed.
(** C84 fails if both transducers have unknown at the outer ends: the composition of unknown:a
    and a:unknown does not relate b to b. *)
Definition to_a : graph := of_ops [OAddTransition 0 (Arc 1 UNK xa 0); OSetFinal 1 0].
Definition from_a : graph := of_ops [OAddTransition 0 (Arc 1 xa UNK 0); OSetFinal 1 0].
Lemma outside_b al : ~ In xb al -> outside al xb.
Proof.
  intros N. split; [|exact N]. split; [intros [K|[K|K]]; discriminate|]. split; [reflexivity|]. intros K. apply pmatch_special_spec in K. discriminate.
Qed.
Theorem C84_unknown_refuted : related to_a [xb] [xa] 0 /\ related from_a [xa] [xb] 0 /\
  (exists h, compose to_a from_a (Ok h)) /\ forall h w, compose to_a from_a (Ok h) -> ~ related h [xb] [xb] w.
Proof.
  assert (O1 : outside (alpha to_a) xb) by (apply outside_b; vm_compute; intuition discriminate).
  assert (O2 : outside (alpha from_a) xb) by (apply outside_b; vm_compute; intuition discriminate).
  split; [|split; [|split]].
  - exists [(xb, xa)]. split; [|split; reflexivity]. exists [(UNK, xa)]. split.
    + exists 1, 0%Z, 0%Z. split; [|split; reflexivity]. change 0%Z with (0 + 0)%Z. apply (run_cons _ 0 (Arc 1 UNK xa 0)); [left; reflexivity|constructor].
    + constructor; [|constructor]. apply means_unknown_in; [exact O1|discriminate].
  - exists [(xa, xb)]. split; [|split; reflexivity]. exists [(xa, UNK)]. split.
    + exists 1, 0%Z, 0%Z. split; [|split; reflexivity]. change 0%Z with (0 + 0)%Z. apply (run_cons _ 0 (Arc 1 xa UNK 0)); [left; reflexivity|constructor].
    + constructor; [|constructor]. apply means_unknown_out; [exact O2|discriminate].
  - apply C84_total_partial; try (split; [apply structure_of|split; [apply sym_check_sound; vm_compute; reflexivity|apply check_ok; vm_compute; reflexivity]]);
      try (apply check_ok; vm_compute; reflexivity).
  - intros h w C. unfold compose in C. destruct (compose_operands to_a from_a) as [[k1 k2]| | |] eqn:E; try discriminate.
    vm_compute in E. injection E as <- <-. destruct C as (m & (_ & _ & CS & _) & C). symmetry in C.
    intros (c & (l & A & M) & X & Z). apply (single_identity_accepts m h C) in A. destruct A as (l0 & A & ->).
    destruct (CS _ _ A) as (l1 & w1 & l2 & w2 & Q1 & Q2 & D & ->). clear A CS C.
    assert (L1 : l1 = [(UNK, xa)]).
    { destruct Q1 as (t & v & f & R & F & _). inversion R as [|s a l' v' u Ha R']; subst; [discriminate|].
      destruct Ha as [<-|[]]. cbn [tgt] in R'. inversion R' as [|s a l'' v'' u' Hb R'']; subst; [reflexivity|]. destruct Hb. }
    assert (L2 : l2 = [(xa, UNK)]).
    { destruct Q2 as (t & v & f & R & F & _). inversion R as [|s a l' v' u Ha R']; subst; [discriminate|].
      destruct Ha as [<-|[]]. cbn [tgt] in R'. inversion R' as [|s a l'' v'' u' Hb R'']; subst; [reflexivity|]. destruct Hb. }
    subst l1 l2. assert (L0 : l0 = [(UNK, UNK)]).
    { inversion D as [|? ? ? ? D'|? ? ? ? D'|? ? ? ? ? D'|? ? ? ? ? ? NX D']; subst. inversion D'; subst. reflexivity. }
    subst l0. cbn [map] in M. change (dec (UNK, UNK)) with (UNK, UNK) in M. inversion M as [|p [ca cb] ? c' Mp M']; subst. inversion M'; subst.
    apply means_iff in Mp; [|apply pair_plain; discriminate]. destruct Mp as [(K & _)|(_ & _ & [[_ Oa]|[K _]] & [[_ Ob]|[K' _]] & N)]; try discriminate; try congruence.
    apply N. split; [reflexivity|]. split; [reflexivity|]. destruct (outside_ne _ _ Oa) as (Na & _). destruct (outside_ne _ _ Ob) as (Nb & _).
    cbn [map fst snd] in X, Z. rewrite ne_keep in X, Z by assumption. injection X as <-. injection Z as <-. reflexivity.
Qed.
Print Assumptions C84_unknown_refuted.

(** The hypotheses hold of transducers with identity, unknown and epsilon and different
    alphabets: the first relates ba to bc, with identity for b; the second relates bc to b, also
    with identity for b; the composition relates ba to b.  The second alphabet has an internal
    symbol that the first lacks. *)
Definition first_ex : graph := of_ops [OAddTransition 0 (Arc 0 IDN IDN 1); OAddTransition 0 (Arc 1 xa xc 2); OSetFinal 1 3].
Definition second_ex : graph := of_ops [OAddTransition 0 (Arc 1 IDN IDN 4); OAddTransition 1 (Arc 1 xc EPS 5); OAddTransition 1 (Arc 1 UNK UNK 0); OSetFinal 1 0;
  OAddSymbol (B "@_X_@")].
Definition first_known : graph := add_symbol first_ex (B "@_X_@").
Example C84_witness : related first_known [xb; xa] [xb; xc] 6 /\ related second_ex [xb; xc] [xb] 9 /\
  knowing_internal_symbols_of second_ex first_ex first_known /\ knowing_internal_symbols_of first_ex second_ex second_ex /\
  exists h, compose first_ex second_ex (Ok h) /\ exists w, related h [xb; xa] [xb] w /\ (w <= 15)%Z.
Proof.
  assert (W1 : well_formed first_ex) by (split; [apply structure_of|split; [apply sym_check_sound; vm_compute; reflexivity|apply check_ok; vm_compute; reflexivity]]).
  assert (W2 : well_formed second_ex) by (split; [apply structure_of|split; [apply sym_check_sound; vm_compute; reflexivity|apply check_ok; vm_compute; reflexivity]]).
  assert (K1 : check first_ex = true) by (vm_compute; reflexivity). assert (K2 : check second_ex = true) by (vm_compute; reflexivity).
  destruct (check_ok _ K1) as (S1 & P1 & N1). destruct (check_ok _ K2) as (S2 & P2 & N2).
  assert (In_by : forall y al, smem bcmp y al = true -> In y al) by (intros y al; apply (smem_In bcmp bcmp_eq)).
  assert (X : internal_symbol (B "@_X_@")) by (exists (B "X"); reflexivity).
  assert (A1 : alpha first_ex = [EPS; IDN; UNK; xa; xc]) by (vm_compute; reflexivity).
  assert (A2 : alpha second_ex = [EPS; IDN; UNK; B "@_X_@"; xc]) by (vm_compute; reflexivity).
  assert (I1 : knowing_internal_symbols_of second_ex first_ex first_known).
  { split; [reflexivity|]. split; [reflexivity|]. intros x. unfold first_known, add_symbol. cbn [with_alpha alpha]. rewrite (In_sadd bcmp bcmp_eq), A2. split.
    - intros [-> |H]; [right; split; [exact X|apply In_by; vm_compute; reflexivity]|left; exact H].
    - intros [H|[(m & ->) H]]; [right; exact H|]. rewrite A1. destruct H as [<-|[<-|[<-|[<-|[H|[]]]]]]; [right; apply In_by; vm_compute; reflexivity..|left; reflexivity|discriminate H]. }
  assert (I2 : knowing_internal_symbols_of first_ex second_ex second_ex).
  { split; [reflexivity|]. split; [reflexivity|]. intros x. rewrite A1, A2. split; [auto|]. intros [H|[(m & ->) H]]; [exact H|].
    destruct H as [<-|[<-|[<-|[H|[H|[]]]]]]; [apply In_by; vm_compute; reflexivity..|discriminate H|discriminate H]. }
  assert (R1 : related first_known [xb; xa] [xb; xc] 6).
  { exists [(xb, xb); (xa, xc)]. split; [|split; reflexivity]. exists [(IDN, IDN); (xa, xc)]. split.
    - exists 1, 3%Z, 3%Z. split; [|split; reflexivity]. change 3%Z with (1 + (2 + 0))%Z. apply (run_cons _ 0 (Arc 0 IDN IDN 1)); [left; reflexivity|].
      apply (run_cons _ 0 (Arc 1 xa xc 2)); [right; left; reflexivity|constructor].
    - constructor; [|constructor; [|constructor]].
      + apply means_identity. apply outside_b. vm_compute. intuition discriminate.
      + apply means_itself; [discriminate|discriminate|]. intros [K _]. discriminate. }
  assert (R2 : related second_ex [xb; xc] [xb] 9).
  { exists [(xb, xb); (xc, EPS)]. split; [|split; reflexivity]. exists [(IDN, IDN); (xc, EPS)]. split.
    - exists 1, 9%Z, 0%Z. split; [|split; reflexivity]. change 9%Z with (4 + (5 + 0))%Z. apply (run_cons _ 0 (Arc 1 IDN IDN 4)); [left; reflexivity|].
      apply (run_cons _ 1 (Arc 1 xc EPS 5)); [left; reflexivity|constructor].
    - constructor; [|constructor; [|constructor]].
      + apply means_identity. apply outside_b. vm_compute. intuition discriminate.
      + apply means_itself; [discriminate|discriminate|]. intros [K _]. discriminate. }
  split; [exact R1|]. split; [exact R2|]. split; [exact I1|]. split; [exact I2|]. destruct (proj1 (C84_total_partial first_ex second_ex W1 W2 P1 P2 N1 N2)) as (h & C). exists h. split; [exact C|].
  destruct (C84_compose_partial first_ex second_ex h _ _ W1 W2 P1 P2 N1 N2 I1 I2 C) as (_ & _ & Co).
  destruct (Co _ _ _ _ _ R1 R2) as (w & R & L); [|exists w; split; [exact R|exact L]]. left. intros (s & a & Ha & K).
  destruct s as [|[|[|s]]]; cbn in Ha; try tauto. destruct Ha as [<-|[<-|[]]]; discriminate.
Qed.
