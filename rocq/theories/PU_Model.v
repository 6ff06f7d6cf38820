(** Model of the binary operations, negation, priority union and lenient composition of
    HfstTransducer, libhfst/src/HfstTransducer.cc (line numbers without a file name refer to it),
    for the type TROPICAL_OPENFST.
    Simplifications: the type checks are left out; union, intersection, difference, closure and
    minimization of the back end, where labels are compared literally, are given by their
    meaning (PU_Spec); the conversions between the back end and basic transducers keep the
    transducers as they are. *)
From Verif Require Import Base Flags_Model BT_Model Harm_Model Co_Spec Co_Model PU_Spec.

(** An operation with an outcome, followed by another on its result. *)
Definition andthen (m : res graph -> Prop) (f : graph -> res graph -> Prop) (r : res graph) : Prop :=
  exists x, m x /\ match x with Ok g => f g r | Throw => r = Throw | Ub => r = Ub | Diverge => r = Diverge end.
Definition gives (P : graph -> Prop) (r : res graph) : Prop := exists g, P g /\ r = Ok g.

(** apply(op, another, harmonize = true), libhfst/src/HfstApply.cc:347-470: special symbols are
    inserted in both alphabets, the two are harmonized, and the back end's operation follows. *)
Definition apply_binary (op : graph -> graph -> graph -> Prop) (g1 g2 : graph) (r : res graph) : Prop :=
  let t1 := insert_missing_special_symbols g1 g2 in
  let t2 := insert_missing_special_symbols g2 t1 in
  match harmonize t1 t2 with
  | Ok (h1, h2) => gives (op h1 h2) r
  | Throw => r = Throw
  | Ub => r = Ub
  | Diverge => r = Diverge
  end.
(** disjunct, :5122-5143; intersect, :5145-5166; subtract, :5168-5189. *)
Definition disjunct := apply_binary united.
Definition intersect := apply_binary intersected.
Definition subtract := apply_binary subtracted.
(** optimize, :2255-2262. *)
Definition optimize (g : graph) : res graph -> Prop := gives (optimised g).

(** TropicalWeightTransducer::is_automaton, implementations/TropicalWeightTransducer.cc:1688-1707. *)
Definition is_automaton (g : graph) : bool :=
  forallb (forallb (fun a => bstr_eqb (isy a) (osy a) && negb (bstr_eqb (isy a) UNK))) (sts g).
(** TropicalWeightTransducer::extract_input_language, :2164-2173 of that file: the input symbol
    on both sides, with identity for unknown. *)
Definition input_arc (a : arc) : arc :=
  let x := if bstr_eqb (isy a) UNK then IDN else isy a in Arc (tgt a) x x (wt a).
(** input_project, :2478-2500. *)
Definition input_project (g : graph) : graph := with_sts g (map (map input_arc) (sts g)).

(** negate, :2527-2551.  [s] is idstar just before the subtraction, :2538-2547, with the flag
    diacritics of the transducer in its alphabet (insert_missing_diacritics_to_alphabet_from,
    :2995-3013). *)
Definition flags_of (g : graph) : list bstr := filter is_diacritic (alpha g).
Definition idstar (g s : graph) : Prop :=
  any_sequence ((IDN, IDN) :: map (fun x => (x, x)) (flags_of g)) s /\
  forall x, In x (alpha s) <-> x = EPS \/ x = UNK \/ x = IDN \/ In x (flags_of g).
Definition negate (g : graph) (r : res graph) : Prop :=
  if is_automaton g then exists s, idstar g s /\ subtract s g r else r = Throw.

(** priority_union, :4803-4835. *)
Definition priority_union (t1 t2 : graph) : res graph -> Prop :=
  andthen (optimize (input_project t1)) (fun t1upper =>
  andthen (negate t1upper) (fun complement =>
  andthen (compose (prune_alphabet false complement) t2) (fun composed =>
  andthen (optimize composed) (fun complement' =>
  andthen (disjunct t1 complement') optimize)))).
(** lenient_composition, :4543-4564. *)
Definition lenient_composition (t another : graph) : res graph -> Prop :=
  andthen (compose t another) (fun composed =>
  andthen (optimize composed) (fun retval =>
  andthen (priority_union retval t) optimize)).
