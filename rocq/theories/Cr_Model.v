(** Model of HfstTransducer::cross_product, libhfst/src/HfstTransducer.cc (line numbers without a
    file name refer to it), for the type TROPICAL_OPENFST.
    Simplifications: the type checks are left out; concatenation, closure, minimization and
    comparison of the back end, where labels are compared literally, are given by their meaning
    (PU_Spec, Cr_Spec); the conversions between the back end and basic transducers keep the
    transducers as they are. *)
From Verif Require Import Base Flags_Model BT_Model Harm_Model Co_Spec Co_Model PU_Spec PU_Model Cr_Spec.

(** The mark, :4594. *)
Definition MARK := B "@_MARK_@".
(** HfstTransducer::concatenate, with apply, libhfst/src/HfstApply.cc:347-470. *)
Definition concatenate := apply_binary concatenated.
(** HfstTransducer::compare with harmonize = true, :1590-1654. *)
Definition compare (g1 g2 : graph) (b : res bool) : Prop :=
  let t1 := insert_missing_special_symbols g1 g2 in
  let t2 := insert_missing_special_symbols g2 t1 in
  match harmonize t1 t2 with
  | Ok (h1, h2) => exists v : bool, b = Ok v /\ (v = true <-> equivalent h1 h2)
  | Throw => b = Throw
  | Ub => b = Ub
  | Diverge => b = Diverge
  end.
(** :4580-4589: the transducer is compared with its input projection. *)
Definition checked (g : graph) (next : res graph -> Prop) (r : res graph) : Prop :=
  exists b, compare (input_project g) g b /\
    match b with Ok true => next r | Ok false | Throw => r = Throw | Ub => r = Ub | Diverge => r = Diverge end.
(** :4595-4616: the transducer of one pair, repeated and minimized. *)
Definition padding (i o : bstr) (m : graph) : Prop :=
  any_sequence [(i, o)] m /\ forall x, In x (alpha m) <-> x = EPS \/ x = UNK \/ x = IDN \/ x = MARK.
(** :4618-4619 and :4621-4622. *)
Definition to_marks (automaton1 unknown_to_mark epsilon_to_mark : graph) : res graph -> Prop :=
  andthen (compose automaton1 unknown_to_mark) (fun c =>
  andthen (optimize c) (fun o =>
  andthen (concatenate o epsilon_to_mark) optimize)).
Definition from_marks (mark_to_unknown automaton2 mark_to_epsilon : graph) : res graph -> Prop :=
  andthen (compose mark_to_unknown automaton2) (fun c =>
  andthen (optimize c) (fun o =>
  andthen (concatenate o mark_to_epsilon) optimize)).
(** :4627-4634. *)
Definition expand (retval : graph) : res graph :=
  rmap (fun h => remove_symbol h MARK) (substitute_pair_with_set (UNK, UNK) [(IDN, IDN); (UNK, UNK)] retval).
(** cross_product, :4566-4638. *)
Definition cross_product (t another : graph) : res graph -> Prop :=
  checked t (checked another (fun r =>
    exists um em mu me, padding UNK MARK um /\ padding EPS MARK em /\ padding MARK UNK mu /\ padding MARK EPS me /\
      andthen (to_marks (add_symbol t MARK) um em) (fun a1 =>
      andthen (from_marks mu (add_symbol another MARK) me) (fun b1 =>
      andthen (compose a1 b1) (fun c =>
      andthen (optimize c) (fun retval r => r = expand retval)))) r)).
