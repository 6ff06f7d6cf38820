(** Model of HfstTransducer::compose, libhfst/src/HfstTransducer.cc (line numbers without a file
    name refer to it), for the types SFST and TROPICAL_OPENFST, harmonize = true and the default
    settings (xerox_composition and flag_is_epsilon_in_composition off,
    unknown_symbols_in_use on).
    Simplifications: the type checks are left out; the composition of the back end, where
    labels are compared literally, is given by its meaning (Co_Spec.composition); the
    conversions between the back end and basic transducers keep the transducers as they are;
    the final substitution in the copy of the second transducer (:4404-4405), which is then
    deleted, is left out. *)
From Verif Require Import Base Flags_Model BT_Model Harm_Model Co_Spec.

(** HfstTransducer::is_special_symbol, :2984-2993. *)
Definition is_special_symbol (x : bstr) : bool :=
  if length x <? 4 then false
  else at_is x 0 "@" && at_is x (length x - 1) "@" && at_is x 1 "_" && at_is x (length x - 2) "_".
(** insert_missing_symbols_to_alphabet_from(another, true), :3015-3040. *)
Definition insert_missing_special_symbols (g another : graph) : graph :=
  add_symbols g (filter (fun x => negb (smem bcmp x (alpha g)) && is_special_symbol x) (alpha another)).
(** substitute_single_identity_with_the_other_symbol, :4110-4133. *)
Definition single_identity (p : bstr * bstr) : option (list (bstr * bstr)) :=
  if bstr_eqb (fst p) IDN && negb (bstr_eqb (snd p) IDN) then Some [(UNK, snd p)]
  else if bstr_eqb (snd p) IDN && negb (bstr_eqb (fst p) IDN) then Some [(fst p, UNK)]
  else None.
(** :4280-4305: what the back end composes. *)
Definition compose_operands (g1 g2 : graph) : res (graph * graph) :=
  let t1 := insert_missing_special_symbols g1 g2 in
  let t2 := insert_missing_special_symbols g2 t1 in
  rbind (harmonize t1 t2) (fun '(h1, h2) =>
  rbind (substitute_symbol IDN UNK false true h1) (fun k1 =>
  rmap (fun k2 => (k1, k2)) (substitute_symbol IDN UNK true false h2))).
(** compose, :4205-4411: [r] is an outcome of it for some outcome of the back end's
    composition. *)
Definition compose (g1 g2 : graph) (r : res graph) : Prop :=
  match compose_operands g1 g2 with
  | Ok (k1, k2) => exists m, composition k1 k2 m /\ r = substitute_func single_identity m
  | Throw => r = Throw
  | Ub => r = Ub
  | Diverge => r = Diverge
  end.
