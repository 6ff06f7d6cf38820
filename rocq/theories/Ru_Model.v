(** Model of the rule functions, libhfst/src/HfstRules.cc (line numbers without a file name
    refer to it).
    The functions build transducers with the operations of HfstTransducer; those operations,
    carried out by the back-end libraries, are not modelled but given by their meaning: a
    transducer stands for the set of the pair strings it accepts, without the pairs
    epsilon:epsilon, which all back ends ignore (subtract and intersect remove epsilons
    first).  Simplifications: weights are left out; unknown and identity are ordinary
    symbols (the alphabets given to rules list all symbols); type mismatches are left out;
    optimize changes nothing. *)
From Verif Require Import Base BT_Model.

Definition pair := (bstr * bstr)%type.
Definition plang := list pair -> Prop.

(** The operations used. *)
(** HfstTransducer(StringPairSet, type): any one of the pairs; with cyclic = true: any
    sequence of them. *)
Definition l_one (ps : list pair) : plang := fun w => exists p, In p ps /\ w = filter (fun q => negb (pair_eqb q (EPS, EPS))) [p].
Definition l_any (ps : list pair) : plang :=
  fun w => exists v, Forall (fun p => In p ps) v /\ w = filter (fun q => negb (pair_eqb q (EPS, EPS))) v.
(** HfstTransducer(type), HfstTransducer(internal_epsilon, type), HfstTransducer(symbol, type) *)
Definition l_none : plang := fun _ => False.
Definition l_eps : plang := fun w => w = [].
Definition l_symbol (x : bstr) : plang := l_one [(x, x)].
(** concatenate, disjunct, subtract, intersect, repeat_star *)
Definition l_cat (a b : plang) : plang := fun w => exists u v, w = u ++ v /\ a u /\ b v.
Definition l_or (a b : plang) : plang := fun w => a w \/ b w.
Definition l_sub (a b : plang) : plang := fun w => a w /\ ~ b w.
Definition l_and (a b : plang) : plang := fun w => a w /\ b w.
Inductive l_star (a : plang) : plang :=
| star_nil : l_star a []
| star_cons u v : a u -> l_star a v -> l_star a (u ++ v).
(** input_project, output_project, invert *)
Definition l_input (a : plang) : plang :=
  fun w => exists v, a v /\ w = filter (fun q => negb (pair_eqb q (EPS, EPS))) (map (fun p => (fst p, fst p)) v).
Definition l_output (a : plang) : plang :=
  fun w => exists v, a v /\ w = filter (fun q => negb (pair_eqb q (EPS, EPS))) (map (fun p => (snd p, snd p)) v).
Definition l_invert (a : plang) : plang := fun w => a (map (fun p => (snd p, fst p)) w).
(** substitute(symbol, epsilon) when the symbol stands for itself wherever it occurs. *)
Definition l_erase (x : bstr) (a : plang) : plang :=
  fun w => exists v, a v /\ w = filter (fun q => negb (pair_eqb q (x, x))) v.
(** compose, only where neither side has epsilons *)
Definition l_comp (a b : plang) : plang :=
  fun w => exists v1 v2, a v1 /\ b v2 /\ map snd v1 = map fst v2 /\ w = combine (map fst v1) (map snd v2).

Inductive replace_type := REPL_UP | REPL_DOWN.
(** replace, :19-58. *)
Definition replace (t : plang) (ty : replace_type) (optional : bool) (alphabet : list pair) : plang :=
  let t_proj := match ty with REPL_UP => l_input t | REPL_DOWN => l_output t end in
  let pi_star := l_any alphabet in
  let tc := l_cat (l_cat pi_star t_proj) pi_star in
  let tc_neg := l_sub pi_star tc in
  let retval := l_cat (l_star (l_cat tc_neg t)) tc_neg in
  if optional then l_or retval pi_star else retval.
(** left_replace_up without context, :456-469. *)
Definition left_replace_up (t : plang) (optional : bool) (alphabet : list pair) : plang :=
  l_invert (replace t REPL_UP optional alphabet).

(** two_level_if, :154-211. *)
Definition two_level_if (context : plang * plang) (mappings alphabet : list pair) : plang :=
  let input_to_any := flat_map (fun m => filter (fun p => bstr_eqb (fst p) (fst m)) alphabet) mappings in
  let center := l_one input_to_any in
  let neg_mappings := l_sub (l_any alphabet) (l_one mappings) in
  let center := l_and center neg_mappings in
  let left_context := l_cat (l_any alphabet) (fst context) in
  let universal := l_any alphabet in
  let right_context := l_cat (snd context) universal in
  let inside := l_cat (l_cat left_context center) right_context in
  l_sub universal inside.
(** two_level_only_if, :215-257. *)
Definition two_level_only_if (context : plang * plang) (mappings alphabet : list pair) : plang :=
  let center := l_one mappings in
  let left := l_cat (l_any alphabet) (fst context) in
  let left_neg := l_sub (l_any alphabet) left in
  let universal := l_any alphabet in
  let right := l_cat (snd context) universal in
  let right_neg := l_sub (l_any alphabet) right in
  let rule := l_cat (l_cat left_neg center) universal in
  let rule_right := l_cat (l_cat universal center) right_neg in
  l_sub (l_any alphabet) (l_or rule rule_right).
(** two_level_if_and_only_if, :259-267. *)
Definition two_level_if_and_only_if (context : plang * plang) (mappings alphabet : list pair) : plang :=
  l_and (two_level_if context mappings alphabet) (two_level_only_if context mappings alphabet).

Inductive twol_type := twol_right | twol_left | twol_both.
Definition MARK := B "@_MARKER_@".
(** The center transducer, :587-593, and the context transducers, :605-620. *)
Definition restriction_center (mapping : plang) (alphabet : list pair) : plang :=
  let pi_star := l_any alphabet in
  let mt := l_symbol MARK in
  l_cat (l_cat (l_cat (l_cat (l_cat l_eps pi_star) mt) mapping) mt) pi_star.
Definition restriction_context (tmp : plang) (alphabet : list pair) (c : plang * plang) : plang :=
  let pi_star := l_any alphabet in
  let mt := l_symbol MARK in
  l_cat (l_cat (l_cat (l_cat (l_cat (l_cat (l_cat l_eps pi_star) (fst c)) mt) tmp) mt) (snd c)) pi_star.
(** restriction, :551-664; no contexts: EmptySetOfContextsException.  The second result is
    what has become of [mapping], which is passed by reference and which input_project,
    output_project and compose change in place, :595-603. *)
Definition restriction (contexts : list (plang * plang)) (mapping : plang) (alphabet : list pair)
    (ty : twol_type) (direction : Z) : res (plang * plang) :=
  match contexts with
  | [] => Throw
  | _ =>
      let pi_star := l_any alphabet in
      let l1 := restriction_center mapping alphabet in
      let '(tmp, mapping_after) :=
        if (direction =? 0)%Z then (pi_star, mapping)
        else if (direction =? 1)%Z then (l_comp (l_input mapping) pi_star, l_comp (l_input mapping) pi_star)
        else (l_comp pi_star (l_output mapping), l_output mapping) in
      let l2 := fold_left (fun acc c => l_or acc (restriction_context tmp alphabet c)) contexts l_none in
      let right := l_sub (l_any alphabet) (l_erase MARK (l_sub l1 l2)) in
      let left := l_sub (l_any alphabet) (l_erase MARK (l_sub l2 l1)) in
      Ok (match ty with
          | twol_right => right
          | twol_left => left
          | twol_both => l_and right left
          end, mapping_after)
  end.
(** The public functions, :666-722. *)
Definition restriction_rule c m al := restriction c m al twol_right 0.
Definition coercion c m al := restriction c m al twol_left 0.
Definition restriction_and_coercion c m al := restriction c m al twol_both 0.
Definition surface_restriction c m al := restriction c m al twol_right 1.
Definition surface_coercion c m al := restriction c m al twol_left 1.
Definition surface_restriction_and_coercion c m al := restriction c m al twol_both 1.
Definition deep_restriction c m al := restriction c m al twol_right (-1).
Definition deep_coercion c m al := restriction c m al twol_left (-1).
Definition deep_restriction_and_coercion c m al := restriction c m al twol_both (-1).
