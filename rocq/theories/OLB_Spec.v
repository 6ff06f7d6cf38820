(** Specification vocabulary for the conversion from an optimized-lookup to a basic transducer. *)
From Verif Require Import Base Flags_Model BT_Model BT_Spec.

(** Every symbol of the alphabet other than epsilon and the flag diacritics is the input symbol
    of some transition. *)
Definition all_inputs (g : graph) : Prop :=
  forall x, In x (alpha g) -> x = B "@_EPSILON_SYMBOL_@" \/ is_diacritic x = true
    \/ exists s a, In a (nth s (sts g) []) /\ isy a = x.

(** [g'] has the paths of [g]; their weights are kept, or are all 0 in an unweighted transducer. *)
Definition same_paths (weighted : bool) (g g' : graph) : Prop :=
  forall l w, accepts g' l w <->
    if weighted then accepts g l w else w = 0%Z /\ exists v, accepts g l v.
