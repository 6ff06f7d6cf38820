(** Specification of replacement in context, between strings. *)
From Verif Require Import Base BT_Model Ru_Model Ru_Spec.

Definition str := list bstr.
(** A language of strings as an automaton. *)
Definition automaton (l : str -> Prop) : plang := fun w => exists x, l x /\ w = map (fun a => (a, a)) x.
(** The left context ends here; the right context begins here. *)
Definition left_here (l : str -> Prop) (before : str) : Prop := exists x y, before = x ++ y /\ l y.
Definition right_here (r : str -> Prop) (after : str) : Prop := exists x y, after = x ++ y /\ r x.
(** [m] can be replaced between [before] and [after]. *)
Definition replaceable (t : plang) (l r : str -> Prop) (before : str) (m : list pair) (after : str) : Prop :=
  t m /\ read m <> [] /\ left_here l before /\ right_here r after.
(** Nothing in [x], which stands between [before] and [after], can be replaced. *)
Definition untouched (t : plang) (l r : str -> Prop) (before x after : str) : Prop :=
  forall x1 m x2, x = x1 ++ read m ++ x2 -> ~ replaceable t l r (before ++ x1) m (x2 ++ after).
(** [result before rest out]: with [before] read, the rest of the input is rewritten to
    [out]; contexts are looked for in the input. *)
Inductive rewritten (t : plang) (l r : str -> Prop) : str -> str -> str -> Prop :=
| rw_end before x : untouched t l r before x [] -> rewritten t l r before x x
| rw_more before x m rest out : untouched t l r before x (read m ++ rest) -> replaceable t l r (before ++ x) m rest ->
    rewritten t l r (before ++ x ++ read m) rest out ->
    rewritten t l r before (x ++ read m ++ rest) (x ++ written m ++ out).
