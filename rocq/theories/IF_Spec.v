(** Specification vocabulary for the labels in options and for hfst-insert-freely. *)
From Verif Require Import Base BT_Model BT_Spec.

Definition colon : ascii := ":"%char.
Definition backslash : ascii := "\"%char.
(** A colon after [x] can stand between two symbols: it is not the first character and there is
    no backslash before it, or two. *)
Definition separates (x : bstr) : Prop :=
  x <> [] /\ ((forall u, x <> u ++ [backslash]) \/ exists u, x = u ++ [backslash; backslash]).
(** [label] is the symbols [x] and [y] with such a colon between them, the first there is; it is
    not the last character. *)
Definition two_symbols (label x y : bstr) : Prop :=
  label = x ++ colon :: y /\ y <> [] /\ separates x /\
  forall x' y', label = x' ++ colon :: y' -> length x' < length x -> ~ separates x'.
(** @0@ is epsilon. *)
Definition symbol_of (x s : bstr) : Prop := x = B "@0@" /\ s = B "@_EPSILON_SYMBOL_@" \/ x <> B "@0@" /\ s = x.

(** Any number of copies of a pair put in anywhere, where pairs of epsilons are not seen. *)
Inductive with_copies (p : bstr * bstr) : list (bstr * bstr) -> list (bstr * bstr) -> Prop :=
| wc_nil : with_copies p [] []
| wc_keep q l m : with_copies p l m -> with_copies p (q :: l) (q :: m)
| wc_copy l m : with_copies p l m -> with_copies p l (p :: m).
Definition silent (q : bstr * bstr) : bool := pair_eqb q (B "@_EPSILON_SYMBOL_@", B "@_EPSILON_SYMBOL_@").
Definition visible (l : list (bstr * bstr)) : list (bstr * bstr) := filter (fun q => negb (silent q)) l.
