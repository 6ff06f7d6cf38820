(** Specification vocabulary for shuffling: interleavings of strings. *)
From Verif Require Import Base BT_Model BT_Spec.

(** [z] consists of the symbols of [x] and [y], those of each in their order. *)
Inductive interleaving : list bstr -> list bstr -> list bstr -> Prop :=
| il_nil : interleaving [] [] []
| il_left a x y z : interleaving x y z -> interleaving (a :: x) y (a :: z)
| il_right a x y z : interleaving x y z -> interleaving x (a :: y) (a :: z).

(** The strings of an automaton with their weights: the symbols along an accepted path,
    epsilons left out. *)
Definition string_of (l : list (bstr * bstr)) : list bstr :=
  filter (fun x => if bstr_eq_dec x (B "@_EPSILON_SYMBOL_@") then false else true) (map fst l).
Definition recognizes (g : graph) (x : list bstr) (w : Z) : Prop := exists l, accepts g l w /\ x = string_of l.

(** All transitions have the same symbol on both sides. *)
Definition automaton (g : graph) : Prop := forall s a, In a (nth s (sts g) []) -> isy a = osy a.
(** No transition has the unknown or the identity symbol. *)
Definition no_wildcards (g : graph) : Prop :=
  ~ used g (B "@_UNKNOWN_SYMBOL_@") /\ ~ used g (B "@_IDENTITY_SYMBOL_@").
(** No symbol begins with a prefix the operation uses. *)
Definition not_prefixed (g : graph) : Prop :=
  forall x y, In x (alpha g) -> x <> B "@1" ++ y /\ x <> B "@2" ++ y.

(** What the back end's intersection followed by optimization must give: an automaton over the
    symbols on the transitions of the first operand that recognizes the strings both recognize.  The weight of a
    string is the sum of its weights; of several weights for one string only the least need
    be kept. *)
Definition intersection (g1 g2 m : graph) : Prop :=
  (forall s a, In a (nth s (sts m) []) -> isy a = osy a /\ (isy a = B "@_EPSILON_SYMBOL_@" \/ used g1 (isy a))) /\
  (forall x w, recognizes m x w -> exists w1 w2, recognizes g1 x w1 /\ recognizes g2 x w2 /\ w = (w1 + w2)%Z) /\
  (forall x w1 w2, recognizes g1 x w1 -> recognizes g2 x w2 -> exists w, recognizes m x w /\ (w <= w1 + w2)%Z).
