(** Specification vocabulary for the graph analyses. *)
From Verif Require Import Base Flags_Model BT_Model BT_Spec.

(** A path is a list of consecutive transitions (BT_Spec.path); its weight. *)
Fixpoint path_weight (r : list arc) : Z := match r with [] => 0 | a :: r => wt a + path_weight r end.
(** A cycle through state s using only transitions allowed by E. *)
Definition cycle (E : arc -> Prop) (g : graph) (s : nat) (r : list arc) : Prop := r <> [] /\ path g s r s /\ Forall E r.
Definition epsilon_arc (a : arc) : Prop := isy a = B "@_EPSILON_SYMBOL_@" /\ osy a = B "@_EPSILON_SYMBOL_@".
(** Transitions that consume no input: epsilon or a flag diacritic on the input side. *)
Definition free_arc (a : arc) : Prop := isy a = B "@_EPSILON_SYMBOL_@" \/ is_diacritic (isy a) = true.
(** A transition that consumes input symbol x. *)
Definition consumes (g : graph) (a : arc) (x : bstr) : Prop :=
  ~ free_arc a /\
  (isy a = x \/ (isy a = B "@_UNKNOWN_SYMBOL_@" \/ isy a = B "@_IDENTITY_SYMBOL_@") /\ ~ In x (alpha g)).
(** Reading the whole of [input] leads from s to t. *)
Inductive reading (g : graph) : nat -> list bstr -> nat -> Prop :=
| rd_nil s : reading g s [] s
| rd_free s a input t : In a (nth s (sts g) []) -> free_arc a -> reading g (tgt a) input t -> reading g s input t
| rd_consume s a x input t : In a (nth s (sts g) []) -> consumes g a x -> reading g (tgt a) input t -> reading g s (x :: input) t.
(** An accepted path. *)
Definition accepted (g : graph) (r : list arc) : Prop :=
  exists t, path g 0 r t /\ mget Nat.compare t (fin g) <> None.
(** No cycle can be reached from the initial state. *)
Definition acyclic (g : graph) : Prop := forall r s c, path g 0 r s -> path g s c s -> c = [].
