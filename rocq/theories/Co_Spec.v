(** Specification vocabulary for composition. *)
From Verif Require Import Base BT_Model BT_Spec Harm_Spec.

(** The pairs of strings a transducer relates, with their weights: the symbols along a path,
    unknown and identity standing for symbols outside the alphabet (Harm_Spec.relation) and
    epsilons left out. *)
Definition no_epsilons (l : list bstr) : list bstr :=
  filter (fun x => if bstr_eq_dec x (B "@_EPSILON_SYMBOL_@") then false else true) l.
Definition related (g : graph) (x y : list bstr) (w : Z) : Prop :=
  exists l, relation g l w /\ x = no_epsilons (map fst l) /\ y = no_epsilons (map snd l).

(** Symbols of the form used inside the library. *)
Definition internal_symbol (x : bstr) : Prop := exists m, x = B "@_" ++ m ++ B "_@".
(** The transducer with the internal symbols of another one added to its alphabet: unknown and
    identity do not stand for those. *)
Definition knowing_internal_symbols_of (other g g' : graph) : Prop :=
  sts g' = sts g /\ fin g' = fin g /\
  forall x, In x (alpha g') <-> In x (alpha g) \/ internal_symbol x /\ In x (alpha other).
(** Unknown on the input side of some transition, or on the output side. *)
Definition unknown_input (g : graph) : Prop := exists s a, In a (nth s (sts g) []) /\ isy a = B "@_UNKNOWN_SYMBOL_@".
Definition unknown_output (g : graph) : Prop := exists s a, In a (nth s (sts g) []) /\ osy a = B "@_UNKNOWN_SYMBOL_@".

(** What the back end's composition must do, where labels are compared literally.  Two paths
    compose to a path if the output of the first and the input of the second are the same string;
    transitions with epsilon in between are taken alone or, two of them, together. *)
Inductive composed : list (bstr * bstr) -> list (bstr * bstr) -> list (bstr * bstr) -> Prop :=
| co_nil : composed [] [] []
| co_left a l1 l2 l : composed l1 l2 l -> composed ((a, B "@_EPSILON_SYMBOL_@") :: l1) l2 ((a, B "@_EPSILON_SYMBOL_@") :: l)
| co_right b l1 l2 l : composed l1 l2 l -> composed l1 ((B "@_EPSILON_SYMBOL_@", b) :: l2) ((B "@_EPSILON_SYMBOL_@", b) :: l)
| co_both a b l1 l2 l : composed l1 l2 l ->
    composed ((a, B "@_EPSILON_SYMBOL_@") :: l1) ((B "@_EPSILON_SYMBOL_@", b) :: l2) ((a, b) :: l)
| co_match a x b l1 l2 l : x <> B "@_EPSILON_SYMBOL_@" -> composed l1 l2 l ->
    composed ((a, x) :: l1) ((x, b) :: l2) ((a, b) :: l).
(** The composition has the symbols of the two transducers, only composed paths with the sums
    of the weights, and for every two paths that can be composed a composed one that weighs no
    more. *)
Definition composition (g1 g2 m : graph) : Prop :=
  (forall x, In x (alpha m) <-> In x (alpha g1) \/ In x (alpha g2)) /\
  (forall x, used m x -> x = B "@_EPSILON_SYMBOL_@" \/ used g1 x \/ used g2 x) /\
  (forall l w, accepts m l w -> exists l1 w1 l2 w2, accepts g1 l1 w1 /\ accepts g2 l2 w2 /\ composed l1 l2 l /\ w = (w1 + w2)%Z) /\
  (forall l1 w1 l2 w2, accepts g1 l1 w1 -> accepts g2 l2 w2 -> no_epsilons (map snd l1) = no_epsilons (map fst l2) ->
     exists l w, accepts m l w /\ composed l1 l2 l /\ (w <= w1 + w2)%Z).
