(** Specification vocabulary for union, intersection, difference, negation, priority union and
    lenient composition. *)
From Verif Require Import Base Flags_Model BT_Model BT_Spec Harm_Spec Co_Spec.

(** Sequences of symbol pairs are compared without the pairs epsilon:epsilon. *)
Definition without_empty (l : list (bstr * bstr)) : list (bstr * bstr) :=
  filter (fun p => if bstr_eq_dec (fst p) (B "@_EPSILON_SYMBOL_@")
                   then (if bstr_eq_dec (snd p) (B "@_EPSILON_SYMBOL_@") then false else true) else true) l.
(** The sequences of symbol pairs of a transducer with their weights, unknown and identity
    standing for symbols outside the alphabet (Harm_Spec.relation). *)
Definition pair_string (g : graph) (l : list (bstr * bstr)) (w : Z) : Prop :=
  exists c, relation g c w /\ l = without_empty c.

(** What the operations need: the alphabet has the symbols of the transitions and the reserved
    symbols, identity is on both sides of a transition or none, and no symbol is empty. *)
Definition sound (g : graph) : Prop := well_formed g /\ identities_paired g /\ no_empty_symbol g.
(** Every transition has the same symbol on both sides, and not unknown. *)
Definition automaton (g : graph) : Prop :=
  forall s a, In a (nth s (sts g) []) -> isy a = osy a /\ isy a <> B "@_UNKNOWN_SYMBOL_@".
(** The symbols over which an automaton is negated: all ordinary symbols except those of the
    form @_..._@ that it knows, and the flag diacritics that it knows. *)
Definition negated_over (g : graph) (x : bstr) : Prop :=
  ordinary x /\ ~ (internal_symbol x /\ In x (alpha g)) \/ is_diacritic x = true /\ In x (alpha g).
(** No symbols of the form @_..._@ besides epsilon, unknown and identity. *)
Definition no_internal_symbols (g : graph) : Prop := forall x, internal_symbol x -> In x (alpha g) -> special x.
(** The transducer gives a result for the string [x]. *)
Definition has_result (g : graph) (x : list bstr) : Prop := exists z w, related g x z w.
(** The symbols a priority union can pass on from its second operand: ordinary symbols and the
    flag diacritics of the first operand. *)
Definition kept_by (q : graph) (x : bstr) : Prop := ordinary x \/ is_diacritic x = true /\ In x (alpha q).

(** What the operations of the back end must do, where labels are compared literally. *)
Definition label_string (g : graph) (l : list (bstr * bstr)) (w : Z) : Prop :=
  exists c, accepts g c w /\ l = without_empty c.
(** [m] is a transducer with the labels of the transducers [gs], besides epsilon:epsilon. *)
Definition labels_from (gs : list graph) (m : graph) : Prop :=
  structure_ok m /\
  forall s a, In a (nth s (sts m) []) -> isy a = B "@_EPSILON_SYMBOL_@" /\ osy a = B "@_EPSILON_SYMBOL_@"
    \/ exists g t b, In g gs /\ In b (nth t (sts g) []) /\ isy b = isy a /\ osy b = osy a.
(** The same sequences; of several weights for one sequence the lightest must be kept. *)
Definition optimised (g m : graph) : Prop :=
  labels_from [g] m /\ alpha m = alpha g /\
  (forall l w, label_string m l w -> label_string g l w) /\
  (forall l w, label_string g l w -> exists w', label_string m l w' /\ (w' <= w)%Z).
Definition united (g1 g2 m : graph) : Prop :=
  labels_from [g1; g2] m /\ alpha m = alpha g1 /\
  (forall l w, label_string m l w <-> label_string g1 l w \/ label_string g2 l w).
Definition intersected (g1 g2 m : graph) : Prop :=
  labels_from [g1; g2] m /\ alpha m = alpha g1 /\
  (forall l w, label_string m l w -> exists w1 w2, label_string g1 l w1 /\ label_string g2 l w2 /\ w = (w1 + w2)%Z) /\
  (forall l w1 w2, label_string g1 l w1 -> label_string g2 l w2 -> exists w, label_string m l w /\ (w <= w1 + w2)%Z).
Definition subtracted (g1 g2 m : graph) : Prop :=
  labels_from [g1] m /\ alpha m = alpha g1 /\
  (forall l w, label_string m l w -> label_string g1 l w /\ ~ exists w2, label_string g2 l w2) /\
  (forall l w, label_string g1 l w -> ~ (exists w2, label_string g2 l w2) -> exists w', label_string m l w' /\ (w' <= w)%Z).
(** Any sequence of the pairs [ps], without weight. *)
Definition any_sequence (ps : list (bstr * bstr)) (m : graph) : Prop :=
  structure_ok m /\
  (forall s a, In a (nth s (sts m) []) -> isy a = B "@_EPSILON_SYMBOL_@" /\ osy a = B "@_EPSILON_SYMBOL_@" \/ In (isy a, osy a) ps) /\
  (forall l w, label_string m l w <-> Forall (fun p => In p ps) l /\ w = 0%Z).
