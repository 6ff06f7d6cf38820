(** Specification vocabulary for the flag diacritics of two transducers that are combined. *)
From Verif Require Import Base Flags_Model Flags_Spec BT_Model BT_Spec Harm_Spec Co_Spec.

(** A written form of some operation. *)
Definition is_flag (s : bstr) : Prop := exists x, denotes s x.
(** [t] is the symbol [s] with [suf] added to the name of the feature, if [s] is a flag. *)
Inductive with_suffix (suf : bstr) : bstr -> bstr -> Prop :=
| ws_without_value o f : In o ["R"; "D"; "C"]%string -> f <> [] -> no_dot f -> with_suffix suf (form1 o f) (form1 o (f ++ suf))
| ws_with_value o f v : In o ["P"; "N"; "R"; "D"; "C"; "U"]%string -> no_dot f -> with_suffix suf (form2 o f v) (form2 o (f ++ suf) v)
| ws_other s : ~ is_flag s -> with_suffix suf s s.
(** [c] is [a] and [b] mixed, each in its order. *)
Inductive mixed {A} : list A -> list A -> list A -> Prop :=
| mix_nil : mixed [] [] []
| mix_left x a b c : mixed a b c -> mixed (x :: a) b (x :: c)
| mix_right x a b c : mixed a b c -> mixed a (x :: b) (x :: c).

(** [l] is [k] with pairs of [ins] added anywhere. *)
Inductive with_added (ins : bstr * bstr -> Prop) : list (bstr * bstr) -> list (bstr * bstr) -> Prop :=
| wa_nil : with_added ins [] []
| wa_keep p k l : with_added ins k l -> with_added ins (p :: k) (p :: l)
| wa_add p k l : ins p -> with_added ins k l -> with_added ins k (p :: l).

(** The pairs that take the place of a pair with a flag on one side or two flags. *)
Inductive two_sided : bstr * bstr -> list (bstr * bstr) -> Prop :=
| two_none i o : ~ is_flag i -> ~ is_flag o -> two_sided (i, o) [(i, o)]
| two_same i : two_sided (i, i) [(i, i)]
| two_input i o : is_flag i -> ~ is_flag o -> two_sided (i, o) [(i, i); (B "@_EPSILON_SYMBOL_@", o)]
| two_output i o : ~ is_flag i -> is_flag o -> two_sided (i, o) [(i, B "@_EPSILON_SYMBOL_@"); (o, o)]
| two_flags i o : is_flag i -> is_flag o -> i <> o -> two_sided (i, o) [(i, i); (o, o)].

(** The part [m] occurs in [s]. *)
Definition contains (m s : bstr) : Prop := exists a b, s = a ++ m ++ b.
(** Flags whose written form has _1. in it, or _2. *)
Definition first_flag (s : bstr) : Prop := is_flag s /\ contains (B "_1.") s.
Definition second_flag (s : bstr) : Prop := is_flag s /\ contains (B "_2.") s.
(** No flag of the first kind directly after one of the second kind. *)
Definition legal (z : list bstr) : Prop := forall a s t b, z = a ++ s :: t :: b -> second_flag s -> first_flag t -> False.
(** A flag between dollar signs instead of at signs. *)
Definition dollar_form (s : bstr) : Prop := exists m, s = B "$" ++ m ++ B "$" /\ is_flag (B "@" ++ m ++ B "@").

(** [q] is the pair [p] with [suf] added to the features of both sides. *)
Definition pair_suffix (suf : bstr) (p q : bstr * bstr) : Prop := with_suffix suf (fst p) (fst q) /\ with_suffix suf (snd p) (snd q).
(** A flag of a transition of [g], with [suf] added, paired with itself. *)
Definition flag_of (suf : bstr) (g : graph) (p : bstr * bstr) : Prop := fst p = snd p /\ exists f, used g f /\ is_flag f /\ with_suffix suf f (fst p).
(** A flag with a value, and no dot in it. *)
Definition valued (s : bstr) : Prop := exists o f v, In o ["P"; "N"; "R"; "D"; "C"; "U"]%string /\ no_dot f /\ no_dot v /\ s = form2 o f v.
(** Strings without epsilons and flags. *)
Definition plain_text (l : list bstr) : list bstr := filter (fun s => negb (is_diacritic s)) (no_epsilons l).
