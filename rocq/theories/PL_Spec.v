(** Specification vocabulary for the Prolog text format. *)
From Verif Require Import Base BT_Model BT_Spec Str_Spec ATT_Model ATT_Spec.

(** Names of networks. *)
Definition prolog_name (n : bstr) : Prop :=
  n <> [] /\ no_nul n /\ (forall c, In c n -> ~ white c /\ c <> ","%char) /\ length n <= 97.
(** Symbols that a transition can carry: without tabs, newlines and NUL, other than the
    notations %0 and %?, and not ending in a backslash. *)
Definition prolog_symbol (x : bstr) : Prop :=
  no_nul x /\ ~ In "009"%char x /\ ~ In "010"%char x /\ x <> B "%0" /\ x <> B "%?" /\ (forall r, x <> r ++ ["\"%char]).
(** Symbols that can be listed in the alphabet without being used: no white space at all. *)
Definition prolog_unused (x : bstr) : Prop :=
  x <> [] /\ no_nul x /\ (forall c, In c x -> ~ white c) /\ x <> B "%0" /\ x <> B "%?".
(** A symbol takes at most so many bytes: a backslash before each quote and backslash, or
    a percent sign. *)
Definition written_size (x : bstr) : nat :=
  S (length x + length (filter (fun c => Ascii.eqb c "034" || Ascii.eqb c "\")%bool x)).
Definition weight_size (weights : bool) (w : Z) : nat := if weights then length (print_float w) else 0.
(** What the format and the reader's buffers of 100 bytes can take of a transducer. *)
Definition prolog_writable (weights : bool) (name : bstr) (g : graph) : Prop :=
  structure_ok g /\ (N.of_nat (length (sts g)) <= 2 ^ 31)%N /\ NoDup (map fst (fin g)) /\ prolog_name name /\
  (forall x, used g x -> prolog_symbol x) /\
  (forall x, In x (alpha g) -> special x \/ used g x \/ prolog_unused x /\ written_size x <= 95) /\
  (forall s a, In a (nth s (sts g) []) ->
     (isy a = B "@_IDENTITY_SYMBOL_@" <-> osy a = B "@_IDENTITY_SYMBOL_@") /\
     written_size (isy a) + written_size (osy a) + weight_size weights (wt a) <= 90) /\
  (forall s w, In (s, w) (fin g) -> weight_size weights w <= 99).
(** [g'] has the transitions (in order), final states and alphabet of [g]; weights are zero
    unless written; states beyond the last one mentioned are gone. *)
Definition same_network (weights : bool) (g g' : graph) : Prop :=
  (forall s, nth s (sts g') [] =
     map (fun a => Arc (tgt a) (isy a) (osy a) (keep_weight weights (wt a))) (nth s (sts g) [])) /\
  (forall s, mget Nat.compare s (fin g') = option_map (keep_weight weights) (mget Nat.compare s (fin g))) /\
  (forall x, In x (alpha g') <-> special x \/ used g x \/ In x (alpha g)) /\
  (forall n, n < length (sts g') <-> exists t, n <= t /\ mentioned g t).

(** Texts with an empty line between each two. *)
Fixpoint joined (ts : list bstr) : bstr :=
  match ts with [] => [] | [t] => t | t :: r => t ++ ascii_of_nat 10 :: joined r end.
