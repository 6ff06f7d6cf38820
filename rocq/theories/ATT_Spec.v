(** Specification vocabulary for the AT&T text format. *)
From Verif Require Import Base BT_Model BT_Spec Str_Spec.

(** Symbols that the notation can carry: not empty, reversible (see C12), without white
    space other than blanks, and not mistaken for epsilon. *)
Definition att_plain (epsilon_symbol x : bstr) : Prop :=
  x <> [] /\ att_reversible x /\ no_nul x /\ (forall c, In c x -> white c -> blank c) /\
  (x = epsilon_symbol -> x = B "@_EPSILON_SYMBOL_@").
(** Every line of the text has at most 253 bytes and every field at most 99. *)
Definition short_lines (text : bstr) : Prop :=
  (forall a l b, text = a ++ l ++ b -> ~ In "010"%char l -> length l <= 253) /\
  (forall a l b, text = a ++ l ++ b -> Forall (fun c => ~ white c) l -> length l <= 99).
(** What the format can express of a transducer. *)
Definition att_writable (epsilon_symbol : bstr) (g : graph) : Prop :=
  structure_ok g /\ (N.of_nat (length (sts g)) <= 2 ^ 31)%N /\
  (forall x, used g x -> att_plain epsilon_symbol x).

(** States that a line speaks about. *)
Definition mentioned (g : graph) (t : nat) : Prop :=
  t = 0 \/ nth t (sts g) [] <> [] \/ (exists w, mget Nat.compare t (fin g) = Some w) \/
  exists s a, In a (nth s (sts g) []) /\ tgt a = t.
Definition keep_weight (weights : bool) (w : Z) : Z := if weights then w else 0%Z.
(** [g'] has the transitions (in order) and final states of [g]; weights are zero unless
    written; the alphabet is what is used; states beyond the last one mentioned are gone. *)
Definition same_content (weights : bool) (g g' : graph) : Prop :=
  (forall s, nth s (sts g') [] =
     map (fun a => Arc (tgt a) (isy a) (osy a) (keep_weight weights (wt a))) (nth s (sts g) [])) /\
  (forall s, mget Nat.compare s (fin g') = option_map (keep_weight weights) (mget Nat.compare s (fin g))) /\
  (forall x, In x (alpha g') <-> special x \/ used g x) /\
  (forall n, n < length (sts g') <-> exists t, n <= t /\ mentioned g t).
