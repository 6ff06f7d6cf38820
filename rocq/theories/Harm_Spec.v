(** Specification vocabulary for harmonization: what the unknown and identity symbols stand for. *)
From Verif Require Import Base Flags_Model BT_Model BT_Spec.

(** Symbols reserved for pattern matching. *)
Definition between (p : bstr) (x : bstr) : Prop := exists m, x = p ++ m ++ B "@".
Definition pmatch_symbol (x : bstr) : Prop :=
  In x [B "@BOUNDARY@"; B "@UNICODE_ALPHA@"; B "@UNICODE_UPPERALPHA@"; B "@UNICODE_LOWERALPHA@"; B "@UNICODE_WHITESPACE@"]
  \/ between (B "@I.") x
  \/ between (B "@PMATCH") x /\ x <> B "@PMATCH_INPUT_MARK@" /\ x <> B "@PMATCH_BACKTRACK@"
  \/ (between (B "@L.") x \/ between (B "@X.") x) /\ x <> B "@L.@" /\ x <> B "@X.@".
(** Symbols that may occur in strings: everything but the reserved symbols, the flag diacritics
    and the pattern matching symbols. *)
Definition ordinary (x : bstr) : Prop := ~ special x /\ is_diacritic x = false /\ ~ pmatch_symbol x.
Definition outside (al : list bstr) (x : bstr) : Prop := ordinary x /\ ~ In x al.

(** The symbol pairs a label stands for in a transducer with alphabet [al]: identity is any
    ordinary symbol outside the alphabet paired with itself, unknown is any ordinary symbol
    outside the alphabet, and two unknowns are different; other labels stand for themselves. *)
Inductive means (al : list bstr) : bstr * bstr -> bstr * bstr -> Prop :=
| means_identity x : outside al x -> means al (B "@_IDENTITY_SYMBOL_@", B "@_IDENTITY_SYMBOL_@") (x, x)
| means_unknowns x y : outside al x -> outside al y -> x <> y ->
    means al (B "@_UNKNOWN_SYMBOL_@", B "@_UNKNOWN_SYMBOL_@") (x, y)
| means_unknown_in x o : outside al x -> o <> B "@_UNKNOWN_SYMBOL_@" ->
    means al (B "@_UNKNOWN_SYMBOL_@", o) (x, o)
| means_unknown_out i y : outside al y -> i <> B "@_UNKNOWN_SYMBOL_@" ->
    means al (i, B "@_UNKNOWN_SYMBOL_@") (i, y)
| means_itself i o : i <> B "@_UNKNOWN_SYMBOL_@" -> o <> B "@_UNKNOWN_SYMBOL_@" ->
    ~ (i = B "@_IDENTITY_SYMBOL_@" /\ o = B "@_IDENTITY_SYMBOL_@") -> means al (i, o) (i, o).

(** The weighted relation of a transducer: the pairs of symbols along an accepted path. *)
Definition relation (g : graph) (l : list (bstr * bstr)) (w : Z) : Prop :=
  exists m, accepts g m w /\ Forall2 (means (alpha g)) m l.

(** Identity occurs only on both sides of a transition at once. *)
Definition identities_paired (g : graph) : Prop :=
  forall s a, In a (nth s (sts g) []) ->
    (isy a = B "@_IDENTITY_SYMBOL_@" <-> osy a = B "@_IDENTITY_SYMBOL_@").
Definition no_empty_symbol (g : graph) : Prop :=
  ~ In [] (alpha g) /\ forall s a, In a (nth s (sts g) []) -> isy a <> [] /\ osy a <> [].
