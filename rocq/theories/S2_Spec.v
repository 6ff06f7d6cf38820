(** Specification vocabulary for the text of strings and pairs. *)
From Verif Require Import Base Tok_Spec Str_Spec.

Section Text.
  (** [one]: the characters that are grapheme clusters of their own in any text of such characters. *)
  Variable one : bstr -> Prop.
  Definition all_one (s : bstr) : Prop := exists cs, Forall one cs /\ s = concat cs.

  Definition colon : bstr := B ":".
  Definition backslash : bstr := B "\".
  Definition space : bstr := B " ".
  Definition epsilon : bstr := B "@_EPSILON_SYMBOL_@".
  (** The words with a meaning of their own, whatever the multicharacter symbols [ms]; [eps] is the
      text for epsilon. *)
  Definition reserved (eps : bstr) : list bstr := [eps; B "@_COLON_@"; B "@_TAB_@"; B "@_SPACE_@"].
  Definition words (ms : list bstr) (eps : bstr) : list bstr := reserved eps ++ ms.

  (** No word begins with another one, no multicharacter symbol is listed twice, and the words
      have neither colons nor backslashes. *)
  Record orderly (ms : list bstr) (eps : bstr) : Prop := {
    o_chars : forall w, In w (words ms eps) -> w <> [] /\ all_one w /\ ~ In ":"%char w /\ ~ In "\"%char w;
    o_prefix : forall w w', In w (words ms eps) -> In w' (words ms eps) -> prefix_of w w' -> w = w';
    o_nodup : NoDup (words ms eps);
    o_marks : forall m w, In m (eps :: ms) -> In w [B "@_COLON_@"; B "@_TAB_@"; B "@_SPACE_@"; B "@_BACKSLASH_@"] -> ~ occurs w m;
    o_space : eps <> space }.

  (** [spelled ms eps loose x t r]: the symbol [x] may be spelled [t] before the text [r]: a
      multicharacter symbol as it is, epsilon as [eps], space and colon by their names, a character as
      it is if no word begins with it, or after a backslash.  The last is for colons, spaces,
      backslashes and characters that begin a multicharacter symbol; if [loose], for all characters. *)
  Inductive spelled (ms : list bstr) (eps : bstr) (loose : bool) : bstr -> bstr -> bstr -> Prop :=
  | sp_multi m r : In m ms -> spelled ms eps loose m m r
  | sp_epsilon r : spelled ms eps loose epsilon eps r
  | sp_space r : spelled ms eps loose space (B "@_SPACE_@") r
  | sp_colon r : spelled ms eps loose colon (B "@_COLON_@") r
  | sp_plain c r : one c -> c <> colon -> c <> backslash -> (forall w, In w (words ms eps) -> ~ prefix_of c w) -> spelled ms eps loose c c r
  | sp_escaped c r : one c -> loose = true \/ c = colon \/ c = space \/ c = backslash \/ (exists m, In m ms /\ prefix_of c m) ->
      (forall w, In w (reserved eps) -> ~ prefix_of w (c ++ r)) -> spelled ms eps loose c (backslash ++ c) r.

  (** Pair strings: x for a pair of equal symbols, x:y for any pair. *)
  Inductive pair_text (ms : list bstr) (eps : bstr) : list (bstr * bstr) -> bstr -> Prop :=
  | pt_nil : pair_text ms eps [] []
  | pt_same x t r ps : spelled ms eps true x t r -> pair_text ms eps ps r -> pair_text ms eps ((x, x) :: ps) (t ++ r)
  | pt_pair x y t u r ps : spelled ms eps true x t (colon ++ u ++ r) -> spelled ms eps true y u r -> pair_text ms eps ps r ->
      pair_text ms eps ((x, y) :: ps) (t ++ colon ++ u ++ r).

  (** [text_before ms eps xs t r]: the symbols [xs] are spelled [t] before [r]. *)
  Inductive text_before (ms : list bstr) (eps : bstr) : list bstr -> bstr -> bstr -> Prop :=
  | tb_nil r : text_before ms eps [] [] r
  | tb_cons x t xs u r : spelled ms eps false x t (u ++ r) -> text_before ms eps xs u r -> text_before ms eps (x :: xs) (t ++ u) r.

  (** With spaces between symbols.  Any string may be a symbol; colons and spaces in it have a
      backslash before them. *)
  Definition escaped (c : bstr) : bstr := if bstr_eqb c colon || bstr_eqb c space then backslash ++ c else c.
  Inductive spaced_symbol (eps : bstr) : bstr -> bstr -> Prop :=
  | ss_symbol cs : cs <> [] -> Forall one cs -> ~ In backslash cs -> concat cs <> eps ->
      (forall w, In w [B "@_COLON_@"; B "@_TAB_@"; B "@_SPACE_@"; B "@_BACKSLASH_@"] -> ~ occurs w (concat cs)) ->
      spaced_symbol eps (concat cs) (concat (map escaped cs))
  | ss_backslash : spaced_symbol eps backslash (backslash ++ backslash)
  | ss_epsilon : spaced_symbol eps epsilon eps.
  Definition at_end (s : bstr) : Prop := s = [] \/ exists r, s = space ++ r.
  Inductive spaced_pairs (eps : bstr) : list (bstr * bstr) -> bstr -> Prop :=
  | spp_nil : spaced_pairs eps [] []
  | spp_space ps s : spaced_pairs eps ps s -> spaced_pairs eps ps (space ++ s)
  | spp_same x t ps s : spaced_symbol eps x t -> spaced_pairs eps ps s -> at_end s -> spaced_pairs eps ((x, x) :: ps) (t ++ s)
  | spp_pair x y t u ps s : spaced_symbol eps x t -> spaced_symbol eps y u -> spaced_pairs eps ps s -> at_end s ->
      spaced_pairs eps ((x, y) :: ps) (t ++ colon ++ u ++ s).
  Inductive spaced_string (eps : bstr) : list bstr -> bstr -> Prop :=
  | sst_nil : spaced_string eps [] []
  | sst_space xs s : spaced_string eps xs s -> spaced_string eps xs (space ++ s)
  | sst_cons x t xs s : spaced_symbol eps x t -> spaced_string eps xs s -> at_end s -> spaced_string eps (x :: xs) (t ++ s).
End Text.
Arguments orderly one ms eps : assert.
