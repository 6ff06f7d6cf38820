(** Properties C143 to C146: strings and pair strings read by hfst-strings2fst. *)
From Verif Require Import Base OrdMap BT_Model BT_Spec BT_Props Tok_Model Tok_Spec Tok_Proofs Str_Spec S2_Spec S2_Model S2_Proofs S2_Proofs2.

(** What is assumed of ICU is [icu]: UTF-8 is accepted, a cluster is a non-empty part of the text, and
    the characters [one] are clusters of their own. *)

(** C143: a pair string is read as the pairs it spells (option -p).  Partial: the multicharacter
    symbols are [orderly] (C143_prefix_refuted) and the text for epsilon is not taken for a character
    (C143_epsilon_refuted). *)
Theorem C143_pair_string_partial gr valid one ms eps ps s : icu gr valid one -> orderly one ms eps -> pair_text one ms eps ps s ->
  rbind (new_tokenizer gr valid ms eps) (fun t => tokenize_pair_string gr valid eps t s false) = Ok ps.
Proof. intros I O H. exact (pair_string_read gr valid one I ms eps O ps s H). Qed.
Print Assumptions C143_pair_string_partial.

(** C144: a string is read as the symbols it spells, and two strings with a colon between them as
    their symbols side by side, the shorter one filled up with epsilons.  Partial: as in C143, and
    there are no backslashes before characters that need none (C144_backslash_refuted). *)
Theorem C144_string_partial gr valid one ms eps xs s : icu gr valid one -> orderly one ms eps -> text_before one ms eps xs s [] ->
  rbind (new_tokenizer gr valid ms eps) (fun t => tokenize_string_pair gr valid eps t s false) = Ok (map (fun x => (x, x)) xs).
Proof. intros I O H. exact (string_read gr valid one I ms eps O xs s H). Qed.
Print Assumptions C144_string_partial.
Theorem C144_string_pair_partial gr valid one ms eps xs ys s u : icu gr valid one -> orderly one ms eps -> text_before one ms eps xs s (colon ++ u) -> text_before one ms eps ys u [] ->
  exists ps, rbind (new_tokenizer gr valid ms eps) (fun t => tokenize_string_pair gr valid eps t (s ++ colon ++ u) false) = Ok ps /\
  map fst ps = xs ++ repeat epsilon (length ys - length xs) /\ map snd ps = ys ++ repeat epsilon (length xs - length ys).
Proof. intros I O H K. exact (string_pair_read gr valid one I ms eps O xs ys s u H K). Qed.
Print Assumptions C144_string_pair_partial.

(** C145: the same with spaces between the symbols (option -S).  Any string is a symbol then.
    Partial: no backslashes inside longer symbols (C145_backslash_refuted), and no spaces in the
    multicharacter symbols. *)
Theorem C145_pair_string_partial gr valid one ms eps ps s : icu gr valid one -> orderly one ms eps -> (forall w, In w (words ms eps) -> ~ In " "%char w) -> spaced_pairs one eps ps s ->
  rbind (new_tokenizer gr valid ms eps) (fun t => tokenize_pair_string gr valid eps t s true) = Ok ps.
Proof. intros I O N H. exact (spaced_pair_string_read gr valid one ms eps I O N ps s H). Qed.
Print Assumptions C145_pair_string_partial.
Theorem C145_string_partial gr valid one ms eps xs s : icu gr valid one -> orderly one ms eps -> (forall w, In w (words ms eps) -> ~ In " "%char w) -> spaced_string one eps xs s ->
  rbind (new_tokenizer gr valid ms eps) (fun t => tokenize_string_pair gr valid eps t s true) = Ok (map (fun x => (x, x)) xs).
Proof. intros I O N H. exact (spaced_string_read gr valid one ms eps I O N xs s H). Qed.
Print Assumptions C145_string_partial.
Theorem C145_string_pair_partial gr valid one ms eps xs ys s u : icu gr valid one -> orderly one ms eps -> (forall w, In w (words ms eps) -> ~ In " "%char w) -> spaced_string one eps xs s -> spaced_string one eps ys u ->
  exists ps, rbind (new_tokenizer gr valid ms eps) (fun t => tokenize_string_pair gr valid eps t (s ++ colon ++ u) true) = Ok ps /\
  map fst ps = xs ++ repeat epsilon (length ys - length xs) /\ map snd ps = ys ++ repeat epsilon (length xs - length ys).
Proof. intros I O N H K. exact (spaced_string_pair_read gr valid one ms eps I O N xs ys s u H K). Qed.
Print Assumptions C145_string_pair_partial.

(** ** C146: the tool *)
(** [line_of line s w]: the line has the text [s], and after it nothing or a tab and the text [w] of
    the weight, up to the line end. *)
Definition no_eol (s : bstr) : Prop := ~ In "010"%char s /\ ~ In "013"%char s.
Inductive line_of : bstr -> bstr -> option bstr -> Prop :=
| lo_plain s e : ~ In "009"%char s -> no_eol s -> (e = [] \/ e = ["010"%char] \/ e = ["013"%char; "010"%char]) -> line_of (s ++ e) s None
| lo_weight s w e : ~ In "009"%char s -> no_eol w -> (e = [] \/ e = ["010"%char] \/ e = ["013"%char; "010"%char]) -> line_of (s ++ "009"%char :: w ++ e) s (Some w).
Lemma until_app p s r : (forall c, In c s -> p c = false) -> (r = [] \/ exists c q, r = c :: q /\ p c = true) -> until p (s ++ r) = s.
Proof.
  intros H Hr. induction s as [|c s IH]; cbn [app until].
  - destruct Hr as [->|(c & q & -> & E)]; [reflexivity|]. cbn [until]. rewrite E. reflexivity.
  - rewrite (H c (or_introl eq_refl)), IH; [reflexivity|]. intros b Hb. apply H. right. exact Hb.
Qed.
Lemma after_tab_none s : ~ In "009"%char s -> after_tab s = None.
Proof. induction s as [|c s IH]; intros N; [reflexivity|]. cbn [after_tab]. destruct (Ascii.eqb_spec c "009") as [->|_]; [destruct N; left; reflexivity|]. apply IH. intros K. apply N. right. exact K. Qed.
Lemma after_tab_some s r : ~ In "009"%char s -> after_tab (s ++ "009"%char :: r) = Some r.
Proof. induction s as [|c s IH]; intros N; [reflexivity|]. cbn [after_tab app]. destruct (Ascii.eqb_spec c "009") as [->|_]; [destruct N; left; reflexivity|]. apply IH. intros K. apply N. right. exact K. Qed.
Lemma eol_false s : no_eol s -> forall c, In c s -> eol c = false.
Proof. intros (N1 & N2) c Hc. unfold eol. destruct (Ascii.eqb_spec c "010") as [->|_]; [destruct (N1 Hc)|]. destruct (Ascii.eqb_spec c "013") as [->|_]; [destruct (N2 Hc)|reflexivity]. Qed.
Lemma line_of_spec line s w toweight : line_of line s w -> line_text line = s /\ line_weight toweight line = match w with None => 0%Z | Some w => toweight w end.
Proof.
  assert (Ee : forall e : bstr, e = [] \/ e = ["010"%char] \/ e = ["013"%char; "010"%char] -> (e = [] \/ exists c q, e = c :: q /\ eol c = true) /\ ~ In "009"%char e).
  { intros e [->|[->| ->]]; (split; [|intros K; cbn in K; intuition discriminate]); [left; reflexivity|right; eexists _, _; split; reflexivity|right; eexists _, _; split; reflexivity]. }
  intros [s0 e N E He|s0 w0 e N E He]; destruct (Ee e He) as (E1 & E2); unfold line_text, line_weight.
  - rewrite after_tab_none by (rewrite in_app_iff; tauto). split; [|reflexivity]. apply until_app; [apply eol_false; exact E|exact E1].
  - rewrite after_tab_some by exact N. split.
    + apply until_app; [|right; eexists _, _; split; reflexivity]. intros c Hc. destruct (Ascii.eqb_spec "009" c) as [<-|_]; [destruct (N Hc)|reflexivity].
    + rewrite until_app; [reflexivity|apply eol_false; exact E|exact E1].
Qed.
(** How a line spells pairs, with the options -p and -S. *)
Definition spells (one : bstr -> Prop) (ms : list bstr) (eps : bstr) (pairstrings spaces : bool) (s : bstr) (ps : list (bstr * bstr)) : Prop :=
  if pairstrings then (if spaces then spaced_pairs one eps ps s else pair_text one ms eps ps s)
  else (exists xs, (if spaces then spaced_string one eps xs s else text_before one ms eps xs s []) /\ ps = map (fun x => (x, x)) xs) \/
    exists xs ys t u, s = t ++ colon ++ u /\ (if spaces then spaced_string one eps xs t /\ spaced_string one eps ys u else text_before one ms eps xs t (colon ++ u) /\ text_before one ms eps ys u []) /\
      map fst ps = xs ++ repeat epsilon (length ys - length xs) /\ map snd ps = ys ++ repeat epsilon (length xs - length ys).
Lemma pairs_eq {A C} (ps qs : list (A * C)) : map fst ps = map fst qs -> map snd ps = map snd qs -> ps = qs.
Proof. revert qs. induction ps as [|[a b] ps IH]; intros [|[c d] qs] E1 E2; cbn in *; try discriminate; [reflexivity|]. injection E1 as -> E1. injection E2 as -> E2. rewrite (IH qs E1 E2). reflexivity. Qed.
Lemma spells_read gr valid one ms eps pairstrings spaces line s w ps toweight : icu gr valid one -> orderly one ms eps -> (spaces = true -> forall w, In w (words ms eps) -> ~ In " "%char w) ->
  line_of line s w -> spells one ms eps pairstrings spaces s ps ->
  rbind (new_tokenizer gr valid ms eps) (fun t => line_pairs gr valid pairstrings spaces eps t line) = Ok ps /\ line_weight toweight line = match w with None => 0%Z | Some w => toweight w end.
Proof.
  intros I O N L H. destruct (line_of_spec line s w toweight L) as (Et & Ew). split; [|exact Ew]. unfold line_pairs. rewrite Et. unfold spells in H. destruct pairstrings.
  - destruct spaces; [apply (C145_pair_string_partial gr valid one); auto|apply (C143_pair_string_partial gr valid one); auto].
  - destruct H as [(xs & H & ->)|(xs & ys & t & u & -> & H & E1 & E2)].
    + destruct spaces; [apply (C145_string_partial gr valid one); auto|apply (C144_string_partial gr valid one); auto].
    + assert (D : exists qs, rbind (new_tokenizer gr valid ms eps) (fun t0 => tokenize_string_pair gr valid eps t0 (t ++ colon ++ u) spaces) = Ok qs /\ map fst qs = xs ++ repeat epsilon (length ys - length xs) /\ map snd qs = ys ++ repeat epsilon (length xs - length ys)).
      { destruct spaces; [apply (C145_string_pair_partial gr valid one); tauto || auto|apply (C144_string_pair_partial gr valid one); tauto || auto]. }
      destruct D as (qs & -> & F1 & F2). f_equal. apply pairs_eq; congruence.
Qed.
Lemma process_disjuncts gr valid toweight pairstrings spaces eps t lines : forall es g, Forall2 (fun line e => line_pairs gr valid pairstrings spaces eps t line = Ok (fst e) /\ line_weight toweight line = snd e) lines es ->
  process_lines gr valid toweight pairstrings spaces eps t lines g = disjuncts g es.
Proof.
  induction lines as [|line lines IH]; intros es g F; inversion F as [|? [ps w] ? es' (E1 & E2) F']; subst; [reflexivity|]. cbn [process_lines disjuncts fst snd] in *. rewrite E1. cbn [rbind]. rewrite E2. destruct (disjunct g ps w) as [g'| | |]; try reflexivity. cbn [rbind]. apply IH. exact F'.
Qed.
Lemma spelled_ne gr valid one ms eps loose x t r : icu gr valid one -> orderly one ms eps -> spelled one ms eps loose x t r -> x <> [].
Proof.
  intros I O [m q Hm|q|q|q|c q Oc _ _ _|c q Oc _ _]; try discriminate.
  - exact (proj1 (o_chars _ _ _ O m (in_ms ms eps m Hm))).
  - exact (utf8_char_nonempty c (proj1 (i_char _ _ _ I c Oc))).
  - exact (utf8_char_nonempty c (proj1 (i_char _ _ _ I c Oc))).
Qed.
Lemma spaced_ne gr valid one eps x t : icu gr valid one -> spaced_symbol one eps x t -> x <> [].
Proof.
  intros I [cs N F _ _ _| |]; try discriminate. destruct cs as [|c cs]; [congruence|]. inversion F as [|? ? Oc _]; subst. intros K. cbn [concat] in K. apply app_eq_nil in K. exact (utf8_char_nonempty c (proj1 (i_char _ _ _ I c Oc)) (proj1 K)).
Qed.
Lemma spells_valid gr valid one ms eps pairstrings spaces s ps : icu gr valid one -> orderly one ms eps -> spells one ms eps pairstrings spaces s ps -> Forall (fun p => fst p <> [] /\ snd p <> []) ps.
Proof.
  intros I O H.
  assert (T : forall xs t r, text_before one ms eps xs t r -> Forall (fun x => x <> []) xs) by (induction 1; constructor; [eapply spelled_ne; eassumption|assumption]).
  assert (S : forall xs t, spaced_string one eps xs t -> Forall (fun x => x <> []) xs) by (induction 1; [constructor|assumption|constructor; [eapply spaced_ne; eassumption|assumption]]).
  unfold spells in H. destruct pairstrings.
  - destruct spaces.
    + induction H as [|ps s H IH|x t ps s Hx H IH A|x y t u ps s Hx Hy H IH A]; [constructor|exact IH|constructor; [|exact IH]|constructor; [|exact IH]]; cbn [fst snd]; split; eapply spaced_ne; eassumption.
    + induction H as [|x t r ps Hx H IH|x y t u r ps Hx Hy H IH]; [constructor|constructor; [|exact IH]|constructor; [|exact IH]]; cbn [fst snd]; split; eapply spelled_ne; eassumption.
  - destruct H as [(xs & H & ->)|(xs & ys & t & u & _ & H & E1 & E2)].
    + assert (F : Forall (fun x => x <> []) xs) by (destruct spaces; [exact (S _ _ H)|exact (T _ _ _ H)]). apply Forall_map. eapply Forall_impl; [|exact F]. cbn. auto.
    + assert (F : Forall (fun x => x <> []) xs /\ Forall (fun x => x <> []) ys) by (destruct spaces; destruct H as (H1 & H2); [split; [exact (S _ _ H1)|exact (S _ _ H2)]|split; [exact (T _ _ _ H1)|exact (T _ _ _ H2)]]). destruct F as (Fx & Fy).
      assert (R : forall n, Forall (fun x => x <> []) (repeat epsilon n)) by (induction n; constructor; [discriminate|assumption]).
      assert (G1 : Forall (fun x => x <> []) (map fst ps)) by (rewrite E1; apply Forall_app; auto). assert (G2 : Forall (fun x => x <> []) (map snd ps)) by (rewrite E2; apply Forall_app; auto).
      clear - G1 G2. induction ps as [|p ps IH]; [constructor|]. cbn [map] in *. inversion G1; inversion G2; subst. constructor; auto.
Qed.

(** C146: hfst-strings2fst -j makes a transducer with just the pairs of the lines, each with its
    smallest weight.  Partial: the lines are spelled as in C143 to C145. *)
Theorem C146_lines_partial gr valid one toweight ms eps pairstrings spaces lines es : icu gr valid one -> orderly one ms eps -> (spaces = true -> forall w, In w (words ms eps) -> ~ In " "%char w) ->
  Forall2 (fun line e => exists s w, line_of line s w /\ spells one ms eps pairstrings spaces s (fst e) /\ snd e = match w with None => 0%Z | Some w => toweight w end) lines es ->
  exists g, strings2fst gr valid toweight pairstrings spaces ms eps lines = Ok g /\ forall l w, accepts g l w <-> min_weight es l w.
Proof.
  intros I O N F. destruct (new_tokenizer_ok gr valid one I ms eps O) as (t & Et & _).
  assert (F1 : Forall2 (fun line e => line_pairs gr valid pairstrings spaces eps t line = Ok (fst e) /\ line_weight toweight line = snd e) lines es).
  { induction F as [|line e lines es (s & w & L & Sp & Ew) F IH]; constructor; [|exact IH]. destruct (spells_read gr valid one ms eps pairstrings spaces line s w (fst e) toweight I O N L Sp) as (E1 & E2). rewrite Et in E1. split; [exact E1|congruence]. }
  assert (F2 : Forall (fun e => Forall (fun p => fst p <> [] /\ snd p <> []) (fst e)) es) by (clear F1; induction F as [|line e lines es (s & w & L & Sp & Ew) F IH]; constructor; [exact (spells_valid gr valid one ms eps pairstrings spaces s (fst e) I O Sp)|exact IH]).
  destruct (C17_trie es F2) as (g & Eg & A & _). exists g. split; [|exact A]. unfold strings2fst. rewrite Et. cbn [rbind]. rewrite (process_disjuncts gr valid toweight pairstrings spaces eps t lines es empty_graph F1). exact Eg.
Qed.
Print Assumptions C146_lines_partial.

(** ** Cases *)
(** ASCII characters are clusters, and so is any other character. *)
Definition gr8 (x : bstr) : nat := match x with [] => 0 | b :: _ => lead_width b end.
Definition ok8 (x : bstr) : bool := true.
Definition ascii_one (c : bstr) : Prop := exists b0 b1 b2 b3 b4 b5 b6, c = [Ascii b0 b1 b2 b3 b4 b5 b6 false] /\ c <> ["000"%char].
Lemma icu8 : icu gr8 ok8 ascii_one.
Proof.
  split.
  - reflexivity.
  - intros [|b s] N U; [congruence|]. destruct (utf8_head b s U) as (c & r & E & Hc & Hr & L). exists c, r. split; [exact E|]. split; [exact L|]. split; [|exact (utf8_char_nonempty c Hc)]. exists [c]. split; [constructor; [exact Hc|constructor]|cbn [concat]; rewrite app_nil_r; reflexivity].
  - intros c (b0 & b1 & b2 & b3 & b4 & b5 & b6 & -> & N). split; [constructor|]. intros [K|[]]. apply N. rewrite K. reflexivity.
  - intros c r (b0 & b1 & b2 & b3 & b4 & b5 & b6 & -> & N) _. reflexivity.
  - split; [|split]; unfold colon, backslash, space; cbn [B list_ascii_of_string]; repeat eexists; discriminate.
Qed.
Ltac char_one := unfold ascii_one; cbn [B list_ascii_of_string]; repeat eexists; discriminate.
Lemma ascii_text s : Forall (fun b => ascii_one [b]) s -> all_one ascii_one s.
Proof. intros F. exists (map (fun b => [b]) s). split; [apply Forall_map; exact F|]. clear F. induction s as [|b s IH]; cbn [map concat app]; [reflexivity|f_equal; exact IH]. Qed.
Fixpoint inside (w s : bstr) : bool := starts w s || match s with [] => false | _ :: s' => inside w s' end.
Lemma inside_occurs w s : inside w s = false -> ~ occurs w s.
Proof.
  induction s as [|c s IH]; intros H (a & b & E); cbn [inside] in H; apply orb_false_iff in H; destruct H as (H1 & H2).
  - assert (starts w [] = true) by (apply starts_prefix; destruct a; [exists b; exact E|discriminate E]). congruence.
  - destruct a as [|x a]; [assert (starts w (c :: s) = true) by (apply starts_prefix; exists b; exact E); congruence|]. injection E as -> E. apply (IH H2). exists a, b. exact E.
Qed.
Ltac in_cases H := cbn [In words reserved app] in H; repeat (destruct H as [<-|H]); [..|destruct H].
Ltac no_prefix := let w := fresh in let Hw := fresh in let P := fresh in intros w Hw P; apply starts_prefix in P; in_cases Hw; vm_compute in P; discriminate P.
Definition wms : list bstr := [B "+N"].
Definition weps : bstr := B "@0@".
Lemma worderly : orderly ascii_one wms weps.
Proof.
  unfold wms, weps. split.
  - intros w Hw. in_cases Hw; (split; [discriminate|]); (split; [apply ascii_text; cbn [B list_ascii_of_string]; repeat (constructor; [char_one|]); constructor|]); split; intros K; cbn in K; repeat (destruct K as [K|K]; [discriminate K|]); exact K.
  - intros w w' Hw Hw' P. apply starts_prefix in P. in_cases Hw; in_cases Hw'; vm_compute in P; first [discriminate P|reflexivity].
  - unfold words, reserved. cbn [app]. repeat (constructor; [intros K; cbn [In] in K; repeat (destruct K as [K|K]; [discriminate K|]); exact K|]). constructor.
  - intros m w Hm Hw. apply inside_occurs. in_cases Hm; in_cases Hw; reflexivity.
  - discriminate.
Qed.
Lemma wspace : forall w, In w (words wms weps) -> ~ In " "%char w.
Proof. intros w Hw K. unfold wms, weps in Hw. in_cases Hw; cbn in K; repeat (destruct K as [K|K]; [discriminate K|]); exact K. Qed.

(** The line a:b\+c+N@0@:d\: *)
Definition wpairs : list (bstr * bstr) := [(B "a", B "b"); (B "+", B "+"); (B "c", B "c"); (B "+N", B "+N"); (epsilon, B "d"); (colon, colon)].
Lemma wpair_text : pair_text ascii_one wms weps wpairs (B "a:b\+c+N@0@:d\:").
Proof.
  unfold wpairs, wms, weps.
  apply (pt_pair ascii_one [B "+N"] (B "@0@") (B "a") (B "b") (B "a") (B "b") (B "\+c+N@0@:d\:")); [apply sp_plain; [char_one|discriminate|discriminate|no_prefix]..|].
  apply (pt_same ascii_one [B "+N"] (B "@0@") (B "+") (B "\+") (B "c+N@0@:d\:")); [apply (sp_escaped ascii_one [B "+N"] (B "@0@") true (B "+")); [char_one|left; reflexivity|no_prefix]|].
  apply (pt_same ascii_one [B "+N"] (B "@0@") (B "c") (B "c") (B "+N@0@:d\:")); [apply sp_plain; [char_one|discriminate|discriminate|no_prefix]|].
  apply (pt_same ascii_one [B "+N"] (B "@0@") (B "+N") (B "+N") (B "@0@:d\:")); [apply sp_multi; left; reflexivity|].
  apply (pt_pair ascii_one [B "+N"] (B "@0@") epsilon (B "d") (B "@0@") (B "d") (B "\:")); [apply sp_epsilon|apply sp_plain; [char_one|discriminate|discriminate|no_prefix]|].
  apply (pt_same ascii_one [B "+N"] (B "@0@") colon (B "\:") []); [apply (sp_escaped ascii_one [B "+N"] (B "@0@") true colon); [char_one|left; reflexivity|no_prefix]|constructor].
Qed.
Example C143_witness : icu gr8 ok8 ascii_one /\ orderly ascii_one wms weps /\ pair_text ascii_one wms weps wpairs (B "a:b\+c+N@0@:d\:") /\
  rbind (new_tokenizer gr8 ok8 wms weps) (fun t => tokenize_pair_string gr8 ok8 weps t (B "a:b\+c+N@0@:d\:") false) = Ok wpairs.
Proof. split; [exact icu8|]. split; [exact worderly|]. split; [exact wpair_text|vm_compute; reflexivity]. Qed.

(** A backslash before a character that begins a multicharacter symbol does not protect it if another
    multicharacter symbol begins with the first one: \abd is ab and d, not a, b and d. *)
Example C143_prefix_refuted :
  rbind (new_tokenizer gr8 ok8 [B "ab"; B "abc"] weps) (fun t => tokenize_pair_string gr8 ok8 weps t (B "\abd") false) = Ok [(B "ab", B "ab"); (B "d", B "d")] /\
  rbind (new_tokenizer gr8 ok8 [B "ab"] weps) (fun t => tokenize_pair_string gr8 ok8 weps t (B "\abd") false) = Ok [(B "a", B "a"); (B "b", B "b"); (B "d", B "d")].
Proof. vm_compute. split; reflexivity. Qed.
(** With the text 0 for epsilon, \0 is epsilon by itself, but the character 0 in a pair. *)
Example C143_epsilon_refuted :
  rbind (new_tokenizer gr8 ok8 [] (B "0")) (fun t => tokenize_pair_string gr8 ok8 (B "0") t (B "\0a\0:b") false) = Ok [(epsilon, epsilon); (B "a", B "a"); (B "0", B "b")].
Proof. vm_compute. reflexivity. Qed.

Lemma wtext : text_before ascii_one wms weps [B "c"; B "+N"; space; B "+"] (B "c+N\ \+") (colon ++ B "@0@d").
Proof.
  unfold wms, weps.
  apply (tb_cons ascii_one [B "+N"] (B "@0@") (B "c") (B "c") [B "+N"; space; B "+"] (B "+N\ \+")); [apply sp_plain; [char_one|discriminate|discriminate|no_prefix]|].
  apply (tb_cons ascii_one [B "+N"] (B "@0@") (B "+N") (B "+N") [space; B "+"] (B "\ \+")); [apply sp_multi; left; reflexivity|].
  apply (tb_cons ascii_one [B "+N"] (B "@0@") space (B "\ ") [B "+"] (B "\+")); [apply (sp_escaped ascii_one [B "+N"] (B "@0@") false space); [char_one|right; right; left; reflexivity|no_prefix]|].
  apply (tb_cons ascii_one [B "+N"] (B "@0@") (B "+") (B "\+") [] []); [apply (sp_escaped ascii_one [B "+N"] (B "@0@") false (B "+")); [char_one| |no_prefix]|constructor].
  right. right. right. right. exists (B "+N"). split; [left; reflexivity|exists (B "N"); reflexivity].
Qed.
Lemma wtext2 : text_before ascii_one wms weps [epsilon; B "d"] (B "@0@d") [].
Proof.
  unfold wms, weps.
  apply (tb_cons ascii_one [B "+N"] (B "@0@") epsilon (B "@0@") [B "d"] (B "d")); [apply sp_epsilon|].
  apply (tb_cons ascii_one [B "+N"] (B "@0@") (B "d") (B "d") [] []); [apply sp_plain; [char_one|discriminate|discriminate|no_prefix]|constructor].
Qed.
Definition wzip : list (bstr * bstr) := [(B "c", epsilon); (B "+N", B "d"); (space, epsilon); (B "+", epsilon)].
Example C144_witness : text_before ascii_one wms weps [B "c"; B "+N"; space; B "+"] (B "c+N\ \+") (colon ++ B "@0@d") /\ text_before ascii_one wms weps [epsilon; B "d"] (B "@0@d") [] /\
  rbind (new_tokenizer gr8 ok8 wms weps) (fun t => tokenize_string_pair gr8 ok8 weps t (B "c+N\ \+:@0@d") false) = Ok wzip /\
  rbind (new_tokenizer gr8 ok8 wms weps) (fun t => tokenize_string_pair gr8 ok8 weps t (B "@0@d") false) = Ok [(epsilon, epsilon); (B "d", B "d")].
Proof. split; [exact wtext|]. split; [exact wtext2|]. vm_compute. split; reflexivity. Qed.
(** A backslash before a character that needs none is taken for an empty symbol: the whole input is
    refused, where the same line is read with the option -p. *)
Example C144_backslash_refuted :
  strings2fst gr8 ok8 (fun _ => 0%Z) false false wms weps [B "a:b\c"] = Throw /\
  rbind (new_tokenizer gr8 ok8 wms weps) (fun t => tokenize_string_pair gr8 ok8 weps t (B "a:b\c") false) = Ok [(B "a", B "b"); (epsilon, []); (epsilon, B "c")] /\
  rbind (new_tokenizer gr8 ok8 wms weps) (fun t => tokenize_pair_string gr8 ok8 weps t (B "a:b\c") false) = Ok [(B "a", B "b"); (B "c", B "c")].
Proof. vm_compute. repeat split. Qed.

Lemma wsymbol s cs : s = concat cs -> cs <> [] -> Forall ascii_one cs -> ~ In backslash cs -> s <> weps ->
  forallb (fun w => negb (inside w s)) [B "@_COLON_@"; B "@_TAB_@"; B "@_SPACE_@"; B "@_BACKSLASH_@"] = true -> spaced_symbol ascii_one weps s (concat (map escaped cs)).
Proof. intros -> N F NB NE H. apply ss_symbol; auto. intros w Hw. apply inside_occurs. rewrite forallb_forall in H. specialize (H w Hw). destruct (inside w (concat cs)); [discriminate H|reflexivity]. Qed.
Ltac symbol cs := apply (wsymbol _ cs); [reflexivity|discriminate|repeat (constructor; [char_one|]); constructor|intros K; cbn [In] in K; repeat (destruct K as [K|K]; [discriminate K|]); exact K|discriminate|reflexivity].
Lemma wspaced : spaced_pairs ascii_one weps [(B "x y", B "foo"); (epsilon, B "q"); (backslash, backslash)] (B "x\ y:foo  @0@:q \\").
Proof.
  apply (spp_pair ascii_one weps (B "x y") (B "foo") (B "x\ y") (B "foo") _ (B "  @0@:q \\")); [symbol [B "x"; B " "; B "y"]|symbol [B "f"; B "o"; B "o"]| |right; exists (B " @0@:q \\"); reflexivity].
  apply (spp_space ascii_one weps _ (B " @0@:q \\")). apply (spp_space ascii_one weps _ (B "@0@:q \\")).
  apply (spp_pair ascii_one weps epsilon (B "q") (B "@0@") (B "q") _ (B " \\")); [apply (ss_epsilon ascii_one weps)|symbol [B "q"]| |right; exists (B "\\"); reflexivity].
  apply (spp_space ascii_one weps _ (B "\\")). apply (spp_same ascii_one weps backslash (B "\\") [] []); [apply ss_backslash|constructor|left; reflexivity].
Qed.
Lemma wspaced2 : spaced_string ascii_one weps [B "foo"; B "d:"] (B "foo d\:").
Proof.
  apply (sst_cons ascii_one weps (B "foo") (B "foo") [B "d:"] (B " d\:")); [symbol [B "f"; B "o"; B "o"]| |right; exists (B "d\:"); reflexivity].
  apply (sst_space ascii_one weps _ (B "d\:")). apply (sst_cons ascii_one weps (B "d:") (B "d\:") [] []); [symbol [B "d"; B ":"]|constructor|left; reflexivity].
Qed.
Example C145_witness : (forall w, In w (words wms weps) -> ~ In " "%char w) /\
  spaced_pairs ascii_one weps [(B "x y", B "foo"); (epsilon, B "q"); (backslash, backslash)] (B "x\ y:foo  @0@:q \\") /\ spaced_string ascii_one weps [B "foo"; B "d:"] (B "foo d\:") /\
  rbind (new_tokenizer gr8 ok8 wms weps) (fun t => tokenize_pair_string gr8 ok8 weps t (B "x\ y:foo  @0@:q \\") true) = Ok [(B "x y", B "foo"); (epsilon, B "q"); (backslash, backslash)] /\
  rbind (new_tokenizer gr8 ok8 wms weps) (fun t => tokenize_string_pair gr8 ok8 weps t (B "foo d\:") true) = Ok [(B "foo", B "foo"); (B "d:", B "d:")].
Proof. split; [exact wspace|]. split; [exact wspaced|]. split; [exact wspaced2|]. vm_compute. split; reflexivity. Qed.
(** A doubled backslash inside a longer symbol is lost, and a tab by its name becomes three spaces. *)
Example C145_backslash_refuted :
  rbind (new_tokenizer gr8 ok8 wms weps) (fun t => tokenize_pair_string gr8 ok8 weps t (B "a\\b c:foo d") true) = Ok [(B "ab", B "ab"); (B "c", B "foo"); (B "d", B "d")] /\
  rbind (new_tokenizer gr8 ok8 wms weps) (fun t => tokenize_pair_string gr8 ok8 weps t (B "@_TAB_@") true) = Ok [(B "   ", B "   ")].
Proof. vm_compute. split; reflexivity. Qed.

(** Two lines with the same pairs and the weights 2 and 1, and a third line. *)
Definition wlines : list bstr := [B "a:b\+c+N@0@:d\:" ++ "009"%char :: B "2" ++ ["010"%char]; B "@0@:d" ++ ["010"%char]; B "a:b\+c+N@0@:d\:" ++ "009"%char :: B "1" ++ ["013"%char; "010"%char]].
Definition wz (s : bstr) : Z := if bstr_eqb s (B "2") then 2%Z else 1%Z.
Example C146_witness : Forall2 (fun line e => exists s w, line_of line s w /\ spells ascii_one wms weps true false s (fst e) /\ snd e = match w with None => 0%Z | Some w => wz w end)
    wlines [(wpairs, 2%Z); ([(epsilon, B "d")], 0%Z); (wpairs, 1%Z)] /\
  min_weight [(wpairs, 2%Z); ([(epsilon, B "d")], 0%Z); (wpairs, 1%Z)] wpairs 1%Z.
Proof.
  assert (NE : forall s : bstr, forallb (fun c => negb (Ascii.eqb c "010") && negb (Ascii.eqb c "013")) s = true -> no_eol s).
  { intros s H. rewrite forallb_forall in H. split; intros K; specialize (H _ K); discriminate H. }
  assert (NT : forall s : bstr, forallb (fun c => negb (Ascii.eqb c "009")) s = true -> ~ In "009"%char s).
  { intros s H. rewrite forallb_forall in H. intros K; specialize (H _ K); discriminate H. }
  split.
  - unfold wlines. constructor; [|constructor; [|constructor; [|constructor]]].
    + exists (B "a:b\+c+N@0@:d\:"), (Some (B "2")). split; [|split; [exact wpair_text|reflexivity]]. apply lo_weight; [apply NT; reflexivity|apply NE; reflexivity|right; left; reflexivity].
    + exists (B "@0@:d"), None. split; [apply lo_plain; [apply NT; reflexivity|apply NE; reflexivity|right; left; reflexivity]|]. split; [|reflexivity]. unfold spells, wms, weps.
      apply (pt_pair ascii_one [B "+N"] (B "@0@") epsilon (B "d") (B "@0@") (B "d") []); [apply sp_epsilon|apply sp_plain; [char_one|discriminate|discriminate|no_prefix]|constructor].
    + exists (B "a:b\+c+N@0@:d\:"), (Some (B "1")). split; [|split; [exact wpair_text|reflexivity]]. apply lo_weight; [apply NT; reflexivity|apply NE; reflexivity|right; right; reflexivity].
  - split; [right; right; left; reflexivity|]. intros w' K. cbn [In] in K. destruct K as [K|[K|[K|[]]]]; [injection K as <-; lia|discriminate K|injection K as <-; lia].
Qed.
