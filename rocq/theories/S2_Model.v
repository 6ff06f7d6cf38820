(** Model of HfstStrings2FstTokenizer (/repo/libhfst/src/HfstStrings2FstTokenizer.cc, .h) and of
    hfst-strings2fst (/repo/tools/src/hfst-strings2fst.cc). *)
From Verif Require Import Base BT_Model Tok_Model.

(** HfstStrings2FstTokenizer.h:21-34. *)
Definition COL : bstr := B ":".
Definition BACKSLASH : bstr := B "\".
Definition SPACE : bstr := B " ".
Definition BACKSLASH_ESC : bstr := B "@_BACKSLASH_@".
Definition EPSILON_SYMBOL : bstr := B "@_EPSILON_SYMBOL_@".
Definition COL_ESCAPE : bstr := B "@_COLON_@".
Definition TAB_ESCAPE : bstr := B "@_TAB_@".
Definition SPACE_ESCAPE : bstr := B "@_SPACE_@".
Definition COL_CHAR : ascii := ":"%char.
Definition BACKSLASH_CHAR : ascii := "\"%char.

(** One step of the loops while ((pos = symbol.find(pat)) != npos) symbol.replace(pos, ..., rep), for
    a pattern that is not empty; None: not found. *)
Fixpoint starts (pat s : bstr) : bool :=
  match pat, s with
  | [], _ => true
  | p :: pat', c :: s' => Ascii.eqb p c && starts pat' s'
  | _ :: _, [] => false
  end.
Fixpoint replace_first (pat rep s : bstr) : option bstr :=
  if starts pat s then Some (rep ++ skipn (length pat) s)
  else match s with [] => None | c :: s' => option_map (cons c) (replace_first pat rep s') end.
Fixpoint replace_while (fuel : nat) (pat rep s : bstr) : res bstr :=
  match replace_first pat rep s with
  | None => Ok s
  | Some s' => match fuel with 0 => Diverge | S fuel' => replace_while fuel' pat rep s' end
  end.

(** check_cols, :259-281: [before] are the characters before [s], the last one first.  True: throw. *)
Fixpoint bad_cols (before s : bstr) : bool :=
  match s with
  | [] => false
  | c :: s' =>
      (Ascii.eqb c COL_CHAR &&
       match before with
       | [] => true
       | b :: before' => negb (Ascii.eqb b BACKSLASH_CHAR) || match before' with [] => false | b' :: _ => Ascii.eqb b' BACKSLASH_CHAR end
       end) || bad_cols (c :: before) s'
  end.

(** unescape, :185-232. *)
Definition unescape (s : bstr) : res bstr :=
  if bad_cols [] s then Throw
  else if bstr_eqb s (BACKSLASH ++ BACKSLASH) then Ok BACKSLASH
  else
    let n := length s in
    rbind (replace_while n (BACKSLASH ++ BACKSLASH) BACKSLASH_ESC s) (fun s =>
    rbind (replace_while (length s) BACKSLASH [] s) (fun s =>
    rbind (replace_while (length s) BACKSLASH_ESC [] s) (fun s =>
    rbind (replace_while (length s) SPACE_ESCAPE (B " ") s) (fun s =>
    rbind (replace_while (length s) TAB_ESCAPE (B "   ") s) (fun s =>
    replace_while (length s) COL_ESCAPE (B ":") s))))).

Section Strings.
  (** ICU, as in Tok_Model. *)
  Variable grapheme : bstr -> nat.
  Variable valid_utf8 : bstr -> bool.
  Definition one_level := tokenize_one_level grapheme valid_utf8 false.

  (** add_multichar_symbol_head, :56-68. *)
  Definition add_multichar_symbol_head (m : bstr) (t : tokenizer) : res tokenizer :=
    match m with
    | [] => Throw
    | _ => rbind (one_level t m) (fun ts => match ts with [] => Ub | h :: _ => add_multichar_symbol (BACKSLASH ++ h) t end)
    end.
  Fixpoint add_multichar_symbols (ms : list bstr) (t : tokenizer) : res tokenizer :=
    match ms with
    | [] => Ok t
    | m :: ms' => rbind (add_multichar_symbol_head m t) (fun t => rbind (add_multichar_symbol m t) (add_multichar_symbols ms'))
    end.

  (** The constructor, :17-47. *)
  Definition new_tokenizer (ms : list bstr) (eps : bstr) : res tokenizer :=
    rbind (match eps with [] => Ok tok_new | _ => add_multichar_symbol eps tok_new end) (fun t =>
    rbind (add_multichar_symbol (BACKSLASH ++ COL) t) (fun t =>
    rbind (add_multichar_symbol (BACKSLASH ++ SPACE) t) (fun t =>
    rbind (add_multichar_symbol (BACKSLASH ++ BACKSLASH) t) (fun t =>
    rbind (add_multichar_symbol COL_ESCAPE t) (fun t =>
    rbind (add_multichar_symbol TAB_ESCAPE t) (fun t =>
    rbind (add_multichar_symbol SPACE_ESCAPE t) (fun t =>
    rbind (match eps with [] => Ok t | _ => rbind (add_multichar_symbol eps t) (add_multichar_symbol_head eps) end) (fun t =>
    rbind (add_multichar_symbol_head SPACE_ESCAPE t) (add_multichar_symbols ms))))))))).

  (** split_at_spaces, :304-352, after tokenize_one_level: [symbol] is the text gathered so far.  The
      inner loops over further spaces are steps of the recursion with an empty [symbol]. *)
  Fixpoint split_tokens (symbol : bstr) (ts : list bstr) : list bstr :=
    match ts with
    | [] => match symbol with [] => [] | _ => [symbol] end
    | x :: ts' =>
        if bstr_eqb x SPACE then match symbol with [] => split_tokens [] ts' | _ => symbol :: split_tokens [] ts' end
        else if bstr_eqb x COL then match symbol with [] => COL :: split_tokens [] ts' | _ => symbol :: COL :: split_tokens [] ts' end
        else split_tokens (symbol ++ x) ts'
    end.
  Definition split_at_spaces (t : tokenizer) (s : bstr) : res (list bstr) := rmap (split_tokens []) (one_level t s).

  (** make_pair_vector(v), :116-140: a token followed by a colon and another token is the input of a
      pair (is_pair_input_symbol, :234-257). *)
  Definition or_epsilon (eps x : bstr) : bstr := match x with [] => EPSILON_SYMBOL | _ => if bstr_eqb x eps then EPSILON_SYMBOL else x end.
  Definition half (eps x : bstr) : res bstr := match x with [] => Ok EPSILON_SYMBOL | _ => if bstr_eqb x eps then Ok EPSILON_SYMBOL else unescape x end.
  Fixpoint make_pairs (eps : bstr) (ts : list bstr) : res (list (bstr * bstr)) :=
    match ts with
    | [] => Ok []
    | x :: ts' =>
        let single := rbind (unescape x) (fun y => rmap (cons (or_epsilon eps y, or_epsilon eps y)) (make_pairs eps ts')) in
        match ts' with
        | c :: z :: ts'' =>
            if bstr_eqb c COL then rbind (half eps x) (fun i => rbind (half eps z) (fun o => rmap (cons (i, o)) (make_pairs eps ts'')))
            else single
        | _ => single
        end
    end.

  (** make_pair_vector(input, output), :142-183. *)
  Fixpoint zip_pairs (eps : bstr) (xs ys : list bstr) {struct xs} : res (list (bstr * bstr)) :=
    match xs, ys with
    | x :: xs', y :: ys' =>
        rbind (unescape x) (fun i => rbind (unescape y) (fun o => rmap (cons (or_epsilon eps i, or_epsilon eps o)) (zip_pairs eps xs' ys')))
    | [], _ => (fix pad ys := match ys with [] => Ok [] | y :: ys' => rbind (half eps y) (fun o => rmap (cons (EPSILON_SYMBOL, o)) (pad ys')) end) ys
    | x :: xs', [] => rbind (half eps x) (fun i => rmap (cons (i, EPSILON_SYMBOL)) (zip_pairs eps xs' []))
    end.

  (** tokenize_pair_string, :71-88. *)
  Definition tokenize_pair_string (eps : bstr) (t : tokenizer) (s : bstr) (spaces : bool) : res (list (bstr * bstr)) :=
    rbind (if spaces then split_at_spaces t s else rmap (filter (fun x => negb (bstr_eqb x BACKSLASH))) (one_level t s)) (make_pairs eps).

  (** The tokens before and after the first colon. *)
  Fixpoint at_col (ts : list bstr) : option (list bstr * list bstr) :=
    match ts with
    | [] => None
    | x :: ts' => if bstr_eqb x COL then Some ([], ts') else option_map (fun p => (x :: fst p, snd p)) (at_col ts')
    end.
  (** tokenize_string_pair, :90-114. *)
  Definition tokenize_string_pair (eps : bstr) (t : tokenizer) (s : bstr) (spaces : bool) : res (list (bstr * bstr)) :=
    rbind (if spaces then split_at_spaces t s else one_level t s) (fun ts =>
    match at_col ts with
    | None => zip_pairs eps ts ts
    | Some (xs, ys) => zip_pairs eps xs ys
    end).

  (** The text and the weight of a line, hfst-strings2fst.cc:324-361: the text ends at the first tab,
      or else at the line end; the weight stands between the tab and the line end. *)
  Definition eol (c : ascii) : bool := Ascii.eqb c "010"%char || Ascii.eqb c "013"%char.
  Fixpoint until (p : ascii -> bool) (s : bstr) : bstr := match s with [] => [] | c :: s' => if p c then [] else c :: until p s' end.
  Fixpoint after_tab (s : bstr) : option bstr := match s with [] => None | c :: s' => if Ascii.eqb c "009"%char then Some s' else after_tab s' end.
  Definition line_text (line : bstr) : bstr :=
    match after_tab line with None => until eol line | Some _ => until (Ascii.eqb "009"%char) line end.

  (** hfst_strtoweight. *)
  Variable strtoweight : bstr -> Z.
  Definition line_weight (line : bstr) : Z := match after_tab line with None => 0%Z | Some w => strtoweight (until eol w) end.

  (** process_stream, :306-480, with -j (disjunct_strings) and without --norm, --log and --log10.
      [pairstrings] is -p, [spaces] is -S.  An exception ends the program. *)
  Definition line_pairs (pairstrings spaces : bool) (eps : bstr) (t : tokenizer) (line : bstr) : res (list (bstr * bstr)) :=
    if pairstrings then tokenize_pair_string eps t (line_text line) spaces else tokenize_string_pair eps t (line_text line) spaces.
  Fixpoint process_lines (pairstrings spaces : bool) (eps : bstr) (t : tokenizer) (lines : list bstr) (g : graph) : res graph :=
    match lines with
    | [] => Ok g
    | line :: lines' =>
        rbind (line_pairs pairstrings spaces eps t line) (fun spv =>
        rbind (disjunct g spv (line_weight line)) (process_lines pairstrings spaces eps t lines'))
    end.
  Definition strings2fst (pairstrings spaces : bool) (ms : list bstr) (eps : bstr) (lines : list bstr) : res graph :=
    rbind (new_tokenizer ms eps) (fun t => process_lines pairstrings spaces eps t lines empty_graph).
End Strings.
