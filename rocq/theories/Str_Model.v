(** Model of the string utilities: symbol numbering, replace_all, AT&T and prolog
    symbol notation, lexc and xre escapes, lexc alignment, SFST UTF-8 conversion. *)
From Verif Require Import Base.

(** * Symbol numbering: implementations/HfstTropicalTransducerTransitionData.cc *)

(** The three static tables, :41-49.  [unsigned int] is unbounded here. *)
Record numbering := { s2n : list (bstr * nat); n2s : list bstr; max_number : nat }.

(** Static initializers, :252-264 and max_number = 2, :49. *)
Definition numbering_init : numbering :=
  {| s2n := mset bcmp (B "@_IDENTITY_SYMBOL_@") 2 (mset bcmp (B "@_UNKNOWN_SYMBOL_@") 1
              (mset bcmp (B "@_EPSILON_SYMBOL_@") 0 []));
     n2s := [B "@_EPSILON_SYMBOL_@"; B "@_UNKNOWN_SYMBOL_@"; B "@_IDENTITY_SYMBOL_@"];
     max_number := 2 |}.

(** get_symbol, :85-98. *)
Definition get_symbol (t : numbering) (n : nat) : res bstr :=
  match nth_error (n2s t) n with Some s => Ok s | None => Throw end.

(** get_number, :100-124; the failing assert for the empty symbol is Throw. *)
Definition get_number (t : numbering) (s : bstr) : res (numbering * nat) :=
  match s with
  | [] => Throw
  | _ =>
      match mget bcmp s (s2n t) with
      | Some n => Ok (t, n)
      | None =>
          let m := max_number t + 1 in
          Ok ({| s2n := mset bcmp s m (s2n t); n2s := n2s t ++ [s]; max_number := m |}, m)
      end
  end.

(** A history of get_number requests with the numbers returned. *)
Fixpoint requests (t : numbering) (ss : list bstr) : res (numbering * list nat) :=
  match ss with
  | [] => Ok (t, [])
  | s :: r =>
      rbind (get_number t s) (fun '(t1, n) =>
      rbind (requests t1 r) (fun '(t2, ns) => Ok (t2, n :: ns)))
  end.

(** get_harmonization_vector, :55-67: numbers of the symbols, 0 for empty ones. *)
Fixpoint get_harmonization_vector (t : numbering) (ss : list bstr) : res (numbering * list nat) :=
  match ss with
  | [] => Ok (t, [])
  | s :: r =>
      rbind (match s with [] => Ok (t, 0) | _ => get_number t s end) (fun '(t1, n) =>
      rbind (get_harmonization_vector t1 r) (fun '(t2, ns) => Ok (t2, n :: ns)))
  end.

(** get_reverse_harmonization_vector, :69-83. *)
Definition get_reverse_harmonization_vector (t : numbering) (m : list (bstr * nat)) : list nat :=
  map (fun i => match nth_error (n2s t) i with
                | Some s => match mget bcmp s m with Some k => k | None => 0 end
                | None => 0
                end) (seq 0 (max_number t + 1)).

(** * replace_all, string-utils.cc:20-32 *)

(** std::string::find(needle, pos): first position >= pos where needle starts.
    [p] is the current position, [h] the text from there. *)
Fixpoint find_at (needle h : bstr) (p : nat) : option nat :=
  if is_prefix needle h then Some p
  else match h with [] => None | _ :: r => find_at needle r (S p) end.
Definition find_pos (needle h : bstr) (pos : nat) : option nat :=
  if length h <? pos then None else find_at needle (skipn pos h) pos.

(** haystack.replace(pos, len, replacement) *)
Definition splice (h : bstr) (pos len : nat) (r : bstr) : bstr :=
  firstn pos h ++ r ++ skipn (pos + len) h.

(** The while loop, :26-30; the fuel only bounds the number of iterations. *)
Fixpoint replace_loop (fuel : nat) (needle repl h : bstr) (last : option nat) : res bstr :=
  match last with
  | None => Ok h
  | Some p =>
      match fuel with
      | 0 => Diverge
      | S f =>
          let h' := splice h p (length needle) repl in
          replace_loop f needle repl h' (find_pos needle h' (p + length repl))
      end
  end.
(** An iteration consumes at least one byte of the original text, so length h + 1
    iterations are enough unless the needle is empty (then the loop is endless and
    the model says Diverge). *)
Definition replace_all (h needle repl : bstr) : res bstr :=
  replace_loop (S (length h)) needle repl h (find_pos needle h 0).

(** Successive calls of replace_all on the same string. *)
Fixpoint replaces (rs : list (bstr * bstr)) (s : bstr) : res bstr :=
  match rs with
  | [] => Ok s
  | (n, r) :: rest => rbind (replace_all s n r) (replaces rest)
  end.

(** * AT&T symbols: implementations/HfstBasicTransducer.cc *)
Definition tab : ascii := "009"%char.
(** write_in_att_format, :1554-1562. *)
Definition att_escape (s : bstr) : res bstr :=
  replaces [(B " ", B "@_SPACE_@"); (B "@_EPSILON_SYMBOL_@", B "@0@"); ([tab], B "@_TAB_@")] s.
(** add_att_line, :1759-1769, followed by the epsilon_symbol comparison, :1771-1774. *)
Definition att_unescape (s : bstr) : res bstr :=
  replaces [(B "@_SPACE_@", B " "); (B "@0@", B "@_EPSILON_SYMBOL_@"); (B "@_TAB_@", [tab]);
            (B "@_COLON_@", B ":")] s.
Definition att_read_symbol (epsilon_symbol s : bstr) : res bstr :=
  rmap (fun x => if bstr_eqb epsilon_symbol x then B "@_EPSILON_SYMBOL_@" else x) (att_unescape s).

(** * Prolog symbols: implementations/HfstBasicTransducer.cc *)
Definition bsl : ascii := "\"%char.
Definition dq : ascii := "034"%char.
(** prologize_symbol, :876-894. *)
Definition prologize_symbol (s : bstr) : res bstr :=
  if bstr_eqb s (B "0") then Ok (B "%0")
  else if bstr_eqb s (B "?") then Ok (B "%?")
  else if bstr_eqb s (B "@_EPSILON_SYMBOL_@") then Ok (B "0")
  else if bstr_eqb s (B "@_UNKNOWN_SYMBOL_@") then Ok (B "?")
  else if bstr_eqb s (B "@_IDENTITY_SYMBOL_@") then Ok (B "?")
  else replaces [([bsl], [bsl; bsl]); ([dq], [bsl; dq])] s.
(** deprologize_symbol, :897-914. *)
Definition deprologize_symbol (s : bstr) : res bstr :=
  if bstr_eqb s (B "%0") then Ok (B "0")
  else if bstr_eqb s (B "%?") then Ok (B "?")
  else if bstr_eqb s (B "0") then Ok (B "@_EPSILON_SYMBOL_@")
  else if bstr_eqb s (B "?") then Ok (B "@_UNKNOWN_SYMBOL_@")
  else replaces [([bsl; dq], [dq]); ([bsl; bsl], [bsl])] s.

(** print_prolog_arc_symbols, :916-946: the text of the arc's symbols. *)
Definition print_prolog_arc_symbols (i o : bstr) : res bstr :=
  rbind (prologize_symbol i) (fun si =>
  if negb (bstr_eqb i o) || bstr_eqb i (B "@_UNKNOWN_SYMBOL_@")
  then rmap (fun so => [dq] ++ si ++ [dq] ++ B ":" ++ [dq] ++ so ++ [dq]) (prologize_symbol o)
  else Ok ([dq] ++ si ++ [dq])).

(** get_positions_of_unescaped_char for the double quote with escape backslash, :1113-1131; [prev] is str[i-1]. *)
Fixpoint quote_positions (s : bstr) (i : nat) (prev : option ascii) : list nat :=
  match s with
  | [] => []
  | c :: r =>
      let rest := quote_positions r (S i) (Some c) in
      if Ascii.eqb c dq then
        match prev with
        | Some p => if Ascii.eqb p bsl then rest else i :: rest
        | None => i :: rest
        end
      else rest
  end.

Definition slice (s : bstr) (a b : nat) : bstr := firstn (b - a - 1) (skipn (a + 1) s).

(** get_prolog_arc_symbols, :1138-1201: None for "false". *)
Definition get_prolog_arc_symbols (s : bstr) : res (option (bstr * bstr)) :=
  match quote_positions s 0 None with
  | [a; b] =>
      if negb (a =? 0) || negb (b =? length s - 1) then Ok None
      else rmap (fun x => let x' := if bstr_eqb x (B "@_UNKNOWN_SYMBOL_@")
                                    then B "@_IDENTITY_SYMBOL_@" else x in Some (x', x'))
                (deprologize_symbol (slice s a b))
  | [a; b; c; d] =>
      if negb (a =? 0) || negb (d =? length s - 1) then Ok None
      else if negb (c - b =? 2) then Ok None
      else if negb (match nth_error s (b + 1) with Some x => Ascii.eqb x ":" | None => false end)
      then Ok None
      else rbind (deprologize_symbol (slice s a b)) (fun x =>
           rmap (fun y => Some (x, y)) (deprologize_symbol (slice s c d)))
  | _ => Ok None
  end.

(** * lexc escapes: parsers/lexc-utils.cc *)
(** stripPercents, :56-64. *)
Definition stripPercents (s : bstr) : res bstr :=
  replaces [(B "%%", B "@PERCENT@"); (B "%", B ""); (B "@PERCENT@", B "%")] s.
(** addPercents, :66-74. *)
Definition addPercents (s : bstr) : res bstr :=
  replaces [(B "%", B "%%"); (B "<", B "%<"); (B ">", B "%>")] s.

(** Name codes, lexc-utils.h:36-44 and lexc-utils.cc:76-141. *)
Definition JOINER_START := B "$_LEXC_JOINER.".
Definition JOINER_END := B "_$".
Definition REG_EX_START := B "$_REG.".
Definition flagJoinerEncode (s : bstr) (left : bool) : bstr :=
  (if left then B "$R.LEXNAME." else B "$P.LEXNAME.") ++ s ++ B "$".
Definition joinerEncode (s : bstr) : bstr := JOINER_START ++ s ++ JOINER_END.
Definition regExpresionEncode (s : bstr) : bstr := REG_EX_START ++ s ++ JOINER_END.
Definition xreDefinitionEncode (s : bstr) : bstr := B "@_LEXC_DEFINITION." ++ s ++ B "_@".
(** joinerDecode / regExpresionDecode, :103-112 and :123-132: the assert is Throw;
    substr throws when its start is beyond the end, and the size_t subtraction wraps
    to a huge count (= the rest of the string) when negative. *)
Definition decode_name (start : bstr) (s : bstr) : res bstr :=
  if length s <? 4 then Throw
  else if length s <? length start then Throw
  else if length s <? length start + length JOINER_END then Ok (skipn (length start) s)
  else Ok (firstn (length s - (length start + length JOINER_END)) (skipn (length start) s)).
Definition joinerDecode := decode_name JOINER_START.
Definition regExpresionDecode := decode_name REG_EX_START.

(** replace_zero, :143-155: only the first occurrence. *)
Definition replace_zero (s : bstr) : bstr :=
  match find_pos (B "@ZERO@") s 0 with
  | Some p => splice s p (length (B "@ZERO@")) (B "0")
  | None => s
  end.

(** strip_percents, :274-399.  [cap] is the number of bytes allocated, [out] what has
    been written to rv so far: a write beyond the allocation is Ub.  The warnings
    are left out.  The result None is NULL. *)
Definition put (cap : nat) (out : bstr) (x : bstr) : res bstr :=
  if length out + length x <=? cap then Ok (out ++ x) else Ub.

Fixpoint strip_loop (do_zeros : bool) (cap : nat) (s out : bstr) (escaping in_at : bool) : res (option bstr) :=
  match s with
  | [] =>
      rbind (put cap out ["000"%char]) (fun _ => Ok (if escaping then None else Some out))
  | c :: r =>
      if in_at then
        rbind (put cap out [c]) (fun o => strip_loop do_zeros cap r o escaping (negb (Ascii.eqb c "@")))
      else if escaping then
        if negb (Ascii.eqb c "0")
        then rbind (put cap out [c]) (fun o => strip_loop do_zeros cap r o false in_at)
        else rbind (put cap out (B "@ZERO@")) (fun o => strip_loop do_zeros cap r o false in_at)
      else if Ascii.eqb c "%" then strip_loop do_zeros cap r out true in_at
      else if Ascii.eqb c "@" then
        rbind (put cap out [c]) (fun o => strip_loop do_zeros cap r o escaping true)
      else if do_zeros && Ascii.eqb c "0" then
        rbind (put cap out (B "@0@")) (fun o => strip_loop do_zeros cap r o escaping in_at)
      else rbind (put cap out [c]) (fun o => strip_loop do_zeros cap r o escaping in_at)
  end.
Definition strip_percents_capacity (do_zeros : bool) (s : bstr) : nat :=
  if do_zeros then length s * 3 + 1 else (length s / 2 + 1) * 6 + 1.
Definition lexc_strip_percents (do_zeros : bool) (s : bstr) : res (option bstr) :=
  strip_loop do_zeros (strip_percents_capacity do_zeros s) s [] false false.

(** isspace in the C locale: 9-13 and 32 (bytes >= 128 are not spaces there). *)
Definition isspace (c : ascii) : bool :=
  let n := nat_of_ascii c in ((9 <=? n) && (n <=? 13)) || (n =? 32).

(** strstrip, lexc-utils.cc:401-431 = xfst-utils.cc:157-187.  [buf] is rv with its
    terminator; [trim_end p1] runs the last loop with p = p1 - 1, so that p1 = 0
    means the address before the buffer: reading it is Ub. *)
Fixpoint skip_space (s : bstr) : bstr :=
  match s with c :: r => if isspace c then skip_space r else s | [] => [] end.
Fixpoint trim_end (p1 : nat) (buf : bstr) : res bstr :=
  match p1 with
  | 0 => Ub
  | S p =>
      match nth_error buf p with
      | None => Ub
      | Some c => if isspace c then trim_end p (upd p "000"%char buf) else Ok buf
      end
  end.
(** The C string starting at rv. *)
Fixpoint c_string (buf : bstr) : bstr :=
  match buf with [] => [] | c :: r => if Ascii.eqb c "000"%char then [] else c :: c_string r end.
Definition strstrip (s : bstr) : res bstr :=
  match s with
  | [] => Ok []
  | _ =>
      let t := skip_space s in
      rmap c_string (trim_end (length t) (t ++ ["000"%char]))
  end.

(** strdup_nonconst_part, lexc-utils.cc:433-481 and xfst-utils.cc:200-232; a missing
    prefix or suffix (NULL) is the empty string; failing asserts are Throw.  When
    prefix and suffix together are longer than the token, the size_t subtraction
    wraps and the first assert fails. *)
Definition strdup_nonconst_part (token prefix suffix : bstr) (strip : bool) : res bstr :=
  if length token <? length prefix + length suffix then Throw
  else
    let v := length token - length prefix - length suffix in
    if negb (is_prefix prefix token) then Throw
    else if negb (is_prefix suffix (skipn (length prefix + v) token)) then Throw
    else
      let part := firstn v (skipn (length prefix) token) in
      if strip then strstrip part else Ok part.

(** Token positions, lexc-utils.cc:159-215: (first_line, last_line, first_column,
    last_column); int is unbounded.  The FIXME of the code (columns are bytes) is kept. *)
Record position := { first_line : nat; last_line : nat; first_column : nat; last_column : nat }.
Definition token_reset_positions : position :=
  {| first_line := 1; last_line := 1; first_column := 1; last_column := 1 |}.
Definition newline : ascii := "010"%char.
Fixpoint count_newlines (s : bstr) : nat :=
  match s with [] => 0 | c :: r => (if Ascii.eqb c newline then 1 else 0) + count_newlines r end.
(** bytes after the last newline *)
Fixpoint last_line_length (s : bstr) : nat :=
  match s with
  | [] => 0
  | c :: r => if count_newlines r =? 0 then (if Ascii.eqb c newline then length r else S (length r))
              else last_line_length r
  end.
Definition token_update_positions (token : bstr) (l : position) : position :=
  let n := count_newlines token in
  {| first_line := last_line l; last_line := last_line l + n;
     first_column := last_column l + 1;
     last_column := if n =? 0 then last_column l + 1 + length token
                    else last_line_length token |}.
Definition positions_after (tokens : list bstr) : position :=
  fold_left (fun l t => token_update_positions t l) tokens token_reset_positions.

(** * xre escapes: parsers/xre_utils.cc *)
(** strip_percents, :308-338 (the buffer has strlen+1 bytes). *)
Fixpoint xre_strip_percents (s : bstr) : bstr :=
  match s with
  | [] => []
  | c :: r =>
      if Ascii.eqb c "%" then
        match r with [] => [] | d :: r' => d :: xre_strip_percents r' end
      else c :: xre_strip_percents r
  end.
(** add_percents, :340-363. *)
Definition xre_needs_percent (c : ascii) : bool :=
  existsb (Ascii.eqb c) (B "@- |!:;0\&?$+*/_(){}[]").
Fixpoint xre_add_percents (s : bstr) : bstr :=
  match s with
  | [] => []
  | c :: r => (if xre_needs_percent c then ["%"%char; c] else [c]) ++ xre_add_percents r
  end.
(** strip_curly, :275-305; [first] is i == 0. *)
Fixpoint strip_curly_loop (s : bstr) (first : bool) : bstr :=
  match s with
  | [] => []
  | c :: r =>
      if (Ascii.eqb c "{" && first) || (Ascii.eqb c "}" && match r with [] => true | _ => false end) then
        match r with [] => [] | d :: r' => d :: strip_curly_loop r' false end
      else c :: strip_curly_loop r false
  end.
Definition strip_curly (s : bstr) : bstr := strip_curly_loop s true.

(** escape_enclosing_angle_brackets, :520-538 (on the empty string s[0] is the NUL, so
    it is returned unchanged). *)
Definition escape_enclosing_angle_brackets (s : bstr) : bstr :=
  match s with
  | c :: _ =>
      if negb (Ascii.eqb c "<") then s
      else if negb (Ascii.eqb (last s c) ">") then s
      else B "@_" ++ s ++ B "_@"
  | [] => s
  end.
(** insert_angle_bracket_substitutions, :507-518: the replacement inserted, if any. *)
Definition angle_bracket_substitution (s : bstr) : option bstr :=
  if length s <? 6 then None
  else if bstr_eqb (firstn 3 s) (B "@_<") && bstr_eqb (skipn (length s - 3) s) (B ">_@")
  then Some (firstn (length s - 4) (skipn 2 s)) else None.

(** The escape loop of parse_quoted, :375-503, on the quoted part.  p moves by 5
    after an octal escape and by 6 after \u: leaving the string is Ub.  \x calls strtol in
    base 10, which skips white space and reads a sign and digits; its value and end
    are an argument of the model.  The result is the bytes written to rv.  A
    newline throws.  Fuel: every step consumes a byte. *)
Section ParseQuoted.
  (** strtol s = (value, number of bytes consumed) *)
  Variable strtol : bstr -> Z * nat.
  Definition is_octal (c : ascii) : bool :=
    existsb (Ascii.eqb c) (B "01234567").
  Fixpoint parse_quoted_loop (fuel : nat) (s : bstr) : res bstr :=
    match s with
    | [] => Ok []
    | c :: r =>
        match fuel with
        | 0 => Diverge
        | S f =>
            if Ascii.eqb c newline || Ascii.eqb c "013"%char then Throw
            else if negb (Ascii.eqb c bsl) then rmap (cons c) (parse_quoted_loop f r)
            else match r with
            | [] => Ok ["000"%char]     (* "End of line": *r = 0, then the loop ends *)
            | d :: r' =>
                if is_octal d then
                  if length s <? 5 then Ub else parse_quoted_loop f (skipn 5 s)
                else if Ascii.eqb d "a" then rmap (cons "007"%char) (parse_quoted_loop f r')
                else if Ascii.eqb d "b" then rmap (cons "008"%char) (parse_quoted_loop f r')
                else if Ascii.eqb d "f" then rmap (cons "012"%char) (parse_quoted_loop f r')
                else if Ascii.eqb d "n" then rmap (cons "010"%char) (parse_quoted_loop f r')
                else if Ascii.eqb d "r" then rmap (cons "013"%char) (parse_quoted_loop f r')
                else if Ascii.eqb d "t" then rmap (cons "009"%char) (parse_quoted_loop f r')
                else if Ascii.eqb d "u" then
                  if length s <? 6 then Ub else rmap (cons "000"%char) (parse_quoted_loop f (skipn 6 s))
                else if Ascii.eqb d "v" then rmap (cons "011"%char) (parse_quoted_loop f r')
                else if Ascii.eqb d "x" then
                  let '(v, k) := strtol r' in
                  let byte := if ((0 <? v) && (v <=? 127))%Z then ascii_of_N (Z.to_N v) else "000"%char in
                  rmap (cons byte) (parse_quoted_loop f (skipn k r'))
                else rmap (cons d) (parse_quoted_loop f r')
            end
        end
    end.
  Definition parse_quoted (s : bstr) : res bstr := parse_quoted_loop (length s) s.
End ParseQuoted.

(** * Minimum edit distance alignment, parsers/lexc-utils.cc:559-656 *)
Inductive dir := START | SUBSTITUTE | DELETE | INSERT.
Section Med.
  Variables s1 s2 : list bstr.
  (** The tables d and dir, :566-623, as functions of the indices i and j (every cell
      depends only on cells filled before it). int is unbounded. *)
  Fixpoint cell (i : nat) : nat -> nat * dir :=
    match i with
    | 0 => fun j => (j, match j with 0 => START | _ => INSERT end)
    | S i' =>
        fix row (j : nat) : nat * dir :=
          match j with
          | 0 => (S i', DELETE)
          | S j' =>
              let sub := fst (cell i' j') + (if bstr_eqb (nth i' s1 []) (nth j' s2 []) then 0 else 100) in
              let ins := fst (row j') + 1 in
              let del := fst (cell i' j) + 1 in
              if (sub <=? ins) && (sub <=? del) then (sub, SUBSTITUTE)
              else if (del <=? sub) && (del <=? ins) then (del, DELETE)
              else (ins, INSERT)
          end
    end.
  Definition EPSILON_ : bstr := B "@@ANOTHER_EPSILON@@".
  (** The backtrace, :628-650, collected in forward order (the code pushes back and
      reverses). *)
  Fixpoint backtrace (fuel x y : nat) : res (list (bstr * bstr)) :=
    if (x =? 0) && (y =? 0) then Ok []
    else match fuel with
    | 0 => Diverge
    | S f =>
        match snd (cell x y) with
        | SUBSTITUTE =>
            match x, y with
            | S x', S y' => rmap (fun l => l ++ [(nth x' s1 [], nth y' s2 [])]) (backtrace f x' y')
            | _, _ => Ub
            end
        | INSERT =>
            match y with
            | S y' => rmap (fun l => l ++ [(EPSILON_, nth y' s2 [])]) (backtrace f x y')
            | 0 => Ub
            end
        | _ =>
            match x with
            | S x' => rmap (fun l => l ++ [(nth x' s1 [], EPSILON_)]) (backtrace f x' y)
            | 0 => Ub
            end
        end
    end.
  Definition find_med_alingment : res (list bstr * list bstr) :=
    rmap (fun l => (map fst l, map snd l)) (backtrace (length s1 + length s2) (length s1) (length s2)).
End Med.

(** * SFST UTF-8: parsers/SfstUtf8.cc *)
(** int2utf8, :48-87: the bytes before the terminator, None for NULL. *)
Definition int2utf8 (n : N) : option bstr :=
  (if n <? 128 then Some [ascii_of_N n]
   else if n <? 2048 then
     Some [ascii_of_N (N.lor (N.shiftr n 6) 192); ascii_of_N (N.lor (N.land n 63) 128)]
   else if n <? 65536 then
     Some [ascii_of_N (N.lor (N.shiftr n 12) 224);
           ascii_of_N (N.lor (N.land (N.shiftr n 6) 63) 128);
           ascii_of_N (N.lor (N.land n 63) 128)]
   else if n <? 2097152 then
     Some [ascii_of_N (N.lor (N.shiftr n 18) 240);
           ascii_of_N (N.lor (N.land (N.shiftr n 12) 63) 128);
           ascii_of_N (N.lor (N.land (N.shiftr n 6) 63) 128);
           ascii_of_N (N.lor (N.land n 63) 128)]
   else None)%N.

(** utf8toint, :96-144: the value and the remaining text; an error returns 0 with the
    pointer left where it was.  The end of the list is the NUL terminator. *)
Definition byte_at (s : bstr) : N := match s with [] => 0%N | c :: _ => N_of_ascii c end.
Fixpoint continuation (k : nat) (result : N) (s : bstr) : N * bstr :=
  (* s is the text at *s, which still points to the previous byte *)
  match k with
  | 0 => (result, tl s)
  | S k' =>
      let s' := tl s in
      let c := byte_at s' in
      if ((c <? 192) && (128 <=? c))%N
      then continuation k' (N.lor (N.shiftl result 6) (N.land c 63)) s'
      else (0%N, s')
  end.
Definition utf8toint (s : bstr) : N * bstr :=
  let c := byte_at s in
  (if 240 <=? c then continuation 3 (N.land c 7) s
   else if 224 <=? c then continuation 2 (N.land c 15) s
   else if 192 <=? c then continuation 1 (N.land c 31) s
   else if c <? 128 then continuation 0 c s
   else (0, s))%N.
