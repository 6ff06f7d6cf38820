(** Model of hfst-proc, tools/src/hfst-proc: the token buffer (buffer.h), the symbol trie
    (alphabet.cc), the token stream (tokenizer.cc), the analysis of running text
    (applicators.cc) and the output formats (formatter.cc).

    Simplifications: a superblank token holds its text instead of its index in the bucket;
    std::ios_base::failure (stream_error) is [Throw]; debugging output is left out.  The
    lookup state is a parameter [machine]: its states, the effect of a symbol, whether it
    has active paths, whether one is final, and the strings made of the final paths.  Which
    characters are letters (the ICU calls) is a parameter too.  The vectors of 255 cells
    indexed by a byte are association lists; the byte 255 is out of bounds ([Ub]). *)
From Verif Require Import Base.

(** tokenizer.h:28-50. *)
Inductive token :=
| TNone | TSym (s : nat) (escaped : bool) | TChar (c : bstr) | TBlank (text : bstr) | TRes (c : ascii).

(** * The circular buffer, buffer.h *)
Record buffer := Buffer { size : nat; cells : list token; currentpos : nat; lastpos : nat }.
(** The constructor, :74-83 (the size is not zero). *)
Definition new_buffer (n : nat) : buffer := Buffer n (repeat TNone n) 0 0.
Fixpoint update {A} (i : nat) (v : A) (l : list A) : list A :=
  match l, i with
  | [], _ => []
  | _ :: r, 0 => v :: r
  | x :: r, S j => x :: update j v r
  end.
(** get, :188-191. *)
Definition b_get (b : buffer) (i : nat) : res token := match nth_error (cells b) i with Some t => Ok t | None => Ub end.
(** add, :119-128. *)
Definition b_add (b : buffer) (v : token) : buffer :=
  let p := if lastpos b =? size b then 0 else lastpos b in
  Buffer (size b) (update p v (cells b)) (S p) (S p).
(** last, :171-181. *)
Definition b_last (b : buffer) : res token := b_get b (if lastpos b =? 0 then size b - 1 else lastpos b - 1).
(** next, :151-165. *)
Definition b_next (b : buffer) : res (token * buffer) :=
  if currentpos b =? lastpos b then rmap (fun t => (t, b)) (b_last b)
  else let c := if currentpos b =? size b then 0 else currentpos b in
       rmap (fun t => (t, Buffer (size b) (cells b) (S c) (lastpos b))) (b_get b c).
(** isEmpty, :251-254. *)
Definition b_empty (b : buffer) : bool := currentpos b =? lastpos b.
(** back, :260-270; a position beyond the buffer is not used. *)
Definition b_back (b : buffer) (k : nat) : res buffer :=
  if k <? currentpos b then Ok (Buffer (size b) (cells b) (currentpos b - k) (lastpos b))
  else if size b <? k - currentpos b then Ub
  else Ok (Buffer (size b) (cells b) (size b - (k - currentpos b)) (lastpos b)).
(** diffPrevPos, :217-227. *)
Definition b_diff_prev (b : buffer) (prev : nat) : nat :=
  if prev <=? currentpos b then currentpos b - prev else currentpos b + size b - prev.

(** * The symbol trie, alphabet.cc *)
Definition byte255 : ascii := ascii_of_nat 255.
Definition aget {V} (c : ascii) (l : list (ascii * V)) : option V := mget acmp c l.
Inductive trie := Trie (letters : list (ascii * trie)) (symbols : list (ascii * nat)).
Definition letters (t : trie) := match t with Trie l _ => l end.
Definition symbols (t : trie) := match t with Trie _ s => s end.
(** LetterTrie::add_string, :44-56. *)
Fixpoint add_string (p : bstr) (key : nat) (t : trie) : trie :=
  match p with
  | [] => t
  | [c] => Trie (letters t) (mset acmp c key (symbols t))
  | c :: r =>
      let sub := match aget c (letters t) with Some u => u | None => Trie [] [] end in
      Trie (mset acmp c (add_string r key sub) (letters t)) (symbols t)
  end.
(** LetterTrie::extract_symbol, :70-92: the number ([None] is NO_SYMBOL_NUMBER, 0 the end of
    the stream) and the rest of the stream, bytes put back included. *)
Fixpoint trie_extract (t : trie) (s : bstr) : res (option nat * bstr) :=
  match s with
  | [] => Ok (Some 0, [])
  | c :: r =>
      if Ascii.eqb c byte255 then Ub
      else
        let here r' := match aget c (symbols t) with Some k => Ok (Some k, r') | None => Ok (None, c :: r') end in
        match aget c (letters t) with
        | None => here r
        | Some u => rbind (trie_extract u r) (fun '(k, r') => match k with Some k => Ok (Some k, r') | None => here r' end)
        end
  end.
(** Symbolizer, :96-117 and :138-147. *)
Record symbolizer := Symbolizer { strie : trie; ascii_symbols : list (ascii * nat); symbol_count : nat }.
Definition add_symbol (z : symbolizer) (p : bstr) : symbolizer :=
  match p with
  | [] => Symbolizer (strie z) (ascii_symbols z) (S (symbol_count z))
  | c :: r =>
      Symbolizer (add_string p (symbol_count z) (strie z))
        (match aget c (ascii_symbols z) with
         | Some 0 => ascii_symbols z
         | _ => mset acmp c (match r with [] => symbol_count z | _ => 0 end) (ascii_symbols z)
         end) (S (symbol_count z))
  end.
Definition add_symbols (names : list bstr) : symbolizer := fold_left add_symbol names (Symbolizer (Trie [] []) [] 0).
Definition NUL : ascii := ascii_of_nat 0.
Definition extract_symbol (z : symbolizer) (s : bstr) : res (option nat * bstr) :=
  match s with
  | [] => Ub
  | c :: r =>
      if Ascii.eqb c NUL then Ok (None, s)
      else if Ascii.eqb c byte255 then Ub
      else match aget c (ascii_symbols z) with
           | None | Some 0 => trie_extract (strie z) s
           | Some k => Ok (Some k, r)
           end
  end.

(** ProcTransducerAlphabet, alphabet.h:145-276: the symbol table, whether each symbol is
    alphabetic, whether a character is (:209-213), the blank symbol and the symbolizer. *)
Record alphabet := Alphabet { table : list bstr; alphabetic : list bool; char_alphabetic : bstr -> bool; blank_symbol : nat; symb : symbolizer }.
Definition symbol_to_string (a : alphabet) (k : nat) : bstr := nth k (table a) [].
(** is_tag, alphabet.cc:488-500. *)
Definition is_tag (a : alphabet) (k : nat) : bool :=
  match symbol_to_string a k with
  | [] => false
  | c :: r => (Ascii.eqb c "<"%char && Ascii.eqb (last (c :: r) NUL) ">"%char) || (Ascii.eqb c "+"%char && (1 <? length (c :: r)))
  end.

(** * The token stream, tokenizer.cc *)
(** The options null_flush and is_raw. *)
Record config := Config { alph : alphabet; null_flush : bool; raw : bool }.
(** escaped_chars, :38-51; empty for raw streams (:31-34). *)
Definition reserved_chars : list ascii := B "[]{}^$/\@<>".
Definition escaped_char (g : config) (c : ascii) : bool := if raw g then false else existsb (Ascii.eqb c) reserved_chars.
(** The input: the bytes left, and whether the failbit is set without the eofbit. *)
Record istream := IS { bytes : bstr; bad : bool }.
(** read_utf8_char, :107-132: get(s, n, NUL) takes bytes up to a NUL and sets the failbit if
    there are none. *)
Definition utf8_length (c : ascii) : option nat :=
  let n := N_of_ascii c in
  if (n <=? 127)%N then Some 1 else if (240 <=? n)%N then Some 4 else if (224 <=? n)%N then Some 3
  else if (192 <=? n)%N then Some 2 else None.
Fixpoint take_until_nul (n : nat) (s : bstr) : bstr * bstr :=
  match n, s with
  | S m, c :: r => if Ascii.eqb c NUL then ([], s) else let '(x, y) := take_until_nul m r in (c :: x, y)
  | _, _ => ([], s)
  end.
Definition read_utf8_char (s : bstr) : res (bstr * istream) :=
  match s with
  | [] => Ok ([], IS [] false)
  | c :: _ =>
      match utf8_length c with
      | None => Throw
      | Some n => let '(x, r) := take_until_nul n s in Ok (x, IS r (match x with [] => true | _ => false end))
      end
  end.
(** read_escaped, :178-187. *)
Definition read_escaped (g : config) (s : bstr) : res (ascii * bstr) :=
  match s with c :: r => if escaped_char g c then Ok (c, r) else Throw | [] => Throw end.
(** The loop of read_delimited, :215-226: what is read, what is flushed, the last byte. *)
Definition flushed (g : config) (c : ascii) : bstr := if null_flush g && Ascii.eqb c NUL then [NUL] else [].
Fixpoint delimited_loop (fuel : nat) (g : config) (delim : ascii) (s : bstr) : res (bstr * bstr * option ascii * bstr) :=
  match fuel with
  | 0 => Diverge
  | S f =>
      match s with
      | [] => Ok ([], [], None, [])
      | c :: r =>
          let cont esc r :=
            if Ascii.eqb c delim then Ok (c :: esc, flushed g c, Some c, r)
            else rbind (delimited_loop f g delim r) (fun '(x, o, e, r') => Ok (c :: esc ++ x, flushed g c ++ o, e, r')) in
          if Ascii.eqb c "\"%char then rbind (read_escaped g r) (fun '(d, r) => cont [d] r) else cont [] r
      end
  end.
(** read_delimited, :189-249: the text read and the bytes flushed meanwhile. *)
Definition read_delimited (g : config) (delim : ascii) (s : bstr) : res (bstr * bstr * bstr) :=
  match s with
  | [] => Throw
  | c :: r =>
      rbind (if Ascii.eqb c "\"%char then rbind (read_escaped g r) (fun '(d, r) => Ok ([d], r)) else Ok ([], r)) (fun '(esc, r) =>
      let o := flushed g c in
      let wblank := Ascii.eqb c "["%char && match r with d :: _ => Ascii.eqb d "["%char | [] => false end in
      rbind (if Ascii.eqb c delim then Ok ([], [], Some c, r) else delimited_loop (S (length r)) g delim r) (fun '(x, o2, e, r) =>
      let result := c :: esc ++ x in
      if wblank then
        match r with
        | d :: r => if Ascii.eqb d delim then Ok (result ++ [d], o ++ o2, r) else Throw
        | [] => Throw
        end
      else match e with
           | Some d => if Ascii.eqb d delim then Ok (result, o ++ o2, r) else Throw
           | None => Throw
           end))
  end.
(** make_token, :251-288.  A character token holds at most four bytes. *)
Definition make_token (g : config) (was_escaped : bool) (s : bstr) : res (token * bstr * istream) :=
  rbind (extract_symbol (symb (alph g)) s) (fun '(k, r) =>
  match k with
  | Some 0 => Ok (TNone, [], IS r false)
  | Some k => Ok (TSym k was_escaped, [], IS r false)
  | None =>
      rbind (read_utf8_char r) (fun '(ch, is) =>
      let o := if null_flush g && match ch with [] => true | _ => false end then [NUL] else [] in
      Ok (if was_escaped then TChar (firstn 4 ch)
          else match ch with c :: _ => if escaped_char g c then TRes c else TChar (firstn 4 ch) | [] => TChar [] end, o, is))
  end).
(** read_token, :290-330; after a failed read without eofbit the next byte is EOF, which the
    symbolizer uses as an index. *)
Definition read_token (g : config) (is : istream) : res (token * bstr * istream) :=
  if bad is then Ub
  else
    match bytes is with
    | [] => Ok (TNone, [], is)
    | c :: r =>
        if Ascii.eqb c NUL && null_flush g then Ok (TChar [], [NUL], IS r false)
        else if escaped_char g c then
          if Ascii.eqb c "["%char then rbind (read_delimited g "]"%char (bytes is)) (fun '(x, o, r) => Ok (TBlank x, o, IS r false))
          else if Ascii.eqb c "\"%char then make_token g true r
          else if Ascii.eqb c "<"%char then
            rbind (make_token g false (bytes is)) (fun '(t, o, r) =>
            match t with
            | TSym k _ => if is_tag (alph g) k then Ok (t, o, r) else Ok (TRes c, o, r)
            | _ => Ok (TRes c, o, r)
            end)
          else Ok (TRes c, [], IS r false)
        else make_token g false (bytes is)
    end.
(** to_symbol, :332-347. *)
Definition to_symbol (a : alphabet) (t : token) : option nat :=
  match t with TSym k _ => Some k | TBlank _ => Some (blank_symbol a) | _ => None end.
(** is_alphabetic, :150-164. *)
Definition is_alphabetic (a : alphabet) (t : token) : bool :=
  let other := match t with TChar c => char_alphabetic a c | _ => false end in
  match to_symbol a t with
  | Some 0 | None => other
  | Some k => nth k (alphabetic a) false
  end.
(** escape, :357-368; token_to_string and tokens_to_string without the raw argument, :401-436. *)
Definition escape (g : config) (s : bstr) : bstr := flat_map (fun c => if escaped_char g c then ["\"%char; c] else [c]) s.
Definition token_to_string (g : config) (t : token) : bstr :=
  match t with
  | TSym k e => (if e then ["\"%char] else []) ++ symbol_to_string (alph g) k
  | TChar c => escape g c
  | TBlank x => x
  | TRes c => [c]
  | TNone => []
  end.
Definition tokens_to_string (g : config) (l : list token) : bstr := flat_map (token_to_string g) l.
(** The stream: input, token buffer, what has been written. *)
Record io := IO { input : istream; tb : buffer; out : bstr }.
Definition new_io (text : bstr) : io := IO (IS text false) (new_buffer 1024) [].
Definition put (s : bstr) (x : io) : io := IO (input x) (tb x) (out x ++ s).
(** get_token, :370-380. *)
Definition get_token (g : config) (x : io) : res (token * io) :=
  if b_empty (tb x) then
    rbind (read_token g (input x)) (fun '(t, o, is) =>
    Ok (t, IO is (match t with TNone => tb x | _ => b_add (tb x) t end) (out x ++ o)))
  else rmap (fun '(t, b) => (t, IO (input x) b (out x))) (b_next (tb x)).
(** move_back and at, tokenizer.h:231-250. *)
Definition move_back (x : io) (k : nat) : res io := rmap (fun b => IO (input x) b (out x)) (b_back (tb x) k).
Definition get_pos (x : io) : nat := currentpos (tb x).

(** * Analysis, applicators.cc *)
(** LookupState (lookup-state.h) as it is used here: reset, step, is_active, is_final, and
    process_finals of get_finals_set with the capitalisation of the surface form. *)
Record machine := Machine {
  mstate : Type; reset : mstate; mstep : mstate -> option nat -> mstate;
  is_active : mstate -> bool; is_final : mstate -> bool; finals : mstate -> list token -> list bstr }.
Arguments reset {_}. Arguments mstep {_}. Arguments is_active {_}. Arguments is_final {_}. Arguments finals {_}.
(** OutputFormatter, formatter.h. *)
Record formatter := Formatter { preserve_nonalphabetic : bool; print_word : list token -> list bstr -> bstr; print_unknown_word : list token -> bstr }.

Section Analysis.
  Variable g : config.
  Variable M : machine.
  Variable F : formatter.
  Let alpha := is_alphabetic (alph g).

  (** :123-149: remember the analyses at a word boundary. *)
  Definition record_finals (x : io) (st : mstate M) (loc : nat) (surface : list token) (found : list bstr) : res (nat * list bstr) :=
    if (0 <? length surface) && is_final st then
      (if get_pos x <? 2 then Ub else rbind (b_get (tb x) (get_pos x - 2)) (fun prev =>
       rbind (if alpha prev then rmap (fun t => negb (alpha t)) (b_get (tb x) (get_pos x - 1)) else Ok true) (fun boundary =>
       if boundary then Ok (get_pos x - 1, finals st surface) else Ok (loc, found))))
    else Ok (loc, found).
  (** The loop :181-186. *)
  Fixpoint gather (fuel : nat) (x : io) (t : token) (surface : list token) : res (io * list token) :=
    match fuel with
    | 0 => Diverge
    | S f =>
        let surface := surface ++ [t] in
        rbind (get_token g x) (fun '(t, x) =>
        match t with
        | TNone => Ok (x, surface)
        | _ => if alpha t then gather f x t surface else Ok (x, surface)
        end)
    end.
  (** :161-238: the word has ended. *)
  Definition end_of_word (fuel : nat) (x : io) (t : token) (loc : nat) (surface : list token) (found : list bstr) : res io :=
    if (length surface =? 0) && negb (alpha t) then
      Ok (if preserve_nonalphabetic F then put (token_to_string g t) x else x)
    else
      rbind (match found with
             | [] => Ok true
             | _ => rbind (b_get (tb x) loc) (fun u =>
                    if alpha u then match rev surface with v :: _ => Ok (alpha v) | [] => Ub end else Ok false)
             end) (fun unknown =>
      if unknown then
        rbind (if alpha t then rbind (gather fuel x t surface) (fun '(x, surface) => rmap (fun x => (x, surface)) (move_back x 1))
               else Ok (x, surface)) (fun '(x, surface) =>
        match surface with
        | [] => Ub
        | v :: _ =>
            if negb (alpha v) then
              move_back (if preserve_nonalphabetic F then put (token_to_string g v) x else x) (length surface - 1)
            else
              move_back (put (print_unknown_word F surface) x) (if alpha t then 0 else 1)
        end)
      else
        let revert := b_diff_prev (tb x) (loc + 1) in
        if length surface <? revert then Ub
        else move_back (put (print_word F (firstn (length surface - revert) surface) found) x) (revert + 1)).
  (** AnalysisApplicator::apply, :86-248, one turn per unit of fuel: what is written. *)
  Fixpoint analysis (fuel : nat) (x : io) (st : mstate M) (loc : nat) (surface : list token) (found : list bstr) : res bstr :=
    match fuel with
    | 0 => Diverge
    | S f =>
        rbind (get_token g x) (fun '(t, x) =>
        match t with
        | TNone => Ok (out x ++ match found with [] => [] | _ => print_word F surface found end)
        | TRes _ => Throw
        | _ =>
            rbind (record_finals x st loc surface found) (fun '(loc, found) =>
            let st := mstep st (to_symbol (alph g) t) in
            if is_active st then analysis f x st loc (surface ++ [t]) found
            else rbind (end_of_word f x t loc surface found) (fun x => analysis f x reset loc [] []))
        end)
    end.
End Analysis.
Definition analyse (g : config) (M : machine) (F : formatter) (fuel : nat) (text : bstr) : res bstr :=
  analysis g M F fuel (new_io text) reset 0 [] [].

(** * Output formats, formatter.cc *)
Definition newline : ascii := ascii_of_nat 10.
Definition tab : ascii := ascii_of_nat 9.
Definition quote : ascii := ascii_of_nat 34.
(** clear_superblanks, :19-31 (as in the loops of print_word). *)
Definition clear_superblanks (a : alphabet) (l : list token) : list token :=
  map (fun t => match t with TBlank _ => TSym (blank_symbol a) false | _ => t end) l.
Definition superblanks (l : list token) : bstr := flat_map (fun t => match t with TBlank x => x | _ => [] end) l.
(** ApertiumOutputFormatter, :213-256. *)
Definition apertium (g : config) : formatter :=
  Formatter true
    (fun w forms => B "^" ++ tokens_to_string g (clear_superblanks (alph g) w) ++ flat_map (fun f => B "/" ++ f) forms ++ B "$" ++ superblanks w)
    (fun w => B "^" ++ tokens_to_string g w ++ B "/*" ++ tokens_to_string g w ++ B "$").
(** TransliterateOutputFormatter, :141-187. *)
Definition transliterate (g : config) : formatter :=
  Formatter true
    (fun w forms => match forms with [] => [] | f :: r => f ++ flat_map (fun f => B "/" ++ f) r end ++ superblanks w)
    (fun w => tokens_to_string g w).
(** CGOutputFormatter, :354-372. *)
Definition cg (g : config) : formatter :=
  Formatter false
    (fun w forms => [quote] ++ B "<" ++ tokens_to_string g (clear_superblanks (alph g) w) ++ B ">" ++ [quote; newline] ++
                    flat_map (fun f => tab :: f ++ [newline]) forms)
    (fun w => let form := tokens_to_string g (clear_superblanks (alph g) w) in
              [quote] ++ B "<" ++ form ++ B ">" ++ [quote; newline; tab; quote] ++ B "*" ++ form ++ [quote; newline]).
(** XeroxOutputFormatter, :395-411. *)
Definition xerox (g : config) : formatter :=
  Formatter false
    (fun w forms => flat_map (fun f => tokens_to_string g (clear_superblanks (alph g) w) ++ [tab] ++ f ++ [newline]) forms ++ [newline])
    (fun w => tokens_to_string g (clear_superblanks (alph g) w) ++ [tab] ++ B "+?" ++ [newline; newline]).
