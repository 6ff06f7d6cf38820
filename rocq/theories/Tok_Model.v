(** Model of HfstTokenizer (/repo/libhfst/src/HfstTokenizer.cc) and of the
    optimized-lookup input encoder
    (/repo/libhfst/src/implementations/optimized-lookup/transducer.{h,cc}). *)
From Verif Require Import Base Flags_Model.

Definition nul : ascii := "000"%char.

(** * MultiCharSymbolTrie *)

(** The vectors symbol_rests and is_leaf have UCHAR_MAX = 255 entries
    (HfstTokenizer.cc:64-68): only the non-NULL / true entries are kept, and
    indexing with byte 255 is out of range, i.e. undefined behaviour. *)
Inductive trie := TNode (rests : list (ascii * trie)) (leaf : list ascii).

Definition trie_empty : trie := TNode [] [].
Definition oob (b : ascii) : bool := Ascii.eqb b "255"%char.
Definition t_rest (t : trie) (b : ascii) : option trie :=
  match t with TNode rs _ => mget acmp b rs end.
Definition t_leaf (t : trie) (b : ascii) : bool :=
  match t with TNode _ l => smem acmp b l end.
Definition t_set_rest (t : trie) (b : ascii) (c : trie) : trie :=
  match t with TNode rs l => TNode (mset acmp b c rs) l end.
Definition t_set_leaf (t : trie) (b : ascii) : trie :=
  match t with TNode rs l => TNode rs (sadd acmp b l) end.

(** MultiCharSymbolTrie::add, :79-91.  [s] is the NUL-terminated C string at p,
    without its terminator; on the empty string the code reads p+1 beyond the
    terminator (never called so: the callers test for emptiness). *)
Fixpoint trie_add (s : bstr) (t : trie) : res trie :=
  match s with
  | [] => Ub
  | b :: r =>
      if oob b then Ub else
      match r with
      | [] => Ok (t_set_leaf t b)
      | _ :: _ =>
          let child := match t_rest t b with Some c => c | None => trie_empty end in
          rmap (t_set_rest t b) (trie_add r child)
      end
  end.

(** MultiCharSymbolTrie::find, :93-114: the number of bytes matched (p + n), or None
    for NULL.  At the end of the string p points to the terminating NUL, which the
    code uses as an index like any other byte; going on from there would read past
    the string. *)
Fixpoint trie_find (t : trie) (s : bstr) : res (option nat) :=
  match s with
  | [] =>
      match t_rest t nul with
      | Some _ => Ub
      | None => Ok (if t_leaf t nul then Some 1 else None)
      end
  | b :: r =>
      if oob b then Ub else
      match t_rest t b with
      | None => Ok (if t_leaf t b then Some 1 else None)
      | Some c =>
          rmap (fun o => match o with
                         | Some n => Some (S n)
                         | None => if t_leaf t b then Some 1 else None
                         end) (trie_find c r)
      end
  end.

(** * HfstTokenizer *)
Record tokenizer := { multi_char_symbols : trie; skip_symbol_set : list bstr }.
Definition tok_new : tokenizer := {| multi_char_symbols := trie_empty; skip_symbol_set := [] |}.

(** add_multichar_symbol, :212-220. *)
Definition add_multichar_symbol (s : bstr) (t : tokenizer) : res tokenizer :=
  match s with
  | [] => Ok t
  | _ => rmap (fun m => {| multi_char_symbols := m; skip_symbol_set := skip_symbol_set t |})
              (trie_add s (multi_char_symbols t))
  end.
(** add_skip_symbol, :222-231. *)
Definition add_skip_symbol (s : bstr) (t : tokenizer) : res tokenizer :=
  match s with
  | [] => Ok t
  | _ => rmap (fun m => {| multi_char_symbols := m;
                           skip_symbol_set := sadd bcmp s (skip_symbol_set t) |})
              (trie_add s (multi_char_symbols t))
  end.

(** A configuration history: (is it a skip symbol?, symbol). *)
Fixpoint configure (regs : list (bool * bstr)) (t : tokenizer) : res tokenizer :=
  match regs with
  | [] => Ok t
  | (k, s) :: r =>
      rbind (if k then add_skip_symbol s t else add_multichar_symbol s t) (configure r)
  end.

(** Width of the UTF-8 character starting with byte [b], from the branch
    split_characters == true of get_next_symbol_size, :185-203: the tests are
    (128 & b) == 0, (32 & b) == 0, (16 & b) == 0. *)
Definition lead_width (b : ascii) : nat :=
  match b with
  | Ascii _ _ _ _ b4 b5 _ b7 =>
      if negb b7 then 1 else if negb b5 then 2 else if negb b4 then 3 else 4
  end.

Section Tokenize.
  (** External ICU functions, :134-183 and :510-532: [grapheme s] is the byte length
      of the first grapheme cluster of s, [valid_utf8 s] tells whether
      u_strFromUTF8 accepts s.  Arguments of the model, not axioms. *)
  Variable grapheme : bstr -> nat.
  Variable valid_utf8 : bstr -> bool.

  (** get_next_symbol_size, :118-204, on a non-empty string. *)
  Definition next_symbol_size (split : bool) (t : tokenizer) (s : bstr) : res nat :=
    match s with
    | [] => Ok 0
    | b :: _ =>
        rmap (fun o => match o with
                       | Some n => n
                       | None => if split then lead_width b else grapheme s
                       end) (trie_find (multi_char_symbols t) s)
    end.

  (** is_skip_symbol, :206-210. *)
  Definition is_skip_symbol (t : tokenizer) (s : bstr) : bool :=
    match s with [] => true | _ => smem bcmp s (skip_symbol_set t) end.

  (** The loop of tokenize / tokenize_one_level, :240-250 and :262-272.  The token is
      std::string(s, 0, size), which is clipped at the terminator, but s += size is
      not: leaving the string is undefined behaviour.  A size of 0 never advances. *)
  Fixpoint tok_loop (fuel : nat) (split : bool) (t : tokenizer) (s : bstr) : res (list bstr) :=
    match s with
    | [] => Ok []
    | _ :: _ =>
        match fuel with
        | 0 => Diverge
        | S fuel' =>
            rbind (next_symbol_size split t s) (fun n =>
            if n =? 0 then Diverge
            else if length s <? n then Ub
            else
              let tok := firstn n s in
              rbind (tok_loop fuel' split t (skipn n s)) (fun ts =>
              Ok (if is_skip_symbol t tok then ts else tok :: ts)))
        end
    end.

  (** tokenize_one_level, :254-274. *)
  Definition tokenize_one_level (split : bool) (t : tokenizer) (s : bstr) : res (list bstr) :=
    if valid_utf8 s then tok_loop (length s) split t s else Throw.

  (** tokenize(input), :233-252: the same tokens as identity pairs. *)
  Definition tokenize (split : bool) (t : tokenizer) (s : bstr) : res (list (bstr * bstr)) :=
    rmap (map (fun x => (x, x))) (tokenize_one_level split t s).

  Definition internal_epsilon : bstr := B "@_EPSILON_SYMBOL_@".

  (** The two alignment loops of tokenize(input, output), :331-358. *)
  Fixpoint pad_out (xs : list (bstr * bstr)) : list (bstr * bstr) :=
    match xs with [] => [] | (a, _) :: r => (a, internal_epsilon) :: pad_out r end.
  Fixpoint pad_in (xs : list (bstr * bstr)) : list (bstr * bstr) :=
    match xs with [] => [] | (a, _) :: r => (internal_epsilon, a) :: pad_in r end.
  (** input shorter: iterate over the input, then pad *)
  Fixpoint align_short (xs ys : list (bstr * bstr)) : list (bstr * bstr) :=
    match xs, ys with
    | [], _ => pad_in ys
    | (a, _) :: xs', (b, _) :: ys' => (a, b) :: align_short xs' ys'
    | _ :: _, [] => []          (* unreachable: |xs| < |ys| *)
    end.
  (** input not shorter: iterate over the output, then pad *)
  Fixpoint align_long (xs ys : list (bstr * bstr)) : list (bstr * bstr) :=
    match ys, xs with
    | [], _ => pad_out xs
    | (b, _) :: ys', (a, _) :: xs' => (a, b) :: align_long xs' ys'
    | _ :: _, [] => []          (* unreachable: |ys| <= |xs| *)
    end.

  (** tokenize(input, output), :316-360. *)
  Definition tokenize_pair (split : bool) (t : tokenizer) (i o : bstr) : res (list (bstr * bstr)) :=
    if negb (valid_utf8 i) then Throw
    else if negb (valid_utf8 o) then Throw
    else
      rbind (tokenize split t i) (fun xs =>
      rbind (tokenize split t o) (fun ys =>
      Ok (if length xs <? length ys then align_short xs ys else align_long xs ys))).

  (** tokenize_space_separated, :276-314: [cur] is the text since symbol_pos
      (None = npos). *)
  Fixpoint space_loop (s : bstr) (cur : option bstr) : list (bstr * bstr) :=
    match s with
    | [] => match cur with Some w => [(w, w)] | None => [] end
    | c :: r =>
        match cur with
        | Some w =>
            if Ascii.eqb c " " then (w, w) :: space_loop r None else space_loop r (Some (w ++ [c]))
        | None => if Ascii.eqb c " " then space_loop r None else space_loop r (Some [c])
        end
    end.
  Definition tokenize_space_separated (s : bstr) : res (list (bstr * bstr)) :=
    if valid_utf8 s then Ok (space_loop s None) else Throw.

  (** The loop of tokenize_and_align_flag_diacritics, :440-499 (the warning callback
      has no effect on the result). *)
  Fixpoint flag_align (fuel : nat) (xs ys : list bstr) : list (bstr * bstr) :=
    match fuel with
    | 0 => []
    | S fuel' =>
        match xs, ys with
        | [], [] => []
        | [], y :: ys' =>
            (if is_diacritic y then (y, y) else (internal_epsilon, y)) :: flag_align fuel' [] ys'
        | x :: xs', [] =>
            (if is_diacritic x then (x, x) else (x, internal_epsilon)) :: flag_align fuel' xs' []
        | x :: xs', y :: ys' =>
            if (negb (is_diacritic x) && negb (is_diacritic y)) || bstr_eqb x y
            then (x, y) :: flag_align fuel' xs' ys'
            else (x, x) :: (y, y) :: flag_align fuel' xs' ys'
        end
    end.
  Definition tokenize_and_align (split : bool) (t : tokenizer) (i o : bstr) : res (list (bstr * bstr)) :=
    if negb (valid_utf8 i) then Throw
    else if negb (valid_utf8 o) then Throw
    else
      rbind (tokenize split t i) (fun xs =>
      rbind (tokenize split t o) (fun ys =>
      match xs, ys with
      | [], _ | _, [] => Throw      (* assert(input_spv.size() > 0 && output_spv.size() > 0) *)
      | _, _ => Ok (flag_align (length xs + length ys) (map fst xs) (map fst ys))
      end)).
End Tokenize.

(** * Optimized-lookup encoder *)

(** SymbolNumber is an unsigned short; NO_SYMBOL_NUMBER = 65535. *)
Definition NO_SYMBOL : N := 65535%N.

(** OlLetterTrie, transducer.h:785-795: vectors of UCHAR_MAX+1 = 256 entries, so every
    byte is in range; NULL and NO_SYMBOL_NUMBER entries are not stored. *)
Inductive oltrie := ONode (letters : list (ascii * oltrie)) (symbols : list (ascii * N)).
Definition oltrie_empty : oltrie := ONode [] [].
Definition o_letter (t : oltrie) (b : ascii) : option oltrie :=
  match t with ONode ls _ => mget acmp b ls end.
Definition o_symbol (t : oltrie) (b : ascii) : N :=
  match t with ONode _ ss => match mget acmp b ss with Some n => n | None => NO_SYMBOL end end.
Definition o_set_letter (t : oltrie) b c := match t with ONode ls ss => ONode (mset acmp b c ls) ss end.
Definition o_set_symbol (t : oltrie) b n := match t with ONode ls ss => ONode ls (mset acmp b n ss) end.

(** OlLetterTrie::add_string, transducer.cc:243-255. *)
Fixpoint ol_add (s : bstr) (k : N) (t : oltrie) : res oltrie :=
  match s with
  | [] => Ub                 (* reads p+1 behind the terminator *)
  | b :: r =>
      match r with
      | [] => Ok (o_set_symbol t b k)
      | _ :: _ =>
          let child := match o_letter t b with Some c => c | None => oltrie_empty end in
          rmap (o_set_letter t b) (ol_add r k child)
      end
  end.

(** OlLetterTrie::find_key, transducer.cc:262-277: symbol number and the number of
    bytes *p has moved. *)
Fixpoint ol_find (t : oltrie) (s : bstr) : res (N * nat) :=
  match s with
  | [] =>
      match o_letter t nul with
      | Some _ => Ub
      | None => Ok (o_symbol t nul, 1)
      end
  | b :: r =>
      match o_letter t b with
      | None => Ok (o_symbol t b, 1)
      | Some c =>
          rmap (fun '(n, k) =>
                  if (n =? NO_SYMBOL)%N then (o_symbol t b, S k - 1) else (n, S k))
               (ol_find c r)
      end
  end.

Record encoder := { e_letters : oltrie; e_ascii : list (ascii * N) }.
Definition encoder_new : encoder := {| e_letters := oltrie_empty; e_ascii := [] |}.

(** should_ascii_tokenize: byte <= 127. *)
Definition should_ascii_tokenize (b : ascii) : bool := match b with Ascii _ _ _ _ _ _ _ b7 => negb b7 end.
Definition e_ascii_at (e : encoder) (b : ascii) : N :=
  match mget acmp b (e_ascii e) with Some n => n | None => NO_SYMBOL end.

(** Encoder::read_input_symbol, transducer.cc:286-299. *)
Definition read_input_symbol (s : bstr) (k : N) (e : encoder) : res encoder :=
  match s with
  | [] => Ub
  | b :: r =>
      let asc1 :=
        if (length s =? 1) && should_ascii_tokenize b &&
           negb (match o_letter (e_letters e) b with Some _ => true | None => false end)
        then mset acmp b k (e_ascii e) else e_ascii e in
      let at1 := match mget acmp b asc1 with Some n => n | None => NO_SYMBOL end in
      let asc2 :=
        if (1 <? length s) && should_ascii_tokenize b && negb (at1 =? NO_SYMBOL)%N
        then mset acmp b NO_SYMBOL asc1 else asc1 in
      rmap (fun l => {| e_letters := l; e_ascii := asc2 |}) (ol_add s k (e_letters e))
  end.

(** A history of registrations (Encoder::read_input_symbols, :279-284, plus later
    additions by initialize_input and include_symbol_in_alphabet). *)
Fixpoint register (regs : list (bstr * N)) (e : encoder) : res encoder :=
  match regs with
  | [] => Ok e
  | (s, k) :: r => rbind (read_input_symbol s k e) (register r)
  end.

(** Encoder::find_key, transducer.cc:301-311, at a byte string [s] (without the NUL). *)
Definition encoder_find_key (e : encoder) (s : bstr) : res (N * nat) :=
  let b := match s with [] => nul | b :: _ => b end in
  if negb (should_ascii_tokenize b) || (e_ascii_at e b =? NO_SYMBOL)%N
  then ol_find (e_letters e) s
  else Ok (e_ascii_at e b, 1).
