(** Optimized-lookup binary format: header, alphabet and tables, written to and read
    from a byte stream.
    Models libhfst/src/implementations/optimized-lookup/transducer.h and transducer.cc.

    Simplifications (whole file):
    - bytes are [ascii]; the machine is little-endian with 16-bit SymbolNumber, 32-bit
      TransitionTableIndex / StateIdNumber / TransitionNumber / unsigned int / float
      (the sizes and byte order assumed by the file format itself);
    - integers are [N]; that a stored integer fits its C type is a side condition;
    - a float is its 32-bit pattern ([N]); no arithmetic is done on it here;
    - allocation never fails and output streams never fail. *)
From Verif Require Export Base.
From Verif Require Import Flags_Model.
Local Open Scope N_scope.

(** transducer.h:60-70. NO_SYMBOL_NUMBER, NO_TABLE_INDEX. *)
Definition NO_SYMBOL : N := 65535.
Definition NO_TABLE_INDEX : N := 4294967295.
Definition NUL : ascii := zero.

(** os.write of a little-endian integer of [k] bytes (write_property and the raw
    writes of transducer.h). *)
Fixpoint le (k : nat) (n : N) : list ascii :=
  match k with
  | O => []
  | S k' => ascii_of_N (n mod 256) :: le k' (n / 256)
  end.

(** The integer stored little-endian in the given bytes. *)
Fixpoint unle (bs : list ascii) : N :=
  match bs with
  | [] => 0
  | b :: r => N_of_ascii b + 256 * unle r
  end.

(** std::istream: the bytes not yet consumed and the eofbit.  The failbit is not stored:
    every reader below turns it into [Throw] (see each reader). *)
Record istream := { is_bytes : list ascii; is_eof : bool }.

(** is.read(p, k).  The sentry fails when eofbit is already set.  [Throw] stands for "the
    failbit is set": transducer.h tests [!is] only at the end of a constructor, but every
    operation after the failure is a no-op or throws the same exception, so the caller
    sees the same TransducerHasWrongTypeException. *)
Definition rd (k : nat) (is : istream) : res (list ascii * istream) :=
  if is_eof is then Throw
  else if (k <=? length (is_bytes is))%nat
       then Ok (firstn k (is_bytes is), {| is_bytes := skipn k (is_bytes is); is_eof := false |})
       else Throw.

(** TransducerHeader::read_property<T>, transducer.h:151-157. *)
Definition rd_int (k : nat) (is : istream) : res (N * istream) :=
  rbind (rd k is) (fun '(bs, is) => Ok (unle bs, is)).

(** TransducerHeader::read_bool_property, transducer.h:161-171. *)
Definition rd_bool (is : istream) : res (bool * istream) :=
  rbind (rd_int 4 is) (fun '(n, is) =>
    if n =? 0 then Ok (false, is) else if n =? 1 then Ok (true, is) else Throw).

(** TransducerHeader::write_bool_property, transducer.h:172-176. *)
Definition wr_bool (v : bool) : list ascii := le 4 (if v then 1 else 0).

(** class TransducerHeader, transducer.h:125-146. *)
Record header := {
  h_input_symbols : N;
  h_symbols : N;
  h_index_size : N;
  h_target_size : N;
  h_states : N;
  h_transitions : N;
  h_weighted : bool;
  h_deterministic : bool;
  h_input_deterministic : bool;
  h_minimized : bool;
  h_cyclic : bool;
  h_eps_eps : bool;
  h_input_eps : bool;
  h_input_eps_cycles : bool;
  h_unweighted_input_eps_cycles : bool
}.

(** TransducerHeader(input_symbols, symbols, ...), transducer.h:199-221. *)
Definition header_make (ins syms isz tsz : N) (w : bool) : header :=
  {| h_input_symbols := ins; h_symbols := syms; h_index_size := isz; h_target_size := tsz;
     h_states := 0; h_transitions := 0; h_weighted := w; h_deterministic := true;
     h_input_deterministic := true; h_minimized := true; h_cyclic := false;
     h_eps_eps := false; h_input_eps := false; h_input_eps_cycles := false;
     h_unweighted_input_eps_cycles := false |}.

(** TransducerHeader::write, transducer.h:350-367. *)
Definition header_write (h : header) : list ascii :=
  le 2 (h_input_symbols h) ++ le 2 (h_symbols h) ++ le 4 (h_index_size h)
  ++ le 4 (h_target_size h) ++ le 4 (h_states h) ++ le 4 (h_transitions h)
  ++ wr_bool (h_weighted h) ++ wr_bool (h_deterministic h)
  ++ wr_bool (h_input_deterministic h) ++ wr_bool (h_minimized h) ++ wr_bool (h_cyclic h)
  ++ wr_bool (h_eps_eps h) ++ wr_bool (h_input_eps h) ++ wr_bool (h_input_eps_cycles h)
  ++ wr_bool (h_unweighted_input_eps_cycles h).

(** TransducerHeader(std::istream&), transducer.h:224-248. *)
Definition header_read (is : istream) : res (header * istream) :=
  rbind (rd_int 2 is) (fun '(a, is) =>
  rbind (rd_int 2 is) (fun '(b, is) =>
  rbind (rd_int 4 is) (fun '(c, is) =>
  rbind (rd_int 4 is) (fun '(d, is) =>
  rbind (rd_int 4 is) (fun '(e, is) =>
  rbind (rd_int 4 is) (fun '(f, is) =>
  rbind (rd_bool is) (fun '(b1, is) =>
  rbind (rd_bool is) (fun '(b2, is) =>
  rbind (rd_bool is) (fun '(b3, is) =>
  rbind (rd_bool is) (fun '(b4, is) =>
  rbind (rd_bool is) (fun '(b5, is) =>
  rbind (rd_bool is) (fun '(b6, is) =>
  rbind (rd_bool is) (fun '(b7, is) =>
  rbind (rd_bool is) (fun '(b8, is) =>
  rbind (rd_bool is) (fun '(b9, is) =>
    Ok ({| h_input_symbols := a; h_symbols := b; h_index_size := c; h_target_size := d;
           h_states := e; h_transitions := f; h_weighted := b1; h_deterministic := b2;
           h_input_deterministic := b3; h_minimized := b4; h_cyclic := b5;
           h_eps_eps := b6; h_input_eps := b7; h_input_eps_cycles := b8;
           h_unweighted_input_eps_cycles := b9 |}, is)))))))))))))))).

(** enum HeaderFlag, transducer.h:98-104. *)
Inductive header_flag :=
| Weighted | Deterministic | InputDeterministic | Minimized | Cyclic
| EpsEps | InputEps | InputEpsCycles | UnweightedInputEpsCycles.

(** TransducerHeader::probe_flag, transducer.h:260-283. *)
Definition probe_flag (h : header) (f : header_flag) : bool :=
  match f with
  | Weighted => h_weighted h
  | Deterministic => h_deterministic h
  | InputDeterministic => h_input_deterministic h
  | Minimized => h_minimized h
  | Cyclic => h_cyclic h
  | EpsEps => h_eps_eps h
  | InputEps => h_input_eps h
  | InputEpsCycles => h_input_eps_cycles h
  | UnweightedInputEpsCycles => h_unweighted_input_eps_cycles h
  end.

(** TransducerHeader::set_flag, transducer.h:285-317.  The argument [value] is ignored. *)
Definition set_flag (h : header) (f : header_flag) (value : bool) : header :=
  let is f' v := match f, f' with
                 | Weighted, Weighted | Deterministic, Deterministic
                 | InputDeterministic, InputDeterministic | Minimized, Minimized
                 | Cyclic, Cyclic | EpsEps, EpsEps | InputEps, InputEps
                 | InputEpsCycles, InputEpsCycles
                 | UnweightedInputEpsCycles, UnweightedInputEpsCycles => true
                 | _, _ => v
                 end in
  {| h_input_symbols := h_input_symbols h; h_symbols := h_symbols h;
     h_index_size := h_index_size h; h_target_size := h_target_size h;
     h_states := h_states h; h_transitions := h_transitions h;
     h_weighted := is Weighted (h_weighted h);
     h_deterministic := is Deterministic (h_deterministic h);
     h_input_deterministic := is InputDeterministic (h_input_deterministic h);
     h_minimized := is Minimized (h_minimized h);
     h_cyclic := is Cyclic (h_cyclic h);
     h_eps_eps := is EpsEps (h_eps_eps h);
     h_input_eps := is InputEps (h_input_eps h);
     h_input_eps_cycles := is InputEpsCycles (h_input_eps_cycles h);
     h_unweighted_input_eps_cycles :=
       is UnweightedInputEpsCycles (h_unweighted_input_eps_cycles h) |}.

(** class TransducerAlphabet, transducer.h:375-383 (the unicode cache is left out). *)
Record alphabet := {
  a_table : list bstr;
  a_fd : fdtable;
  a_unknown : N;
  a_default : N;
  a_identity : N;
  a_orig_count : N
}.

(** HfstSymbolDefs.h: internal_unknown, internal_identity, internal_default. *)
Definition internal_unknown : bstr := B "@_UNKNOWN_SYMBOL_@".
Definition internal_identity : bstr := B "@_IDENTITY_SYMBOL_@".
Definition internal_default : bstr := B "@_DEFAULT_SYMBOL_@".

(** TransducerAlphabet::write, transducer.h:409-417. *)
Definition alphabet_write (a : alphabet) : list ascii :=
  concat (map (fun s => s ++ [NUL]) (a_table a)).

(** std::getline(is, str, NUL): bytes up to the delimiter, which is consumed.  At the end
    of the input the eofbit is set; the failbit is set too if no byte was extracted. *)
Fixpoint split_nul (bs : list ascii) : bstr * option (list ascii) :=
  match bs with
  | [] => ([], None)
  | c :: r => if Ascii.eqb c NUL then ([], Some r)
              else let '(s, o) := split_nul r in (c :: s, o)
  end.

Definition getline (is : istream) : res (bstr * istream) :=
  if is_eof is then Throw
  else match split_nul (is_bytes is) with
       | (s, Some r) => Ok (s, {| is_bytes := r; is_eof := false |})
       | ([], None) => Throw
       | (s, None) => Ok (s, {| is_bytes := []; is_eof := true |})
       end.

(** The body of both constructor loops, transducer.cc:36-47 and :86-95: classify symbol
    number [i].  [None] = exception from define_diacritic (too many features or values). *)
Definition classify (a : alphabet) (i : nat) (s : bstr) : option alphabet :=
  if is_diacritic s then
    match define_diacritic (a_fd a) i s with
    | None => None
    | Some t => Some {| a_table := a_table a; a_fd := t; a_unknown := a_unknown a;
                        a_default := a_default a; a_identity := a_identity a;
                        a_orig_count := a_orig_count a |}
    end
  else Some
    {| a_table := a_table a; a_fd := a_fd a;
       a_unknown := if bstr_eqb s internal_unknown then N.of_nat i else a_unknown a;
       a_default := if bstr_eqb s internal_unknown then a_default a
                    else if bstr_eqb s internal_default then N.of_nat i else a_default a;
       a_identity := if bstr_eqb s internal_unknown then a_identity a
                     else if bstr_eqb s internal_default then a_identity a
                     else if bstr_eqb s internal_identity then N.of_nat i
                     else a_identity a;
       a_orig_count := a_orig_count a |}.

Definition set_table (a : alphabet) (t : list bstr) : alphabet :=
  {| a_table := t; a_fd := a_fd a; a_unknown := a_unknown a; a_default := a_default a;
     a_identity := a_identity a; a_orig_count := a_orig_count a |}.
Definition set_orig (a : alphabet) : alphabet :=
  {| a_table := a_table a; a_fd := a_fd a; a_unknown := a_unknown a;
     a_default := a_default a; a_identity := a_identity a;
     a_orig_count := N.of_nat (length (a_table a)) mod 65536 |}.

Definition alphabet0 : alphabet :=
  {| a_table := []; a_fd := fd_empty; a_unknown := NO_SYMBOL; a_default := NO_SYMBOL;
     a_identity := NO_SYMBOL; a_orig_count := 0 |}.

(** str.c_str() passed to push_back(std::string): cut at the first NUL. *)
Definition c_str (s : bstr) : bstr := fst (split_nul s).

(** The loop of TransducerAlphabet(std::istream&, symbol_count, preserve),
    transducer.cc:32-53, from symbol number [i] with [k] symbols to go.  A failed getline
    leaves [str] empty, which no test recognises, and [!is] then throws. *)
Fixpoint alphabet_read_loop (preserve : bool) (k i : nat) (a : alphabet) (is : istream)
  : res (alphabet * istream) :=
  match k with
  | O => Ok (set_orig a, is)
  | S k' =>
      rbind (getline is) (fun '(s, is) =>
      match classify a i s with
      | None => Throw
      | Some a => 
          let s' := if is_diacritic s && negb preserve then [] else s in
          alphabet_read_loop preserve k' (S i) (set_table a (a_table a ++ [c_str s'])) is
      end)
  end.

Definition alphabet_read (preserve : bool) (count : nat) (is : istream)
  : res (alphabet * istream) :=
  alphabet_read_loop preserve count 0 alphabet0 is.

(** The loop of TransducerAlphabet(const SymbolTable&), transducer.cc:84-96. *)
Fixpoint classify_all (a : alphabet) (i : nat) (l : list bstr) : option alphabet :=
  match l with
  | [] => Some a
  | s :: r => match classify a i s with None => None | Some a => classify_all a (S i) r end
  end.

(** TransducerAlphabet(const SymbolTable&), transducer.cc:79-97.  The 16-bit loop counter
    never reaches a size above 65535: the loop then runs forever. *)
Definition alphabet_of_table (st : list bstr) : res alphabet :=
  if 65535 <? N.of_nat (length st) then Diverge
  else match classify_all alphabet0 0 st with
       | None => Throw
       | Some a => Ok (set_orig (set_table a st))
       end.

(** class TransitionIndex / TransitionWIndex, transducer.h:461-537. *)
Record index_entry := { ie_input : N; ie_target : N }.

(** class Transition / TransitionW, transducer.h:539-656; [te_weight] is the bit pattern of
    the weight, and is 0 (the bits of 0.0f) for the unweighted class. *)
Record trans_entry := { te_input : N; te_output : N; te_target : N; te_weight : N }.

(** TransducerTables<T1,T2>: [t_wclass] tells TransitionWIndex/TransitionW from
    TransitionIndex/Transition. *)
Record tables := {
  t_wclass : bool;
  t_index : list index_entry;
  t_trans : list trans_entry
}.

(** TransitionIndex::write, transducer.h:486-502. *)
Definition index_write (weighted : bool) (e : index_entry) : list ascii :=
  le 2 (ie_input e)
  ++ (if negb weighted && (ie_input e =? NO_SYMBOL) && negb (ie_target e =? NO_TABLE_INDEX)
      then le 4 1 else le 4 (ie_target e)).

(** Transition::write, transducer.h:585-596, and TransitionW::write, :640-647.
    The unweighted class writes the TEXT of 0.0f, the one byte of the digit zero. *)
Definition trans_write (wclass weighted : bool) (e : trans_entry) : list ascii :=
  le 2 (te_input e) ++ le 2 (te_output e) ++ le 4 (te_target e)
  ++ (if weighted then if wclass then le 4 (te_weight e) else B "0" else []).

(** TransitionIndex(char pointer), transducer.h:479-482; Transition(char pointer), :578-582;
    TransitionW(char pointer), :632-637. *)
Definition index_of_bytes (bs : list ascii) : index_entry :=
  {| ie_input := unle (firstn 2 bs); ie_target := unle (firstn 4 (skipn 2 bs)) |}.
Definition trans_of_bytes (wclass : bool) (bs : list ascii) : trans_entry :=
  {| te_input := unle (firstn 2 bs); te_output := unle (firstn 2 (skipn 2 bs));
     te_target := unle (firstn 4 (skipn 4 bs));
     te_weight := if wclass then unle (firstn 4 (skipn 8 bs)) else 0 |}.

(** T::size, transducer.h:467, :546, :618. *)
Definition index_bytes : nat := 6.
Definition trans_bytes (wclass : bool) : nat := if wclass then 12 else 8.

(** The conversion loop of TransducerTable(std::istream&, index_count),
    transducer.h:668-674. *)
Fixpoint entries {A} (size : nat) (f : list ascii -> A) (count : nat) (p : list ascii)
  : list A :=
  match count with
  | O => []
  | S c => f (firstn size p) :: entries size f c (skipn size p)
  end.

(** TransducerTable(std::istream&, index_count), transducer.h:663-676.  A short read leaves
    uninitialised bytes in the table, but load_tables then throws (transducer.cc:853). *)
Definition table_read {A} (size : nat) (f : list ascii -> A) (count : nat) (is : istream)
  : res (list A * istream) :=
  rbind (rd (size * count) is) (fun '(bs, is) => Ok (entries size f count bs, is)).

(** hfst_ol::Transducer, transducer.h:1011-1030: the parts that are saved. *)
Record transducer := { tr_header : header; tr_alphabet : alphabet; tr_tables : tables }.

(** Transducer::load_tables, transducer.cc:843-856. *)
Definition load_tables (h : header) (is : istream) : res (tables * istream) :=
  let w := h_weighted h in
  rbind (table_read index_bytes index_of_bytes (N.to_nat (h_index_size h)) is)
    (fun '(ix, is) =>
  rbind (table_read (trans_bytes w) (trans_of_bytes w) (N.to_nat (h_target_size h)) is)
    (fun '(tr, is) => Ok ({| t_wclass := w; t_index := ix; t_trans := tr |}, is))).

(** Transducer::Transducer(std::istream&), transducer.cc:723-736 (the encoder and the
    lookup state are derived from the parts below and not saved). *)
Definition transducer_read (is : istream) : res (transducer * istream) :=
  rbind (header_read is) (fun '(h, is) =>
  rbind (alphabet_read true (N.to_nat (h_symbols h)) is) (fun '(a, is) =>
  rbind (load_tables h is) (fun '(t, is) =>
    Ok ({| tr_header := h; tr_alphabet := a; tr_tables := t |}, is)))).

(** Transducer::write, transducer.cc:859-867.  The loops run over the sizes in the header;
    [table[i]] past the end of the vector is undefined behaviour. *)
Definition transducer_write (t : transducer) : res (list ascii) :=
  let h := tr_header t in let tb := tr_tables t in
  let ni := N.to_nat (h_index_size h) in let nt := N.to_nat (h_target_size h) in
  if (length (t_index tb) <? ni)%nat || (length (t_trans tb) <? nt)%nat then Ub
  else Ok (header_write h ++ alphabet_write (tr_alphabet t)
           ++ concat (map (index_write (h_weighted h)) (firstn ni (t_index tb)))
           ++ concat (map (trans_write (t_wclass tb) (h_weighted h)) (firstn nt (t_trans tb)))).

(** Transducer::copy, transducer.cc:869-883 with copy_windex_table, copy_transitionw_table,
    copy_index_table, copy_transition_table, :785-840.  The copy keeps the first
    [index_table_size] and [target_table_size] entries; the weighted copy functions throw
    on an unweighted header and the other way round. *)
Definition transducer_copy (t : transducer) (weighted : bool) : res transducer :=
  let h := tr_header t in let tb := tr_tables t in
  let ni := N.to_nat (h_index_size h) in let nt := N.to_nat (h_target_size h) in
  if negb (Bool.eqb (h_weighted h) weighted) then Throw
  else if (length (t_index tb) <? ni)%nat || (length (t_trans tb) <? nt)%nat then Ub
  else Ok {| tr_header := h; tr_alphabet := tr_alphabet t;
             tr_tables :=
               {| t_wclass := weighted; t_index := firstn ni (t_index tb);
                  t_trans :=
                    map (fun e => {| te_input := te_input e; te_output := te_output e;
                                     te_target := te_target e;
                                     te_weight := if weighted then te_weight e else 0 |})
                        (firstn nt (t_trans tb)) |} |}.

(** TransitionIndex::final, transducer.cc (index entry marks a final state) and
    Transition::final. *)
Definition index_final (e : index_entry) : bool :=
  (ie_input e =? NO_SYMBOL) && negb (ie_target e =? NO_TABLE_INDEX).
Definition trans_final (e : trans_entry) : bool :=
  (te_input e =? NO_SYMBOL) && (te_output e =? NO_SYMBOL) && (te_target e =? 1).
