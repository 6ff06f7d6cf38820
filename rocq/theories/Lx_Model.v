(** Model of the lexc compiler, libhfst/src/parsers/LexcCompiler.cc (line numbers without a
    file name refer to it).
    The entries are collected in a trie (the disjunct of BT_Model, C17); compileLexical then
    works on it with operations of HfstTransducer, which are given by their meaning: a
    transducer stands for the set of its paths, that is, of the pair strings it accepts with
    their weights.  Simplifications: optimize changes nothing (the back ends keep the lowest
    of the weights of a pair string); unknown and identity are ordinary symbols, so
    harmonization changes nothing; messages, warnings and the options that turn them into
    errors are left out; align_strings_ is false; the grammar file has been parsed
    (lexc-parser.yy) into calls of the member functions, and the regular expressions into
    transducers and their alphabets. *)
From Verif Require Import Base BT_Model BT_Spec Tok_Model Str_Model.

(** * The operations of HfstTransducer *)
Definition wlang := list (bstr * bstr) -> Z -> Prop.
(** HfstTransducer(HfstBasicTransducer), HfstTransducer(string, tokenizer) for its tokens *)
Definition w_graph (g : graph) : wlang := accepts g.
Definition w_word (v : list (bstr * bstr)) : wlang := fun l w => l = v /\ w = 0%Z.
(** concatenate, disjunct, repeat_star *)
Definition w_cat (a b : wlang) : wlang :=
  fun l w => exists l1 w1 l2 w2, a l1 w1 /\ b l2 w2 /\ l = l1 ++ l2 /\ w = (w1 + w2)%Z.
Definition w_or (a b : wlang) : wlang := fun l w => a l w \/ b l w.
Inductive w_star (a : wlang) : wlang :=
| ws_nil : w_star a [] 0%Z
| ws_cons l1 w1 l2 w2 : a l1 w1 -> w_star a l2 w2 -> w_star a (l1 ++ l2) (w1 + w2)%Z.
(** compose: transitions that meet in a symbol other than epsilon are joined, the others
    are taken one side at a time. *)
Inductive composed : list (bstr * bstr) -> list (bstr * bstr) -> list (bstr * bstr) -> Prop :=
| cm_nil : composed [] [] []
| cm_both x y z l1 l2 l : y <> EPS -> composed l1 l2 l -> composed ((x, y) :: l1) ((y, z) :: l2) ((x, z) :: l)
| cm_left x l1 l2 l : composed l1 l2 l -> composed ((x, EPS) :: l1) l2 ((x, EPS) :: l)
| cm_right z l1 l2 l : composed l1 l2 l -> composed l1 ((EPS, z) :: l2) ((EPS, z) :: l).
Definition w_compose (a b : wlang) : wlang :=
  fun l w => exists l1 w1 l2 w2, a l1 w1 /\ b l2 w2 /\ composed l1 l2 l /\ w = (w1 + w2)%Z.
(** substitute(HfstSymbolSubstitutions): every symbol at once, on both sides (C20). *)
Definition w_map (f : bstr -> bstr) (a : wlang) : wlang :=
  fun l w => exists l0, a l0 w /\ l = map (fun p => (f (fst p), f (snd p))) l0.
Definition substitute (m : list (bstr * bstr)) (s : bstr) : bstr :=
  match mget bcmp s m with Some t => t | None => s end.
(** HfstBasicTransducer::substitute(map from symbols to transducers),
    HfstBasicTransducer.cc:2713-2850: each transition k:k whose k has a transducer is
    replaced by it.  A k on one side only throws; the compiler never makes one. *)
Inductive inserted (m : list (bstr * wlang)) : list (bstr * bstr) -> list (bstr * bstr) -> Z -> Prop :=
| in_nil : inserted m [] [] 0%Z
| in_keep p l l' w : mget bcmp (fst p) m = None -> mget bcmp (snd p) m = None -> inserted m l l' w ->
    inserted m (p :: l) (p :: l') w
| in_key k L r v l l' w : mget bcmp k m = Some L -> L r v -> inserted m l l' w ->
    inserted m ((k, k) :: l) (r ++ l') (v + w)%Z.
Definition w_insert (m : list (bstr * wlang)) (a : wlang) : wlang :=
  fun l w => exists l0 w0 w1, a l0 w0 /\ inserted m l0 l w1 /\ w = (w0 + w1)%Z.

(** What a transducer means to its user: a weighted relation between strings. *)
Definition wrel := list bstr -> list bstr -> Z -> Prop.
Definition strip (l : list bstr) : list bstr := filter (fun s => negb (bstr_eqb s EPS)) l.
Definition relation (a : wlang) : wrel :=
  fun x y w => exists l, a l w /\ x = strip (map fst l) /\ y = strip (map snd l).

(** * The compiler *)
(** The fields, LexcCompiler.h:165-220.  [known] lists the calls of
    tokenizer_.add_multichar_symbol; the tokenizer is rebuilt from it when it is used. *)
Record lexc := Lexc {
  with_flags : bool; split_characters : bool;
  known : list bstr; lexiconNames : list bstr; noFlags : list bstr; continuations : list bstr;
  alphabets : list bstr; currentName : bstr; initialName : bstr;
  stringsTrie : graph; regexps : list (bstr * wlang) }.
Definition set_known k c := Lexc (with_flags c) (split_characters c) k (lexiconNames c) (noFlags c) (continuations c) (alphabets c) (currentName c) (initialName c) (stringsTrie c) (regexps c).
Definition set_names n c := Lexc (with_flags c) (split_characters c) (known c) n (noFlags c) (continuations c) (alphabets c) (currentName c) (initialName c) (stringsTrie c) (regexps c).
Definition set_noflags n c := Lexc (with_flags c) (split_characters c) (known c) (lexiconNames c) n (continuations c) (alphabets c) (currentName c) (initialName c) (stringsTrie c) (regexps c).
Definition set_conts n c := Lexc (with_flags c) (split_characters c) (known c) (lexiconNames c) (noFlags c) n (alphabets c) (currentName c) (initialName c) (stringsTrie c) (regexps c).
Definition set_alphabets n c := Lexc (with_flags c) (split_characters c) (known c) (lexiconNames c) (noFlags c) (continuations c) n (currentName c) (initialName c) (stringsTrie c) (regexps c).
Definition set_current n c := Lexc (with_flags c) (split_characters c) (known c) (lexiconNames c) (noFlags c) (continuations c) (alphabets c) n (initialName c) (stringsTrie c) (regexps c).
Definition set_initial n c := Lexc (with_flags c) (split_characters c) (known c) (lexiconNames c) (noFlags c) (continuations c) (alphabets c) (currentName c) n (stringsTrie c) (regexps c).
Definition set_trie t c := Lexc (with_flags c) (split_characters c) (known c) (lexiconNames c) (noFlags c) (continuations c) (alphabets c) (currentName c) (initialName c) t (regexps c).
Definition set_regexps r c := Lexc (with_flags c) (split_characters c) (known c) (lexiconNames c) (noFlags c) (continuations c) (alphabets c) (currentName c) (initialName c) (stringsTrie c) r.

Definition HASH := B "#".
Definition ROOT := B "Root".
Definition ZERO_EPS := B "@0@".
Definition ZERO := B "@ZERO@".
Definition OTHER_EPS := B "@@ANOTHER_EPSILON@@".
Definition start_symbols := [EPS; ZERO_EPS; ZERO; OTHER_EPS].
(** LexcCompiler(), :104-123. *)
Definition new_default : lexc := Lexc false false [] [] [] [] [] [] ROOT empty_graph [].
(** LexcCompiler(impl, withFlags, alignStrings), :152-178; LexcCompiler(impl), :125-150, is
    the case without flags; setSplitCharacters, :390-394. *)
Definition new_compiler (flags split : bool) : lexc :=
  Lexc flags split (start_symbols ++ [joinerEncode HASH]) [HASH] [] [] [] [] ROOT empty_graph [].
(** reset, :188-213. *)
Definition reset (c : lexc) : lexc :=
  Lexc (with_flags c) (split_characters c) start_symbols [HASH] [] [] [] [] ROOT empty_graph [].

(** tokenizer_.add_multichar_symbol *)
Definition add_known (s : bstr) (c : lexc) : lexc := set_known (known c ++ [s]) c.
(** addNoFlag, :511-516; addAlphabet, :517-528. *)
Definition addNoFlag (s : bstr) (c : lexc) : lexc := set_noflags (sadd bcmp s (noFlags c)) c.
Definition addAlphabet (s : bstr) (c : lexc) : lexc := add_known s (set_alphabets (sadd bcmp s (alphabets c)) c).

(** The codes of a continuation and of a lexicon name, :628-643 and :647-662. *)
Definition cont_code (c : lexc) (n : bstr) : bstr :=
  if with_flags c then (if smem bcmp n (noFlags c) then joinerEncode n else flagJoinerEncode n false) else joinerEncode n.
Definition name_code (c : lexc) (n : bstr) : bstr :=
  if with_flags c then (if smem bcmp n (noFlags c) then joinerEncode n else flagJoinerEncode n true) else joinerEncode n.
Definition regex_key (name cont : bstr) : bstr := regExpresionEncode (name ++ B "_" ++ cont).

(** The marks for zeros, :670-692 (and :914-936): a lone 0 is epsilon, the first @ZERO@ in a
    symbol is the digit. *)
Definition fix_zero (s : bstr) : bstr := replace_zero (if bstr_eqb s (B "0") then ZERO_EPS else s).
Definition fix_pair (p : bstr * bstr) : bstr * bstr := (fix_zero (fst p), fix_zero (snd p)).
(** starts_with(q) and ends_with(q) *)
Definition quoted (q : ascii) (s : bstr) : bool :=
  match s with a :: _ => Ascii.eqb a q && Ascii.eqb (last s a) q | [] => false end.
(** The test before a symbol is added to the alphabet, :693-719: None means continue. *)
Definition note_symbol (s : bstr) (c : lexc) : option lexc :=
  if smem bcmp s (alphabets c) then Some c
  else if quoted "@" s then None
  else if quoted "$" s then None
  else Some (addAlphabet s c).
Definition note_input (p : bstr * bstr) (c : lexc) : lexc :=
  match note_symbol (fst p) c with None => c | Some c1 => c1 end.
(** :937-993 *)
Definition note_pair (p : bstr * bstr) (c : lexc) : lexc :=
  match note_symbol (fst p) c with
  | None => c
  | Some c1 => match note_symbol (snd p) c1 with None => c1 | Some c2 => c2 end
  end.

Section Compiler.
  (** ICU: as in Tok_Model, and the grapheme clusters of a string that have more than one
      code point.  Arguments of the model, not axioms. *)
  Variable grapheme : bstr -> nat.
  Variable valid_utf8 : bstr -> bool.
  Variable clusters : bstr -> list bstr.

  (** tokenizer_.tokenize *)
  Definition tokens (c : lexc) (split : bool) (s : bstr) : res (list (bstr * bstr)) :=
    rbind (configure (map (pair false) (known c)) tok_new) (fun t => tokenize grapheme valid_utf8 split t s).
  Definition pair_tokens (c : lexc) (split : bool) (i o : bstr) : res (list (bstr * bstr)) :=
    rbind (configure (map (pair false) (known c)) tok_new) (fun t => tokenize_pair grapheme valid_utf8 split t i o).

  (** unicodeCheck_, :530-615. *)
  Definition unicodeCheck (data : bstr) (c : lexc) : lexc :=
    if split_characters c then c
    else fold_left (fun c g => if smem bcmp g (alphabets c) then c else addAlphabet g c) (clusters data) c.

  (** What every entry does first, :627-665. *)
  Definition begin_entry (cont : bstr) (c : lexc) : lexc :=
    let c := set_conts (sadd bcmp cont (continuations c)) c in
    add_known ZERO (add_known (B "0") (add_known (name_code c (currentName c)) (add_known (cont_code c cont) c))).

  (** addStringEntry, :618-725. *)
  Definition addStringEntry (data cont : bstr) (weight : Z) (c : lexc) : res lexc :=
    let c := begin_entry cont (unicodeCheck data c) in
    rbind (tokens c (split_characters c) (name_code c (currentName c) ++ data ++ cont_code c cont)) (fun v =>
    let v := map fix_pair v in
    let c := fold_left (fun c p => note_input p c) v c in
    rmap (fun t => set_trie t c) (disjunct (stringsTrie c) v weight)).

  Definition padding (k : nat) : bstr := concat (repeat OTHER_EPS k).
  (** addStringPairEntry, :778-998, with align_strings_ false. *)
  Definition addStringPairEntry (upper lower cont : bstr) (weight : Z) (c : lexc) : res lexc :=
    let c := begin_entry cont (unicodeCheck lower (unicodeCheck upper c)) in
    let name := name_code c (currentName c) in
    let code := cont_code c cont in
    let split := split_characters c in
    rbind (tokens c split upper) (fun us =>
    rbind (tokens c split lower) (fun ls =>
    rbind (pair_tokens c split
             (name ++ upper ++ padding (length ls - length us) ++ code)
             (name ++ lower ++ padding (length us - length ls) ++ code)) (fun v =>
    let v := map fix_pair v in
    let c := fold_left (fun c p => note_pair p c) v c in
    rmap (fun t => set_trie t c) (disjunct (stringsTrie c) v weight)))).

  (** addXreEntry, :1001-1138, for a regular expression that has been compiled to the
      transducer [r] with the alphabet [alpha]. *)
  Definition addXreEntry (r : wlang) (alpha : list bstr) (cont : bstr) (weight : Z) (c : lexc) : res lexc :=
    let c := set_conts (sadd bcmp cont (continuations c)) c in
    let code := cont_code c cont in
    let c := add_known code c in
    let c := fold_left (fun c s => if smem bcmp s (alphabets c) then c
                                   else if bstr_eqb s EPS || bstr_eqb s UNK || bstr_eqb s IDN then c
                                   else addAlphabet s c) alpha c in
    let key := regex_key (currentName c) cont in
    let c := add_known key c in
    let old := match mget bcmp key (regexps c) with Some o => o | None => fun _ _ => False end in
    let c := set_regexps (mset bcmp key (w_or old r) (regexps c)) c in
    let name := name_code c (currentName c) in
    let c := add_known name c in
    rbind (tokens c false (name ++ key ++ code)) (fun v =>
    rmap (fun t => set_trie t c) (disjunct (stringsTrie c) v weight)).

  (** setInitialLexiconName, :1243-1251. *)
  Definition setInitialLexiconName (n : bstr) (c : lexc) : lexc :=
    let c := set_initial n c in
    let c := set_names (sadd bcmp n (lexiconNames c)) c in
    set_conts (sadd bcmp n (continuations c)) c.
  (** setCurrentLexiconName, :1156-1241.  [first] is the static variable firstLexicon,
      which all compilers of the process share; it becomes false. *)
  Definition setCurrentLexiconName (first : bool) (n : bstr) (c : lexc) : lexc :=
    let c := set_current n c in
    let c := set_names (sadd bcmp n (lexiconNames c)) c in
    let c := if smem bcmp n (noFlags c) then add_known (joinerEncode n) c
             else let e := flagJoinerEncode n false in
                  add_known (flagJoinerEncode e true) (add_known e c) in
    if first || bstr_eqb n ROOT then setInitialLexiconName n c else c.

  (** * compileLexical, :1254-1653 *)
  (** :1285-1291 *)
  Definition small_substitutions : list (bstr * bstr) :=
    [(ZERO_EPS, EPS); (OTHER_EPS, EPS); (ZERO, B "0")].
  (** Symbols that are not copied to the filter, :1396-1411. *)
  Definition hidden_symbol (s : bstr) : bool :=
    existsb (fun p => bstr_eqb (firstn (length p) s) p)
      [OTHER_EPS; B "$_LEXC_JOINER."; B "@_"; B "$P.LEXNAME."; B "$R.LEXNAME."].
  (** One filter element per lexicon name, :1309-1323 and :1363-1380. *)
  Fixpoint joiner_words (c : lexc) (l r : bstr -> bstr) (ns : list bstr) : res (list (list (bstr * bstr))) :=
    match ns with
    | [] => Ok []
    | n :: ns => rbind (tokens c false (l n ++ r n)) (fun v => rmap (cons v) (joiner_words c l r ns))
    end.
  (** joinersAll, :1384-1427: each symbol of the output side may stand anywhere
      (tokenize(alph) gives the one token alph, which has just been added). *)
  Definition joiners_all (words : list (list (bstr * bstr))) (lexicons : wlang) : wlang :=
    w_star (fun l w => w = 0%Z /\ (In l words \/
      exists y l0 w0, lexicons l0 w0 /\ In y (map snd l0) /\ hidden_symbol y = false /\ l = [(y, y)])).
  (** replace(alph.begin(), alph.end(), '$', '@') *)
  Definition dollars (s : bstr) : bstr := map (fun b => if Ascii.eqb b "$" then "@"%char else b) s.
  (** :1466-1478 *)
  Definition real_flag (s : bstr) : bstr :=
    if quoted "$" s && (2 <? length s) then dollars s else s.
  (** Up to :1577: the transducer rv. *)
  Definition compile_paths (c : lexc) : res wlang :=
    let lexicons := w_map (substitute small_substitutions) (w_star (w_graph (stringsTrie c))) in
    let init := initialName c in
    rbind (if with_flags c then
             let c1 := add_known (flagJoinerEncode HASH true) (add_known (flagJoinerEncode HASH false) c) in
             rbind (tokens c false (flagJoinerEncode init false)) (fun start =>
             rbind (tokens c1 false (flagJoinerEncode HASH true)) (fun stop =>
             rbind (joiner_words c1 (fun n => flagJoinerEncode n false) (fun n => flagJoinerEncode n true) (lexiconNames c)) (fun words =>
             Ok (start, stop, words))))
           else
             rbind (tokens c false (joinerEncode init)) (fun start =>
             rbind (tokens c false (joinerEncode HASH)) (fun stop =>
             rbind (joiner_words c joinerEncode joinerEncode (lexiconNames c)) (fun words =>
             Ok (start, stop, words)))))
    (fun '(start, stop, words) =>
    let lexicons := w_cat (w_cat (w_word start) lexicons) (w_word stop) in
    let lexicons := w_compose lexicons (joiners_all words lexicons) in
    let lexicons :=
      if with_flags c then w_map real_flag lexicons
      else w_map (substitute (map (fun n => (joinerEncode n, EPS)) (init :: HASH :: lexiconNames c))) lexicons in
    let lexicons := w_map (substitute (map (fun p => (fst p, dollars (fst p))) (regexps c))) lexicons in
    Ok (w_insert (map (fun p => (dollars (fst p), snd p)) (regexps c)) lexicons)).

  (** The flags of lexicon names, :1583-1595. *)
  Definition lexname_flag (s : bstr) : bool :=
    bstr_eqb (firstn 10 s) (B "@P.LEXNAME") || bstr_eqb (firstn 10 s) (B "@R.LEXNAME").
  (** The rule FLAG -> 0 || FLAG _, :1597-1646, by its meaning. *)
  Fixpoint filter_flags (after_flag : bool) (l : list bstr) : list bstr :=
    match l with
    | [] => []
    | s :: r =>
        if lexname_flag s then (if after_flag then filter_flags true r else s :: filter_flags true r)
        else s :: filter_flags false r
    end.
  (** The whole function: the relation of the transducer it returns. *)
  Definition compileLexical (c : lexc) : res wrel :=
    rmap (fun rv =>
      if with_flags c then
        fun x y w => exists x0 y0, relation rv x0 y0 w /\ x = filter_flags false x0 /\ y = filter_flags false y0
      else relation rv) (compile_paths c).

  (** * A session: the calls made while a grammar is read *)
  Inductive call :=
  | Alphabet (s : bstr)
  | NoFlag (s : bstr)
  | Lexicon (n : bstr)
  | Initial (n : bstr)
  | Word (data cont : bstr) (w : Z)
  | Pair (upper lower cont : bstr) (w : Z)
  | Regex (r : wlang) (alpha : list bstr) (cont : bstr) (w : Z).
  Definition do_call (k : call) (s : lexc * bool) : res (lexc * bool) :=
    let '(c, first) := s in
    match k with
    | Alphabet a => Ok (addAlphabet a c, first)
    | NoFlag n => Ok (addNoFlag n c, first)
    | Lexicon n => Ok (setCurrentLexiconName first n c, false)
    | Initial n => Ok (setInitialLexiconName n c, first)
    | Word d k w => rmap (fun c => (c, first)) (addStringEntry d k w c)
    | Pair u l k w => rmap (fun c => (c, first)) (addStringPairEntry u l k w c)
    | Regex r a k w => rmap (fun c => (c, first)) (addXreEntry r a k w c)
    end.
  Fixpoint do_calls (ks : list call) (s : lexc * bool) : res (lexc * bool) :=
    match ks with [] => Ok s | k :: ks => rbind (do_call k s) (do_calls ks) end.
End Compiler.
