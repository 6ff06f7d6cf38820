(** Reading the optimized-lookup tables: lookup, and conversion back to a basic transducer.
    Models libhfst/src/implementations/optimized-lookup/transducer.cc (line numbers without a
    file name refer to it), ospell.cc and ConvertOlTransducer.cc.

    Simplifications (whole file):
    - the tables are not changed by a lookup, so the entries a loop visits are collected first
      and then handled one after another;
    - the current weight, the flag values, the tape positions and the recursion depth are
      restored exactly on return (weights are integers here), so they are arguments;
    - the output tape is the list of the pairs written so far, the input tape the list of the
      symbols left;
    - no time limit is given. *)
From Verif Require Import Base Flags_Model BT_Model An_Model LK_Model OLF_Model OLC_Model.
From Verif Require Tok_Model.
Local Open Scope N_scope.

(** * Table access, transducer.h:674-678: unchecked, so undefined behaviour outside *)
Definition table_pos (i : N) : nat := N.to_nat (if i <? TA_OFFSET then i else i - TA_OFFSET).
Definition get_index (t : tables) (i : N) : res index_entry :=
  match nth_error (t_index t) (table_pos i) with Some e => Ok e | None => Ub end.
Definition get_transition (t : tables) (i : N) : res trans_entry :=
  match nth_error (t_trans t) (table_pos i) with Some e => Ok e | None => Ub end.
Definition transitions_from (t : tables) (i : N) : list trans_entry := skipn (table_pos i) (t_trans t).

(** The entries a loop over the transition table visits while a test holds. *)
Fixpoint run_of (test : trans_entry -> bool) (l : list trans_entry) : res (list trans_entry) :=
  match l with
  | [] => Ub
  | e :: r => if test e then rmap (cons e) (run_of test r) else Ok []
  end.

(** TransducerAlphabet::is_flag_diacritic, transducer.h:420-421. *)
Definition is_flag_symbol (a : alphabet) (k : N) : bool :=
  match mget Nat.compare (N.to_nat k) (operations (a_fd a)) with Some _ => true | None => false end.
(** TransducerAlphabet::is_meta_arc, :132-139. *)
Definition is_meta_arc (a : alphabet) (k : N) : bool :=
  negb (k =? OLF_Model.NO_SYMBOL) && ((k =? a_unknown a) || (k =? a_default a) || (k =? a_identity a)).

(** Tests of the loops in try_epsilon_transitions, :464-510, and find_transitions, :526-559. *)
Definition free_entry (a : alphabet) (e : trans_entry) : bool :=
  (te_input e =? 0) || is_flag_symbol a (te_input e).
Definition entry_with (x : N) (e : trans_entry) : bool :=
  negb (te_input e =? OLF_Model.NO_SYMBOL) && (te_input e =? x).

(** try_epsilon_transitions and try_epsilon_indices, :464-524, as called by get_analyses in
    state [i]: the entries visited, and whether an index entry was found. *)
Definition free_entries (a : alphabet) (t : tables) (i : N) : res (bool * list trans_entry) :=
  if TA_OFFSET <=? i then
    rmap (pair false) (run_of (free_entry a) (transitions_from t (i - TA_OFFSET + 1)))
  else
    rbind (get_index t (i + 1)) (fun e =>
    if ie_input e =? 0 then rmap (pair true) (run_of (free_entry a) (transitions_from t (ie_target e - TA_OFFSET)))
    else Ok (false, [])).

(** find_transitions and find_index, :526-575, as called by get_analyses in state [i]. *)
Definition symbol_entries (t : tables) (i x : N) : res (bool * list trans_entry) :=
  if TA_OFFSET <=? i then
    rmap (pair false) (run_of (entry_with x) (transitions_from t (i - TA_OFFSET + 1)))
  else
    rbind (get_index t (i + 1 + x)) (fun e =>
    if ie_input e =? x then rmap (pair true) (run_of (entry_with x) (transitions_from t (ie_target e - TA_OFFSET)))
    else Ok (false, [])).

(** TraversalState, transducer.h:81-90, find_epsilon_loops.cc:16-46 (all vectors of values of a
    transducer have the same length). *)
Definition trav : Type := N * list Z.
Definition trav_eqb (p q : trav) : bool :=
  (fst p =? fst q) && (if list_eq_dec Z.eq_dec (snd p) (snd q) then true else false).

(** What get_analyses changes: lookup_paths, traversal_states, found_transition. *)
Record lstate := LState { l_results : list tlp; l_travs : list trav; l_found : bool }.
Definition set_found (b : bool) (st : lstate) : lstate := LState (l_results st) (l_travs st) b.
Definition set_travs (l : list trav) (st : lstate) : lstate := LState (l_results st) l (l_found st).
Definition add_trav (p : trav) (st : lstate) : lstate := set_travs (p :: l_travs st) st.
Definition del_trav (p : trav) (st : lstate) : lstate :=
  set_travs (filter (fun q => negb (trav_eqb p q)) (l_travs st)) st.
Definition has_trav (p : trav) (st : lstate) : bool := existsb (trav_eqb p) (l_travs st).

(** string_from_symbol, transducer.h:435-437. *)
Definition string_from_symbol (a : alphabet) (k : N) : bstr :=
  if k =? 0 then [] else nth (N.to_nat k) (a_table a) [].

Section Lookup.
  Variable dec : N -> Z.
  Variable a : alphabet.
  Variable t : tables.
  (** max_lookups, negative = None. *)
  Variable limit : option nat.

  Definition weight_of (e : trans_entry) : Z := if t_wclass t then dec (te_weight e) else 0%Z.
  (** get_transition_finality and get_weight; get_index_finality and get_final_weight. *)
  Definition final_weight (i : N) : res (option Z) :=
    if TA_OFFSET <=? i then
      rmap (fun e => if trans_final e then Some (weight_of e) else None) (get_transition t (i - TA_OFFSET))
    else
      rmap (fun e => if index_final e then Some (if t_wclass t then dec (ie_target e) else 0%Z) else None) (get_index t i).

  (** note_analysis, :704-714. *)
  Definition note_analysis (w : Z) (path : list (N * N)) (st : lstate) : lstate :=
    LState (sadd tlpcmp (w, map (fun p => (string_from_symbol a (fst p), string_from_symbol a (snd p))) path) (l_results st))
      (l_travs st) (l_found st).

  Definition enough_results (st : lstate) : bool :=
    match limit with Some m => (m <=? length (l_results st))%nat | None => false end.

  (** get_analyses, :580-702, with the bodies of the loops of try_epsilon_transitions,
      :464-510, and find_transitions, :526-559.  [depth] is recursion_depth_left. *)
  Fixpoint get_analyses (depth : nat) (input : list N) (path : list (N * N)) (w : Z) (fs : fdstate) (i : N)
      (st : lstate) : res lstate :=
    match depth with
    | O => Ok (set_found false st)
    | S depth' =>
        let st := set_found false st in
        if enough_results st then Ok st
        else
          rbind (match input with
                 | [] => rmap (fun o => match o with Some fw => note_analysis (w + fw) path st | None => st end) (final_weight i)
                 | _ => Ok st
                 end) (fun st =>
          rbind (free_entries a t i) (fun '(hit, es) =>
          let fix free (es : list trans_entry) (st : lstate) : res lstate :=
            match es with
            | [] => Ok st
            | e :: r =>
                let path' := path ++ [(te_input e, te_output e)] in
                if te_input e =? 0 then
                  rbind (get_analyses depth' input path' (w + weight_of e) fs (te_target e) st) (fun st =>
                  free r (set_found true st))
                else
                  match mget Nat.compare (N.to_nat (te_input e)) (operations (a_fd a)) with
                  | None => Ub
                  | Some op =>
                      match apply_op op fs with
                      | None => Ub
                      | Some (_, false) => free r st
                      | Some (fs', true) =>
                          let p := (te_target e, fs_values fs) in
                          if has_trav p st then free r st
                          else
                            rbind (get_analyses depth' input path' (w + weight_of e) fs' (te_target e) (add_trav p st)) (fun st =>
                            free r (set_found true (del_trav p st)))
                      end
                  end
            end in
          rbind (free es st) (fun st =>
          let st := if hit then set_found true st else st in
          match input with
          | [] => Ok st
          | x :: rest =>
              let fix consume (es : list trans_entry) (st : lstate) : res lstate :=
                match es with
                | [] => Ok st
                | e :: r =>
                    let out := if is_meta_arc a (te_output e) then x else te_output e in
                    rbind (get_analyses depth' rest (path ++ [(te_input e, out)]) (w + weight_of e) fs (te_target e) (set_travs [] st)) (fun st =>
                    consume r (set_found true st))
                end in
              let attempt (y : N) (st : lstate) : res lstate :=
                rbind (symbol_entries t i y) (fun '(hit, es) =>
                rbind (consume es st) (fun st => Ok (if hit then set_found true st else st))) in
              rbind (if x <? a_orig_count a then attempt x st
                     else
                       rbind (if a_identity a =? OLF_Model.NO_SYMBOL then Ok st else attempt (a_identity a) st) (fun st =>
                       if a_unknown a =? OLF_Model.NO_SYMBOL then Ok st else attempt (a_unknown a) st)) (fun st =>
              if negb (a_default a =? OLF_Model.NO_SYMBOL) && negb (l_found st) then attempt (a_default a) st else Ok st)
          end)))
    end.
End Lookup.

(** * Tokenization of the input *)

(** nByte_utf8, ospell.cc:13-28. *)
Definition nbyte_utf8 (c : ascii) : nat :=
  match c with
  | Ascii _ _ _ _ b4 b5 b6 b7 =>
      if negb b7 then 1%nat
      else if b6 && b5 && b4 then 4%nat else if b6 && b5 then 3%nat else if b6 then 2%nat else 0%nat
  end.

(** initialize_input, :313-343: the symbols of the input (None: tokenization failed), and the
    alphabet and encoder, which gain the unknown characters.  A character cut off by the end of
    the string is copied past the end.  Numbers are not wrapped at 16 bits.  Every turn moves
    on by one byte at least; [fuel] bounds the number of turns. *)
Fixpoint initialize_input (fuel : nat) (s : bstr) (al : alphabet) (en : Tok_Model.encoder)
  : res (option (list N) * alphabet * Tok_Model.encoder) :=
  match s with
  | [] => Ok (Some [], al, en)
  | c :: _ =>
      match fuel with
      | O => Diverge
      | S fuel' =>
          rbind (Tok_Model.encoder_find_key en s) (fun '(k, n) =>
          if k =? OLF_Model.NO_SYMBOL then
            match nbyte_utf8 c with
            | O => Ok (None, al, en)
            | n =>
                if (length s <? n)%nat then Ub
                else
                  let x := firstn n s in
                  let k := N.of_nat (length (a_table al)) in
                  rbind (Tok_Model.read_input_symbol x k en) (fun en =>
                  rbind (initialize_input fuel' (skipn n s) (set_table al (a_table al ++ [x])) en) (fun '(o, al, en) =>
                  Ok (option_map (cons k) o, al, en)))
            end
          else
            rbind (initialize_input fuel' (skipn n s) al en) (fun '(o, al, en) =>
            Ok (option_map (cons k) o, al, en)))
      end
  end.

(** Encoder::read_input_symbols, :279-284. *)
Definition new_encoder (al : alphabet) (inputs : nat) : res Tok_Model.encoder :=
  Tok_Model.register (combine (firstn inputs (a_table al)) (map N.of_nat (seq 0 inputs))) Tok_Model.encoder_new.

(** MAX_RECURSION_DEPTH, transducer.h:112. *)
Definition MAX_RECURSION_DEPTH : nat := N.to_nat 5000.

(** lookup_fd_pairs, :441-462, and the growing parts of the transducer afterwards.  The paths of
    lookup_fd, :408-439, are those of lookup_fd_pairs without the input symbols. *)
Definition lookup_fd_pairs (dec : N -> Z) (depth : nat) (limit : option nat) (t : tables) (al : alphabet) (en : Tok_Model.encoder) (s : bstr)
  : res (list tlp * alphabet * Tok_Model.encoder) :=
  rbind (initialize_input (length s) s al en) (fun '(o, al, en) =>
  match o with
  | None => Ok ([], al, en)
  | Some input =>
      rmap (fun st => (l_results st, al, en))
        (get_analyses dec al t limit depth input [] 0%Z (fdstate_new (a_fd al)) 0 (LState [] [] false))
  end).

(** * Conversion back *)

(** TransducerAlphabet::is_like_epsilon, :115-130. *)
Definition is_like_epsilon (al : alphabet) (k : N) : bool :=
  is_flag_symbol al k
  || match nth_error (a_table al) (N.to_nat k) with
     | Some s => (5 <=? length s)%nat && is_insertion s
     | None => false
     end.

(** The loop :911-921: positions of the entries with input [k] among the epsilons and flags. *)
Fixpoint like_epsilon_run (al : alphabet) (k : N) (pos : N) (l : list trans_entry) : res (list N) :=
  match l with
  | [] => Ub
  | e :: r =>
      if entry_with k e then rmap (cons pos) (like_epsilon_run al k (pos + 1) r)
      else if negb (te_input e =? 0) && negb (is_like_epsilon al (te_input e)) then Ok []
      else like_epsilon_run al k (pos + 1) r
  end.
Fixpoint positions_while (test : trans_entry -> bool) (pos : N) (l : list trans_entry) : res (list N) :=
  match l with
  | [] => Ub
  | e :: r => if test e then rmap (cons pos) (positions_while test (pos + 1) r) else Ok []
  end.

(** get_transitions_from_state, :895-964: a std::set of positions, gathered in ascending
    order of the symbols; [throw] outside a handler terminates. *)
Definition state_positions (al : alphabet) (t : tables) (i k : N) : res (list N) :=
  if is_like_epsilon al k then
    rbind (get_index t (i + 1)) (fun e =>
    if entry_with 0 {| te_input := ie_input e; te_output := 0; te_target := 0; te_weight := 0 |}
    then like_epsilon_run al k (ie_target e) (transitions_from t (ie_target e))
    else Ok [])
  else
    rbind (get_index t (i + 1 + k)) (fun e =>
    if negb (ie_input e =? OLF_Model.NO_SYMBOL) && (ie_input e =? k)
    then positions_while (entry_with k) (ie_target e) (transitions_from t (ie_target e))
    else Ok []).
Definition get_transitions_from_state (h : header) (al : alphabet) (t : tables) (i : N) : res (list N) :=
  if i <? TA_OFFSET then
    rmap (fun l => fold_left (fun acc p => sadd N.compare p acc) (concat l) [])
      (rseq (map (fun k => state_positions al t i (N.of_nat k)) (seq 0 (N.to_nat (h_symbols h)))))
  else
    rbind (get_transition t i) (fun e =>
    if negb (te_input e =? OLF_Model.NO_SYMBOL) || negb (te_output e =? OLF_Model.NO_SYMBOL) then Throw
    else positions_while (fun e => negb (te_input e =? OLF_Model.NO_SYMBOL)) (i + 1) (transitions_from t (i + 1))).

(** hfst_ol_to_hfst_basic_transducer, ConvertOlTransducer.cc:79-139, with
    hfst_ol_to_hfst_basic_add_state, :33-75. *)
Section Back.
  Variable dec : N -> Z.
  Variable tr : transducer.
  Let h := tr_header tr.
  Let al := tr_alphabet tr.
  Let t := tr_tables tr.

  (** State number [s] for table index [i]; final weights of an unweighted header are 0. *)
  Definition back_add_state (g : graph) (map : list (N * nat)) (i : N) (s : nat) : res (graph * list (N * nat)) :=
    rbind (final_weight dec t i) (fun o =>
    Ok (match o with
        | Some w => set_final_weight (add_state_n g s) s (if h_weighted h then w else 0%Z)
        | None => g
        end, mset N.compare i s map)).

  Record back := Back { b_graph : graph; b_map : list (N * nat); b_last : nat; b_agenda : list N }.

  (** One transition found in state number [s]. *)
  Definition back_arc (s : nat) (b : back) (p : N) : res back :=
    rbind (get_transition t p) (fun e =>
    rbind (match mget N.compare (te_target e) (b_map b) with
           | Some _ => Ok b
           | None =>
               rbind (back_add_state (b_graph b) (b_map b) (te_target e) (S (b_last b))) (fun '(g, m) =>
               Ok (Back g m (S (b_last b)) (te_target e :: b_agenda b)))
           end) (fun b =>
    match mget N.compare (te_target e) (b_map b),
          nth_error (a_table al) (N.to_nat (te_input e)), nth_error (a_table al) (N.to_nat (te_output e)) with
    | Some s', Some x, Some y =>
        Ok (Back (add_transition (b_graph b) s
                    (Arc s' x y (if h_weighted h then weight_of dec t e else 0%Z)) true)
              (b_map b) (b_last b) (b_agenda b))
    | _, _, _ => Ub
    end)).

  Fixpoint back_loop (fuel : nat) (b : back) : res graph :=
    match b_agenda b with
    | [] => Ok (b_graph b)
    | i :: r =>
        match fuel with
        | O => Diverge
        | S fuel' =>
            match mget N.compare i (b_map b) with
            | None => Ub
            | Some s =>
                rbind (get_transitions_from_state h al t i) (fun ps =>
                rbind (fold_left (fun rb p => rbind rb (fun b => back_arc s b p)) ps
                         (Ok (Back (b_graph b) (b_map b) (b_last b) r))) (back_loop fuel'))
            end
        end
    end.

  Definition of_ol (fuel : nat) : res graph :=
    let g := add_symbols empty_graph (a_table al) in
    rbind (back_add_state g [] 0 0) (fun '(g, m) => back_loop fuel (Back g m 0 [0])).
End Back.
