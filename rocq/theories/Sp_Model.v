(** Model of the spell checker of the optimized-lookup backend:
    /repo/libhfst/src/implementations/optimized-lookup/ospell.cc, and the functions of
    transducer.cc:966-1035 it uses.

    Simplifications: weights are integers ([dec] reads the stored ones), table indexes and symbol
    numbers do not wrap, the priority queue that hands out the corrections is the map it is filled
    from, and [fuel] bounds the number of turns of the main loops ([Diverge] = not enough). *)
From Coq Require Import NArith.
From Verif Require Import Base OrdMap Flags_Model OLF_Model OLC_Model OLL_Model.
From Verif Require Tok_Model.
Local Open Scope N_scope.

(** * Input *)

(** InputString::initialize, ospell.cc:30-68: the symbol numbers of the text, None = false.
    Skipping a character that is cut off by the end of the text leaves the string. *)
Fixpoint input_initialize (fuel : nat) (en : Tok_Model.encoder) (s : bstr) (other : N) : res (option (list N)) :=
  match s with
  | [] => Ok (Some [])
  | c :: _ =>
      match fuel with
      | O => Diverge
      | S fuel' =>
          rbind (Tok_Model.encoder_find_key en s) (fun '(k, n) =>
          if k =? OLF_Model.NO_SYMBOL then
            match nbyte_utf8 c with
            | O => Ok None
            | n =>
                if other =? OLF_Model.NO_SYMBOL then Ok None
                else if (length s <? n)%nat then Ub
                else rmap (option_map (cons other)) (input_initialize fuel' en (skipn n s) other)
            end
          else rmap (option_map (cons k)) (input_initialize fuel' en (skipn n s) other))
      end
  end.

(** * Walking the tables *)

(** Transducer::next, transducer.cc:966-974. *)
Definition next (t : tables) (i x : N) : res N :=
  if TA_OFFSET <=? i then Ok (i - TA_OFFSET + 1)
  else rmap (fun e => ie_target e - TA_OFFSET) (get_index t (i + 1 + x)).

(** Transducer::has_transitions, transducer.cc:976-984. *)
Definition has_transitions (t : tables) (i x : N) : res bool :=
  if TA_OFFSET <=? i then rmap (fun e => te_input e =? x) (get_transition t (i - TA_OFFSET))
  else rmap (fun e => ie_input e =? x) (get_index t (i + x)).

(** Transducer::has_epsilons_or_flags, transducer.cc:986-996. *)
Definition has_epsilons_or_flags (a : alphabet) (t : tables) (i : N) : res bool :=
  if TA_OFFSET <=? i then rmap (free_entry a) (get_transition t (i - TA_OFFSET))
  else rmap (fun e => ie_input e =? 0) (get_index t i).

(** The entries a loop [i_s = take(next); while (i_s.symbol != NO_SYMBOL_NUMBER) ...] visits from
    number [i] on: take_epsilons, take_epsilons_and_flags and take_non_epsilons,
    transducer.cc:998-1028, give an entry's output symbol if the input symbol passes [test], and
    NO_SYMBOL_NUMBER otherwise. *)
Definition take_while (test : trans_entry -> bool) (t : tables) (i : N) : res (list trans_entry) :=
  run_of (fun e => test e && negb (te_output e =? OLF_Model.NO_SYMBOL)) (transitions_from t i).

(** The epsilon and flag entries of the state at [i], as in ospell.cc:125-132, 146-148. *)
Definition free_arcs (a : alphabet) (t : tables) (i : N) : res (list trans_entry) :=
  rbind (has_epsilons_or_flags a t (i + 1)) (fun b =>
  if b then rbind (next t i 0) (take_while (free_entry a) t) else Ok []).
(** The entries of the state at [i] with input symbol [x], as in ospell.cc:152-164, 172-174,
    182-188, 193-207, 228-240, 251-267. *)
Definition symbol_arcs (t : tables) (i x : N) : res (list trans_entry) :=
  rbind (has_transitions t (i + 1) x) (fun b =>
  if b then rbind (next t i x) (take_while (fun e => te_input e =? x) t) else Ok []).

(** Transducer::final_index, transducer.h:1012-1019. *)
Definition final_index (t : tables) (i : N) : res bool :=
  if TA_OFFSET <=? i then rmap trans_final (get_transition t (i - TA_OFFSET)) else rmap index_final (get_index t i).

(** * Search nodes *)

(** class TreeNode, transducer.h:1221-1247. *)
Record node := Node {
  n_string : list N;
  n_input : nat;
  n_mutator : N;
  n_lexicon : N;
  n_flags : fdstate;
  n_weight : Z
}.
Definition start_node (a : alphabet) : node := Node [] 0 0 0 (fdstate_new (a_fd a)) 0.

(** TreeNode::update_lexicon, update_mutator, update, ospell.cc:70-123. *)
Definition update_lexicon (n : node) (x i : N) (w : Z) : node :=
  Node (n_string n ++ [x]) (n_input n) (n_mutator n) i (n_flags n) (n_weight n + w).
Definition update_mutator (n : node) (x i : N) (w : Z) : node :=
  Node (n_string n ++ [x]) (n_input n) i (n_lexicon n) (n_flags n) (n_weight n + w).
Definition update_input (n : node) (x : N) (pos : nat) (m i : N) (w : Z) : node :=
  Node (n_string n ++ [x]) pos m i (n_flags n) (n_weight n + w).
Definition update_both (n : node) (x m i : N) (w : Z) : node :=
  Node (n_string n ++ [x]) (n_input n) m i (n_flags n) (n_weight n + w).
Definition set_flags (n : node) (fs : fdstate) : node :=
  Node (n_string n) (n_input n) (n_mutator n) (n_lexicon n) fs (n_weight n).

Section Lexicon.
  Variable dec : N -> Z.
  (** the lexicon *)
  Variable a : alphabet.
  Variable t : tables.
  Definition entry_weight (tb : tables) (e : trans_entry) : Z := if t_wclass tb then dec (te_weight e) else 0%Z.

  (** The body of the loop of lexicon_epsilons, ospell.cc:133-145: what is pushed. *)
  Fixpoint push_free (n : node) (es : list trans_entry) : res (list node) :=
    match es with
    | [] => Ok []
    | e :: r =>
        if te_input e =? 0 then
          rmap (cons (update_lexicon n (te_output e) (te_target e) (entry_weight t e))) (push_free n r)
        else
          match apply_symbol (a_fd a) (N.to_nat (te_input e)) (n_flags n) with
          | None => Ub
          | Some (fs, true) =>
              rmap (cons (update_lexicon (set_flags n fs) (te_output e) (te_target e) (entry_weight t e))) (push_free n r)
          | Some (_, false) => push_free n r
          end
    end.
  (** Speller::lexicon_epsilons, ospell.cc:125-150. *)
  Definition lexicon_epsilons (n : node) : res (list node) := rbind (free_arcs a t (n_lexicon n)) (push_free n).

  (** Speller::lexicon_consume, ospell.cc:152-178. *)
  Definition lexicon_consume (input : list N) (n : node) : res (list node) :=
    match nth_error input (n_input n) with
    | None => Ok []
    | Some x =>
        rmap (map (fun e => update_input n (te_output e) (S (n_input n)) (n_mutator n) (te_target e) (entry_weight t e)))
          (symbol_arcs t (n_lexicon n) x)
    end.

  (** The loop of Speller::check, ospell.cc:341-349. *)
  Fixpoint check_loop (fuel : nat) (input : list N) (queue : list node) : res bool :=
    match queue with
    | [] => Ok false
    | n :: q =>
        match fuel with
        | O => Diverge
        | S fuel' =>
            rbind (if (n_input n =? length input)%nat then final_index t (n_lexicon n) else Ok false) (fun f =>
            if f then Ok true
            else
              rbind (lexicon_epsilons n) (fun c1 =>
              rbind (lexicon_consume input n) (fun c2 =>
              check_loop fuel' input (q ++ c1 ++ c2))))
        end
    end.
  (** Speller::check, ospell.cc:334-351; [en] is the lexicon's encoder. *)
  Definition check (fuel : nat) (en : Tok_Model.encoder) (line : bstr) : res bool :=
    rbind (input_initialize (length line) en line OLF_Model.NO_SYMBOL) (fun o =>
    match o with
    | None => Ok false
    | Some input => check_loop fuel input [start_node a]
    end).

  (** * Corrections *)

  (** the mutator, and alphabet_translator *)
  Variable mt : tables.
  Variable translator : list N.
  (** alphabet_translator[x]: unchecked. *)
  Definition translate (x : N) : res N :=
    match nth_error translator (N.to_nat x) with Some y => Ok y | None => Ub end.

  (** The body of the loop of mutator_epsilons, ospell.cc:186-217. *)
  Fixpoint push_epsilons (n : node) (es : list trans_entry) : res (list node) :=
    match es with
    | [] => Ok []
    | e :: r =>
        rbind (if te_output e =? 0 then Ok [update_mutator n (te_output e) (te_target e) (entry_weight mt e)]
               else
                 rbind (translate (te_output e)) (fun y =>
                 rmap (map (fun l => update_both n (te_output l) (te_target e) (te_target l) (entry_weight t l + entry_weight mt e)))
                   (symbol_arcs t (n_lexicon n) y))) (fun c =>
        rmap (app c) (push_epsilons n r))
    end.
  (** Speller::mutator_epsilons, ospell.cc:180-219 (take_epsilons is take_non_epsilons for 0). *)
  Definition mutator_epsilons (n : node) : res (list node) := rbind (symbol_arcs mt (n_mutator n) 0) (push_epsilons n).

  (** The body of the loop of consume_input, ospell.cc:238-282. *)
  Fixpoint push_consumed (n : node) (es : list trans_entry) : res (list node) :=
    match es with
    | [] => Ok []
    | e :: r =>
        rbind (if te_output e =? 0 then Ok [update_input n 0 (S (n_input n)) (te_target e) (n_lexicon n) (entry_weight mt e)]
               else
                 rbind (translate (te_output e)) (fun y =>
                 rmap (map (fun l => update_input n (te_output l) (S (n_input n)) (te_target e) (te_target l) (entry_weight t l + entry_weight mt e)))
                   (symbol_arcs t (n_lexicon n) y))) (fun c =>
        rmap (app c) (push_consumed n r))
    end.
  (** Speller::consume_input, ospell.cc:221-284. *)
  Definition consume_input (input : list N) (n : node) : res (list node) :=
    match nth_error input (n_input n) with
    | None => Ok []
    | Some x => rbind (symbol_arcs mt (n_mutator n) x) (push_consumed n)
    end.

  (** Transducer::final_weight, transducer.cc:1030-1037. *)
  Definition final_weight_at (tb : tables) (i : N) : res Z :=
    if TA_OFFSET <=? i then rmap (entry_weight tb) (get_transition tb (i - TA_OFFSET))
    else rmap (fun e => if t_wclass tb then dec (ie_target e) else 0%Z) (get_index tb i).

  (** Speller::stringify, ospell.cc:353-361: unchecked reads of the lexicon's symbol table. *)
  Fixpoint stringify (l : list N) : res bstr :=
    match l with
    | [] => Ok []
    | x :: r => match nth_error (a_table a) (N.to_nat x) with Some y => rmap (app y) (stringify r) | None => Ub end
    end.

  (** ospell.cc:305-319: a correction that is new or better than before is recorded. *)
  Definition record_correction (n : node) (found : list (bstr * Z)) : res (list (bstr * Z)) :=
    rbind (final_index mt (n_mutator n)) (fun f1 =>
    rbind (if f1 then final_index t (n_lexicon n) else Ok false) (fun f2 =>
    if f2 then
      rbind (stringify (n_string n)) (fun str =>
      rbind (final_weight_at t (n_lexicon n)) (fun w1 =>
      rbind (final_weight_at mt (n_mutator n)) (fun w2 =>
      let w := (n_weight n + w1 + w2)%Z in
      Ok (match mget bcmp str found with
          | Some w0 => if (w <? w0)%Z then mset bcmp str w found else found
          | None => mset bcmp str w found
          end))))
    else Ok found)).

  (** The loop of Speller::correct, ospell.cc:297-324. *)
  Fixpoint correct_loop (fuel : nat) (input : list N) (queue : list node) (found : list (bstr * Z)) : res (list (bstr * Z)) :=
    match queue with
    | [] => Ok found
    | n :: q =>
        match fuel with
        | O => Diverge
        | S fuel' =>
            rbind (lexicon_epsilons n) (fun c1 =>
            rbind (mutator_epsilons n) (fun c2 =>
            if (n_input n =? length input)%nat then
              rbind (record_correction n found) (fun found =>
              correct_loop fuel' input (q ++ c1 ++ c2) found)
            else
              rbind (consume_input input n) (fun c3 =>
              correct_loop fuel' input (q ++ c1 ++ c2 ++ c3) found)))
        end
    end.
  (** Speller::correct, ospell.cc:287-332; [en] is the mutator's encoder, [other] its unknown symbol.
      The result is the set of corrections with their weights. *)
  Definition correct (fuel : nat) (en : Tok_Model.encoder) (other : N) (line : bstr) : res (list (bstr * Z)) :=
    rbind (input_initialize (length line) en line other) (fun o =>
    match o with
    | None => Ok []
    | Some input => correct_loop fuel input [start_node a] []
    end).
End Lexicon.

(** TransducerAlphabet::build_string_symbol_map, transducer.cc:106-113. *)
Definition string_symbol_map (to : list bstr) : list (bstr * N) :=
  fst (fold_left (fun '(m, i) x => (mset bcmp x i m, i + 1)) to ([], 0)).

(** The loop of Speller::build_alphabet_translator, ospell.cc:378-395, from symbol number [i] of
    the mutator on.  operator[] adds an entry for an unknown name, but that can only be the empty one,
    with the value 0 it gets. *)
Fixpoint translator_loop (from : alphabet) (to : list (bstr * N)) (i : N) (names : list bstr) : res (list N) :=
  match names with
  | [] => Ok []
  | x :: r =>
      if is_flag_symbol from i || (i =? a_unknown from) then
        rmap (cons OLF_Model.NO_SYMBOL) (translator_loop from to (i + 1) r)
      else
        match mget bcmp x to with
        | Some y => rmap (cons y) (translator_loop from to (i + 1) r)
        | None => match x with [] => rmap (cons 0) (translator_loop from to (i + 1) r) | _ => Throw end
        end
  end.
(** Speller::build_alphabet_translator, ospell.cc:371-396. *)
Definition build_alphabet_translator (mutator lexicon : alphabet) : res (list N) :=
  rmap (cons 0) (translator_loop mutator (string_symbol_map (a_table lexicon)) 1 (tl (a_table mutator))).
