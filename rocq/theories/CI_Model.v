(** Compose-intersect: libhfst/src/implementations/compose_intersect/ComposeIntersectUtilities.h,
    ComposeIntersectFst.{h,cc}, ComposeIntersectRule.cc, ComposeIntersectRulePair.cc and
    ComposeIntersectLexicon.cc.

    Simplifications (whole file):
    - [num] is HfstTropicalTransducerTransitionData::get_number, the global numbering of symbols,
      and [sym] is get_symbol; numbers are [nat];
    - weights are integers, an infinite final weight is [None];
    - a failed assert and a thrown exception are the outcome [Throw]. *)
From Verif Require Import Base Flags_Model BT_Model Isect_Model.

(** * SpaceSavingSet, ComposeIntersectUtilities.h:27-119 *)
Section SpaceSaving.
  Context {X : Type} (comparator equal : X -> X -> bool).
  (** get_least_upper_bound, :95-115: the elements before the iterator and those from it on. *)
  Fixpoint least_upper_bound (x : X) (l : list X) : list X * list X :=
    match l with
    | [] => ([], [])
    | y :: r => if negb (comparator y x) then ([], l)
                else let '(a, b) := least_upper_bound x r in (y :: a, b)
    end.
  (** insert, :54-60; the reference formed to the end of the vector in :57 is not read. *)
  Definition set_insert (x : X) (l : list X) : list X :=
    let '(a, b) := least_upper_bound x l in
    match b with
    | [] => a ++ [x]
    | y :: _ => if negb (equal x y) then a ++ x :: b else l
    end.
  (** find and has_element, :62-79. *)
  Definition has_element (x : X) (l : list X) : bool :=
    match snd (least_upper_bound x l) with [] => false | y :: _ => equal y x end.
End SpaceSaving.

(** * ComposeIntersectFst *)
(** Transition, operator== and CompareTransitions, ComposeIntersectFst.h:27-42, .cc:46-73. *)
Record trn := Trn { t_in : nat; t_out : nat; t_w : Z; t_to : nat }.
Definition trn_eq (x y : trn) : bool :=
  (t_in x =? t_in y) && (t_out x =? t_out y) && (t_w x =? t_w y)%Z && (t_to x =? t_to y).
Definition trn_lt (x y : trn) : bool :=
  if t_in x =? t_in y then
    if t_out x =? t_out y then
      if (t_w x =? t_w y)%Z then t_to x <? t_to y else (t_w x <? t_w y)%Z
    else t_out x <? t_out y
  else t_in x <? t_in y.
Definition trn_insert : trn -> list trn -> list trn := set_insert trn_lt trn_eq.

(** symbol_set, transition_map_vector, finality_vector, identity_transition_vector. *)
Record cfst := Cfst { c_syms : list nat; c_maps : list (list (nat * list trn)); c_fin : list (option Z); c_ident : list trn }.

Section CI.
  Variable num : bstr -> nat.
  Variable sym : nat -> bstr.

  (** Transition(const HfstBasicTransition &), ComposeIntersectFst.cc:26-36; the asserts hold of
      every HfstBasicTransition. *)
  Definition trn_of (a : arc) : trn := Trn (num (isy a)) (num (osy a)) (wt a) (tgt a).
  Definition set_at (k : nat) (m : list (nat * list trn)) : list trn :=
    match mget Nat.compare k m with Some s => s | None => [] end.

  (** The loop over the transitions of a state, .cc:107-125: its map and its identity transitions. *)
  Fixpoint add_arcs (input_keys : bool) (l : list arc) (m : list (nat * list trn)) (ids : list trn)
    : list (nat * list trn) * list trn :=
    match l with
    | [] => (m, ids)
    | a :: l =>
        if bstr_eqb (isy a) IDN then add_arcs input_keys l m (ids ++ [trn_of a])
        else let k := if input_keys then num (isy a) else num (osy a) in
             add_arcs input_keys l (mset Nat.compare k (trn_insert (trn_of a) (set_at k m)) m) ids
    end.
  (** The loop over the states, .cc:92-135. *)
  Fixpoint add_states (input_keys : bool) (g : graph) (source : nat) (ls : list (list arc)) (c : cfst) : cfst :=
    match ls with
    | [] => c
    | l :: ls =>
        let '(m, ids) := add_arcs input_keys l [] [] in
        let ids := match ids with [] => [Trn (num EPS) (num EPS) 0 0] | _ => ids end in
        add_states input_keys g (S source) ls
          (Cfst (c_syms c) (c_maps c ++ [m]) (c_fin c ++ [finw g source]) (c_ident c ++ ids))
    end.
  (** The constructor, .cc:79-136. *)
  Definition make_cfst (input_keys : bool) (g : graph) : cfst :=
    let g := sort_arcs num g in
    add_states input_keys g 0 (sts g)
      (Cfst (fold_left (fun acc x => sadd Nat.compare (num x) acc) (alpha g) []) [] [] []).

  (** get_final_weight, .cc:141-146. *)
  Definition fst_final_weight (c : cfst) (s : nat) : res (option Z) :=
    if length (c_maps c) <=? s then Throw
    else match nth_error (c_fin c) s with Some w => Ok w | None => Throw end.
  (** get_transitions, has_identity_transition, get_identity_transition, is_known_symbol,
      .cc:151-195: the map of the state gets an entry for the symbol. *)
  Definition fst_transitions (c : cfst) (s k : nat) : res (cfst * list trn) :=
    match nth_error (c_maps c) s with
    | None => Throw
    | Some m =>
        match mget Nat.compare k m with
        | Some set => Ok (c, set)
        | None =>
            let enter set := Ok (Cfst (c_syms c) (upd s (mset Nat.compare k set m) (c_maps c)) (c_fin c) (c_ident c), set) in
            if smem Nat.compare k (c_syms c) then enter []
            else match nth_error (c_ident c) s with
                 | None => Throw
                 | Some i => if negb (t_in i =? num IDN) then enter []
                             else enter (trn_insert (Trn k k (t_w i) (t_to i)) [])
                 end
        end
    end.

  (** * Rules and rule pairs *)
  (** ComposeIntersectRulePair: state_pair_vector, pair_state_map, state_transition_vector. *)
  Record pdata := Pdata { p_pairs : list (nat * nat); p_map : list ((nat * nat) * nat); p_trans : list (list (nat * list trn)) }.
  (** A ComposeIntersectRule is a transducer with its alphabet ([symbols]) or a pair of rules. *)
  Inductive rule :=
  | Single (c : cfst) (symbols : list bstr)
  | Pair (d : pdata) (r1 r2 : rule).
  (** ComposeIntersectRule(t), ComposeIntersectRule.cc:17-19. *)
  Definition make_rule (g : graph) : rule := Single (make_cfst true g) (alpha g).
  (** ComposeIntersectRulePair(fst1, fst2), ComposeIntersectRulePair.cc:19-33. *)
  Definition make_pair (r1 r2 : rule) : rule := Pair (Pdata [(0, 0)] [((0, 0), 0)] [[]]) r1 r2.
  (** known_symbol, ComposeIntersectRule.cc:23-26: not virtual, and [symbols] of a pair is empty. *)
  Definition known_symbol (r : rule) (k : nat) : bool :=
    match r with Single _ symbols => smem bcmp (sym k) symbols | Pair _ _ _ => false end.

  (** get_state, ComposeIntersectRulePair.cc:64-74. *)
  Definition pair_state (d : pdata) (p : nat * nat) : pdata * nat :=
    match mget npcmp p (p_map d) with
    | Some s => (d, s)
    | None => (Pdata (p_pairs d ++ [p]) (mset npcmp p (length (p_pairs d)) (p_map d)) (p_trans d ++ [[]]),
               length (p_pairs d))
    end.
  (** The loop of compute_transition_set, :108-122; [n] bounds its steps. *)
  Fixpoint merge (n : nat) (k : nat) (it jt : list trn) (d : pdata) (out : list trn) : pdata * list trn :=
    match n, it, jt with
    | S n, a :: it', b :: jt' =>
        if t_out a =? t_out b then
          let '(d, target) := pair_state d (t_to a, t_to b) in
          merge n k it' jt' d (trn_insert (Trn k (t_out a) (t_w a + t_w b) target) out)
        else if t_out a <? t_out b then merge n k it' jt d out
        else merge n k it jt' d out
    | _, _, _ => (d, out)
    end.
  (** get_transitions and compute_transition_set, :41-50, :93-124. *)
  Fixpoint get_transitions (r : rule) (s k : nat) : res (rule * list trn) :=
    match r with
    | Single c symbols => rmap (fun '(c, set) => (Single c symbols, set)) (fst_transitions c s k)
    | Pair d r1 r2 =>
        match nth_error (p_pairs d) s with
        | None => Throw
        | Some (s1, s2) =>
            match nth_error (p_trans d) s with
            | None => Throw
            | Some m =>
                match mget Nat.compare k m with
                | Some set => Ok (r, set)
                | None =>
                    rbind (get_transitions r1 s1 k) (fun '(r1, set1) =>
                    rbind (get_transitions r2 s2 k) (fun '(r2, set2) =>
                    let '(d, set) := merge (length set1 + length set2) k set1 set2 d [] in
                    Ok (Pair (Pdata (p_pairs d) (p_map d) (upd s (mset Nat.compare k set (nth s (p_trans d) [])) (p_trans d))) r1 r2, set)))
                end
            end
        end
    end.
  (** get_final_weight, :84-91. *)
  Fixpoint rule_final_weight (r : rule) (s : nat) : res (option Z) :=
    match r with
    | Single c _ => fst_final_weight c s
    | Pair d r1 r2 =>
        match nth_error (p_pairs d) s with
        | None => Throw
        | Some (s1, s2) =>
            rbind (rule_final_weight r1 s1) (fun w1 =>
            rmap (fun w2 => match w1, w2 with Some x, Some y => Some (x + y)%Z | _, _ => None end)
                 (rule_final_weight r2 s2))
        end
    end.

  (** * ComposeIntersectLexicon *)
  (** state_pair_map, pair_vector, agenda, result, lexicon_non_epsilon_states. *)
  Record lstate := Lstate { l_map : list ((nat * nat) * nat); l_pairs : list (nat * nat); l_agenda : list nat;
                            l_result : graph; l_eps : list nat }.

  (** map_state_and_add_to_agenda and get_state, ComposeIntersectLexicon.cc:41-60, 77-86. *)
  Definition map_state (p : nat * nat) (st : lstate) : res (lstate * nat) :=
    let '(result, s) := if (fst p =? 0) && (snd p =? 0) then (l_result st, 0) else add_state (l_result st) in
    if negb (s =? length (l_map st)) then Throw
    else Ok (Lstate (mset npcmp p s (l_map st)) (l_pairs st ++ [p]) (l_agenda st ++ [s]) result
                    (sadd Nat.compare s (l_eps st)), s).
  Definition lex_state (p : nat * nat) (st : lstate) : res (lstate * nat) :=
    match mget npcmp p (l_map st) with Some s => Ok (st, s) | None => map_state p st end.
  (** get_state followed by add_transition, :212-221. *)
  Definition emit (origin : nat) (input output : nat) (w : Z) (p : nat * nat) (st : lstate) : res lstate :=
    rmap (fun '(st, target) =>
      Lstate (l_map st) (l_pairs st) (l_agenda st)
        (add_transition (l_result st) origin (Arc target (sym input) (sym output) w) true) (l_eps st))
      (lex_state p st).
  (** lexicon_skip_symbol_compose, :166-177. *)
  Fixpoint lexicon_skip (l : list trn) (rule_state origin : nat) (st : lstate) : res lstate :=
    match l with
    | [] => Ok st
    | t :: l => rbind (emit origin (t_in t) (t_out t) (t_w t) (t_to t, rule_state) st) (lexicon_skip l rule_state origin)
    end.
  (** rule_skip_symbol_compose, :179-191. *)
  Fixpoint rule_skip (l : list trn) (lexicon_state origin : nat) (st : lstate) : res lstate :=
    match l with
    | [] => Ok st
    | t :: l => rbind (emit origin (t_in t) (t_out t) (t_w t) (lexicon_state, t_to t) st) (rule_skip l lexicon_state origin)
    end.
  (** compose, :193-210. *)
  Fixpoint compose_one (t : trn) (rs : list trn) (origin : nat) (st : lstate) : res lstate :=
    match rs with
    | [] => Ok st
    | u :: rs => rbind (emit origin (t_in t) (t_out u) (t_w t + t_w u) (t_to t, t_to u) st) (compose_one t rs origin)
    end.
  Fixpoint compose (ls rs : list trn) (origin : nat) (st : lstate) : res lstate :=
    match ls with
    | [] => Ok st
    | t :: ls => rbind (compose_one t rs origin st) (compose ls rs origin)
    end.
  (** The loop of compute_state, :132-157. *)
  Fixpoint compute_symbols (m : list (nat * list trn)) (q origin : nat) (allow : bool) (r : rule) (st : lstate)
    : res (rule * lstate) :=
    match m with
    | [] => Ok (r, st)
    | (k, set) :: m =>
        if k =? num EPS then
          rbind (if allow then lexicon_skip set q origin st else Ok st) (compute_symbols m q origin allow r)
        else if is_diacritic (sym k) && negb (known_symbol r k) then
          rbind (lexicon_skip set q origin st) (compute_symbols m q origin allow r)
        else
          rbind (get_transitions r q k) (fun '(r, rset) =>
          rbind (compose set rset origin st) (compute_symbols m q origin allow r))
    end.
  (** compute_state and get_pair, :116-163; transition_map_vector[p.first] out of range is [Ub]. *)
  Definition compute_state (lex : cfst) (s : nat) (r : rule) (st : lstate) : res (rule * lstate) :=
    match nth_error (l_pairs st) s with
    | None => Throw
    | Some (x, q) =>
        match nth_error (c_maps lex) x with
        | None => Ub
        | Some m =>
            rbind (compute_symbols m q s (smem Nat.compare s (l_eps st)) r st) (fun '(r, st) =>
            rbind (get_transitions r q (num EPS)) (fun '(r, set) =>
            rmap (pair r) (rule_skip set x s st)))
        end
    end.
  (** set_final_state_weights, :88-99; [s] counts the pairs [l]. *)
  Fixpoint final_weights (lex : cfst) (r : rule) (s : nat) (l : list (nat * nat)) (g : graph) : res graph :=
    match l with
    | [] => Ok g
    | (x, q) :: l =>
        rbind (fst_final_weight lex x) (fun w1 =>
        rbind (rule_final_weight r q) (fun w2 =>
        final_weights lex r (S s) l
          (match w1, w2 with Some a, Some b => set_final_weight g s (a + b) | _, _ => g end)))
    end.
  (** compute_composition_result, :101-114. *)
  Fixpoint composition_loop (fuel : nat) (lex : cfst) (r : rule) (st : lstate) : res (rule * lstate) :=
    match fuel with
    | O => Diverge
    | S fuel =>
        match l_agenda st with
        | [] => Ok (r, st)
        | s :: agenda =>
            rbind (compute_state lex s r (Lstate (l_map st) (l_pairs st) agenda (l_result st) (l_eps st)))
                  (fun '(r, st) => composition_loop fuel lex r st)
        end
    end.
  (** compose_with_rules and clear_all_info, :30-39, 65-75; [eps] is what earlier calls left in
      lexicon_non_epsilon_states, which is not cleared. *)
  Definition compose_with_rules (fuel : nat) (lex : cfst) (eps : list nat) (r : rule) : res graph :=
    rbind (map_state (0, 0) (Lstate [] [] [] empty_graph eps)) (fun '(st, _) =>
    rbind (composition_loop fuel lex r st) (fun '(r, st) =>
    final_weights lex r 0 (l_pairs st) (l_result st))).
  Definition make_lexicon (g : graph) : cfst := make_cfst false g.
End CI.
