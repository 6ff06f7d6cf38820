(** Model of HfstBasicTransducer: libhfst/src/implementations/HfstBasicTransducer.cc
    (line numbers without a file name refer to it).

    Simplifications: a transition holds its symbols instead of their global numbers
    (C06 proves that numbers and symbols correspond one to one), except where the
    order of numbers matters, where the numbering is an argument; weights are exact
    integers instead of floats (no rounding, infinities or NaN); state numbers are
    unbounded; names are left out. *)
From Verif Require Import Base Flags_Model.

(** HfstBasicTransition, HfstBasicTransition.h. *)
Record arc := Arc { tgt : nat; isy : bstr; osy : bstr; wt : Z }.
(** state_vector, final_weight_map, alphabet, HfstBasicTransducer.h. *)
Record graph := Graph { sts : list (list arc); fin : list (nat * Z); alpha : list bstr }.

Definition EPS := B "@_EPSILON_SYMBOL_@".
Definition UNK := B "@_UNKNOWN_SYMBOL_@".
Definition IDN := B "@_IDENTITY_SYMBOL_@".

(** Constructor and initialize_alphabet, :52-58 and :121-128. *)
Definition initialize_alphabet (al : list bstr) : list bstr := sadd bcmp IDN (sadd bcmp UNK (sadd bcmp EPS al)).
Definition empty_graph : graph := Graph [[]] [] (initialize_alphabet []).

(** operator[] without its bounds check. *)
Definition arcs (g : graph) (s : nat) : list arc := nth s (sts g) [].
Definition with_sts (g : graph) (l : list (list arc)) : graph := Graph l (fin g) (alpha g).
Definition with_fin (g : graph) (f : list (nat * Z)) : graph := Graph (sts g) f (alpha g).
Definition with_alpha (g : graph) (a : list bstr) : graph := Graph (sts g) (fin g) a.
(** Symbols and pairs *)
Definition is_valid_symbol (s : bstr) : bool := match s with [] => false | _ => true end.
Definition valid_pair (p : bstr * bstr) : bool := is_valid_symbol (fst p) && is_valid_symbol (snd p).
Definition is_reserved (s : bstr) : bool := bstr_eqb s EPS || bstr_eqb s UNK || bstr_eqb s IDN.
Definition label (a : arc) : bstr * bstr := (isy a, osy a).
Definition pair_eqb (p q : bstr * bstr) : bool := bstr_eqb (fst p) (fst q) && bstr_eqb (snd p) (snd q).
Definition relabel (a : arc) (p : bstr * bstr) : arc := Arc (tgt a) (fst p) (snd p) (wt a).

(** operator[] / transitions, :611-642: throws beyond the last state. *)
Definition transitions (g : graph) (s : nat) : res (list arc) :=
  match nth_error (sts g) s with Some l => Ok l | None => Throw end.

(** add_symbol_to_alphabet, remove_symbol_from_alphabet, add_symbols_to_alphabet, :201-245. *)
Definition add_symbol (g : graph) (x : bstr) : graph := with_alpha g (sadd bcmp x (alpha g)).
Definition remove_symbol (g : graph) (x : bstr) : graph := with_alpha g (sdel bcmp x (alpha g)).
Definition remove_symbols (g : graph) (xs : list bstr) : graph := fold_left remove_symbol xs g.
Definition add_symbols (g : graph) (xs : list bstr) : graph := fold_left add_symbol xs g.
Definition add_pairs (g : graph) (ps : list (bstr * bstr)) : graph :=
  fold_left (fun g p => add_symbol (add_symbol g (fst p)) (snd p)) ps g.

(** add_state(), :415-420, and add_state(s), :429-438. *)
Definition add_state (g : graph) : graph * nat := (with_sts g (sts g ++ [[]]), length (sts g)).
Definition add_state_n (g : graph) (s : nat) : graph :=
  with_sts g (sts g ++ repeat [] (S s - length (sts g))).
(** get_max_state, :441-444 (the state vector is never empty). *)
Definition get_max_state (g : graph) : nat := length (sts g) - 1.

Definition push_arc (g : graph) (s : nat) (a : arc) : graph :=
  with_sts g (upd s (arcs g s ++ [a]) (sts g)).
(** add_transition, :450-467. *)
Definition add_transition (g : graph) (s : nat) (a : arc) (add_symbols : bool) : graph :=
  let g1 := add_state_n (add_state_n g s) (tgt a) in
  let g2 := if add_symbols then add_symbol (add_symbol g1 (isy a)) (osy a) else g1 in
  push_arc g2 s a.

(** symbols_used, :280-298. *)
Definition symbols_used (g : graph) : list bstr :=
  fold_left (fun s a => sadd bcmp (osy a) (sadd bcmp (isy a) s)) (concat (sts g)) [].

(** remove_transition, :475-519; the erased iterators are removed back to front, so
    exactly the matching transitions go. *)
Definition same_arc (a b : arc) : bool :=
  bstr_eqb (isy a) (isy b) && bstr_eqb (osy a) (osy b) && (tgt a =? tgt b).
Definition remove_transition (g : graph) (s : nat) (a : arc) (remove_symbols : bool) : graph :=
  if length (sts g) <=? s then g
  else
    let g1 := with_sts g (upd s (filter (fun b => negb (same_arc b a)) (arcs g s)) (sts g)) in
    if remove_symbols then
      let used := symbols_used g1 in
      let g2 := if smem bcmp (isy a) used then g1 else remove_symbol g1 (isy a) in
      if smem bcmp (osy a) used then g2 else remove_symbol g2 (osy a)
    else g1.

(** is_final_state, get_final_weight, set_final_weight, remove_final_weight, :523-557. *)
Definition finw (g : graph) (s : nat) : option Z := mget Nat.compare s (fin g).
Definition is_final_state (g : graph) (s : nat) : bool := match finw g s with Some _ => true | None => false end.
Definition get_final_weight (g : graph) (s : nat) : res Z :=
  if get_max_state g <? s then Throw
  else match finw g s with Some w => Ok w | None => Throw end.
Definition set_final_weight (g : graph) (s : nat) (w : Z) : graph :=
  let g1 := add_state_n g s in with_fin g1 (mset Nat.compare s w (fin g1)).
Definition remove_final_weight (g : graph) (s : nat) : graph := with_fin g (mdel Nat.compare s (fin g)).

(** prune_alphabet, :306-344. *)
Definition prune_alphabet (force : bool) (g : graph) : graph :=
  let found := symbols_used g in
  if negb force && (smem bcmp UNK found || smem bcmp IDN found) then g
  else
    let found' := sadd bcmp IDN (sadd bcmp UNK (sadd bcmp EPS found)) in
    with_alpha g (filter (fun x => smem bcmp x found') (alpha g)).

(** prune_alphabet_after_substitution, :249-278, on symbols instead of numbers. *)
Definition prune_after (g : graph) (syms : list bstr) : graph :=
  let used := symbols_used g in
  fold_left (fun g x => if smem bcmp x used then g else remove_symbol g x) syms g.

(** HfstBasicTransition::operator<, HfstBasicTransition.cc:48-52, and
    HfstTropicalTransducerTransitionData::operator<, .cc:219-230; [num] gives the
    global symbol numbers. *)
Section Sort.
  Variable num : bstr -> nat.
  Definition data_lt (a b : arc) : bool :=
    if num (isy a) <? num (isy b) then true
    else if num (isy b) <? num (isy a) then false
    else if num (osy a) <? num (osy b) then true
    else if num (osy b) <? num (osy a) then false
    else (wt a <? wt b)%Z.
  Definition arc_lt (a b : arc) : bool :=
    if tgt a =? tgt b then data_lt a b else tgt a <? tgt b.
  (** std::sort; any sorting algorithm gives the same list because arcs that compare
      equal are equal (proved in BT_Proofs). *)
  Fixpoint insert_sorted (a : arc) (l : list arc) : list arc :=
    match l with
    | [] => [a]
    | b :: r => if arc_lt b a then b :: insert_sorted a r else a :: l
    end.
  Definition std_sort (l : list arc) : list arc := fold_right insert_sorted [] l.
  (** sort_arcs, :561-569. *)
  Definition sort_arcs (g : graph) : graph := with_sts g (map std_sort (sts g)).
End Sort.

(** swap_state_numbers, :650-709.  state_vector[s] with s out of range is Ub; so is
    s1 = s2 final (s2_it is dangling after erase(s1)). *)
Definition swap_target (s1 s2 t : nat) : nat := if t =? s2 then s1 else if t =? s1 then s2 else t.
Definition swap_finals (s1 s2 : nat) (f : list (nat * Z)) : list (nat * Z) :=
  match mget Nat.compare s1 f, mget Nat.compare s2 f with
  | Some w1, Some w2 =>
      (* first block: both weights exchanged; then the second block moves the weight
         now at s1 to s2, and the third one the weight now at s2 back to s1 *)
      let f1 := mset Nat.compare s2 w1 (mset Nat.compare s1 w2 f) in
      let f2 := mset Nat.compare s2 w2 (mdel Nat.compare s1 f1) in
      mset Nat.compare s1 w2 (mdel Nat.compare s2 f2)
  | Some w1, None => mset Nat.compare s2 w1 (mdel Nat.compare s1 f)
  | None, Some w2 => mset Nat.compare s1 w2 (mdel Nat.compare s2 f)
  | None, None => f
  end.
Definition swap_state_numbers (g : graph) (s1 s2 : nat) : res graph :=
  if negb ((s1 <? length (sts g)) && (s2 <? length (sts g))) then Ub
  else if (s1 =? s2) && is_final_state g s1 then Ub
  else
    let l := upd s2 (arcs g s1) (upd s1 (arcs g s2) (sts g)) in
    let l' := map (map (fun a => Arc (swap_target s1 s2 (tgt a)) (isy a) (osy a) (wt a))) l in
    Ok (Graph l' (swap_finals s1 s2 (fin g)) (alpha g)).

(** * Substitutions *)
(** substitute(old, new, input_side, output_side), :2315-2352, with substitute_, :1907-1957. *)
Definition subst_symbol_arc (old new : bstr) (inp out : bool) (a : arc) : arc :=
  Arc (tgt a) (if inp && bstr_eqb (isy a) old then new else isy a)
      (if out && bstr_eqb (osy a) old then new else osy a) (wt a).
Definition subst_made (old : bstr) (inp out : bool) (a : arc) : bool :=
  (inp && bstr_eqb (isy a) old) || (out && bstr_eqb (osy a) old).
Definition substitute_symbol (old new : bstr) (inp out : bool) (g : graph) : res graph :=
  if negb (is_valid_symbol old) || negb (is_valid_symbol new) then Throw
  else if bstr_eqb old new then Ok g
  else if negb (smem bcmp old (alpha g)) then Ok g
  else
    let g1 := if inp && out && negb (is_reserved old) then remove_symbol g old else g in
    let g2 := add_symbol g1 new in
    let g3 := if existsb (subst_made old inp out) (concat (sts g2)) then add_symbol g2 new else g2 in
    Ok (with_sts g3 (map (map (subst_symbol_arc old new inp out)) (sts g3))).

(** substitute(HfstSymbolSubstitutions), :2363-2394, with substitute_, :1965-2011.  The
    vector from numbers to numbers is the map from symbols to symbols. *)
Definition subst_map_symbol (m : list (bstr * bstr)) (x : bstr) : bstr :=
  match mget bcmp x m with Some y => y | None => x end.
Definition added_by_map (m : list (bstr * bstr)) (a : arc) : list bstr :=
  match mget bcmp (isy a) m with Some y => [y] | None => [] end ++
  match mget bcmp (osy a) m with Some y => [y] | None => [] end.
Definition substitute_symbols (m : list (bstr * bstr)) (g : graph) : res graph :=
  if existsb (fun p => negb (valid_pair p)) m then Throw
  else
    let g1 := add_symbols g (flat_map (added_by_map m) (concat (sts g))) in
    Ok (with_sts g1 (map (map (fun a => relabel a (subst_map_symbol m (isy a), subst_map_symbol m (osy a)))) (sts g1))).

(** Order of std::pair<std::string, std::string>. *)
Definition pcmp (p q : bstr * bstr) : comparison :=
  match bcmp (fst p) (fst q) with Eq => bcmp (snd p) (snd q) | c => c end.
(** substitute(HfstSymbolPairSubstitutions), :2410-2430, with substitute_, :2017-2061. *)
Definition subst_map_pair (m : list ((bstr * bstr) * (bstr * bstr))) (p : bstr * bstr) : bstr * bstr :=
  match mget pcmp p m with Some q => q | None => p end.
Definition added_by_pairs (m : list ((bstr * bstr) * (bstr * bstr))) (a : arc) : list bstr :=
  match mget pcmp (label a) m with Some q => [fst q; snd q] | None => [] end.
Definition substitute_symbol_pairs (m : list ((bstr * bstr) * (bstr * bstr))) (g : graph) : res graph :=
  if existsb (fun pq => negb (valid_pair (fst pq)) || negb (valid_pair (snd pq))) m then Throw
  else
    let g1 := add_symbols g (flat_map (added_by_pairs m) (concat (sts g))) in
    Ok (with_sts g1 (map (map (fun a => relabel a (subst_map_pair m (label a)))) (sts g1))).

(** remove_transitions, :2066-2114.  After erase at index i the loop goes on with i+1,
    so the transition that follows an erased one is neither tested nor recorded. *)
Fixpoint remove_loop (p : bstr * bstr) (l : list arc) : list arc :=
  match l with
  | [] => []
  | a :: r =>
      if pair_eqb (label a) p then match r with [] => [] | b :: r' => b :: remove_loop p r' end
      else a :: remove_loop p r
  end.
Fixpoint used_loop (p : bstr * bstr) (x : bstr) (l : list arc) : bool :=
  match l with
  | [] => false
  | a :: r =>
      if pair_eqb (label a) p then match r with [] => false | _ :: r' => used_loop p x r' end
      else bstr_eqb (isy a) x || bstr_eqb (osy a) x || used_loop p x r
  end.
Definition remove_transitions (p : bstr * bstr) (g : graph) : graph :=
  let g1 := with_sts g (map (remove_loop p) (sts g)) in
  let g2 := if existsb (used_loop p (fst p)) (sts g) then g1 else remove_symbol g1 (fst p) in
  if existsb (used_loop p (snd p)) (sts g) then g2 else remove_symbol g2 (snd p).

(** substitute_(pair, pair set), :2118-2214: the matching transition becomes the first
    pair of the set and all pairs of the set (the first one again) are appended. *)
Definition subst_set_state (old : bstr * bstr) (new : list (bstr * bstr)) (l : list arc) : list arc :=
  match new with
  | [] => l
  | first :: _ =>
      map (fun a => if pair_eqb (label a) old then relabel a first else a) l ++
      flat_map (fun a => if pair_eqb (label a) old then map (relabel a) new else []) l
  end.
Definition substitute_pair_set_ (old : bstr * bstr) (new : list (bstr * bstr)) (g : graph) : graph :=
  match new with
  | [] => remove_transitions old g
  | _ =>
      let g1 := with_sts g (map (subst_set_state old new) (sts g)) in
      let g2 := if existsb (fun a => pair_eqb (label a) old) (concat (sts g)) then add_pairs g1 new else g1 in
      prune_after g2 [fst old; snd old]
  end.
(** substitute(pair, set), :2434-2459, and substitute(pair, pair), :2463-2483. *)
Definition substitute_pair_with_set (old : bstr * bstr) (new : list (bstr * bstr)) (g : graph) : res graph :=
  if negb (valid_pair old) || existsb (fun p => negb (valid_pair p)) new then Throw
  else Ok (substitute_pair_set_ old new g).
Definition substitute_pair (old new : bstr * bstr) (g : graph) : res graph :=
  if negb (valid_pair old) || negb (valid_pair new) then Throw
  else Ok (substitute_pair_set_ old [new] g).

(** substitute(func), :2494-2498, with substitute_, :2218-2305.  [func] returns whether to
    substitute and the set; reading the first element of an empty set is Ub; empty
    symbols throw.  States are visited in order, as the fold does. *)
Section SubstFunc.
  Variable func : bstr * bstr -> option (list (bstr * bstr)).
  Fixpoint subst_func_state (l : list arc) : res (list arc * list arc * list (bstr * bstr)) :=
    match l with
    | [] => Ok ([], [], [])
    | a :: r =>
        rbind (match func (label a) with
               | None => Ok (a, [], [])
               | Some [] => Ub
               | Some (first :: rest) =>
                   if existsb (fun p => negb (valid_pair p)) (first :: rest) then Throw
                   else Ok (relabel a first, map (relabel a) (first :: rest), first :: rest)
               end) (fun '(a', new, ps) =>
        rmap (fun '(l', news, pss) => (a' :: l', new ++ news, ps ++ pss)) (subst_func_state r))
    end.
  Fixpoint subst_func_states (ls : list (list arc)) : res (list (list arc) * list (bstr * bstr)) :=
    match ls with
    | [] => Ok ([], [])
    | l :: r =>
        rbind (subst_func_state l) (fun '(l', new, ps) =>
        rmap (fun '(ls', pss) => ((l' ++ new) :: ls', ps ++ pss)) (subst_func_states r))
    end.
  Definition substitute_func (g : graph) : res graph :=
    rmap (fun '(ls, ps) => add_pairs (with_sts g ls) ps) (subst_func_states (sts g)).
End SubstFunc.

(** add_substitution, :2577-2617, and insert_transducer, :4117-4154. *)
Fixpoint copy_arcs (g : graph) (offset source : nat) (ls : list (list arc)) : graph :=
  match ls with
  | [] => g
  | l :: r =>
      copy_arcs (fold_left (fun g a =>
                   add_transition g (source + offset) (Arc (tgt a + offset) (isy a) (osy a) (wt a)) true) l g)
                offset (S source) r
  end.
Definition leave_arcs (g : graph) (offset target : nat) (f : list (nat * Z)) : graph :=
  fold_left (fun g '(s, w) => add_transition g (s + offset) (Arc target EPS EPS w) true) f g.
Record substitution := Subst { s_origin : nat; s_target : nat; s_weight : Z; s_graph : graph }.
Definition add_substitution (g : graph) (s : substitution) : graph :=
  let '(g1, st) := add_state g in
  let g2 := add_transition g1 (s_origin s) (Arc st EPS EPS (s_weight s)) true in
  let g3 := copy_arcs g2 st 0 (sts (s_graph s)) in
  leave_arcs g3 st (s_target s) (fin (s_graph s)).
Definition insert_transducer (g : graph) (s1 s2 : nat) (h : graph) : graph :=
  let '(g1, st) := add_state g in
  let g2 := copy_arcs g1 st 0 (sts h) in
  let g3 := leave_arcs g2 st s2 (fin h) in
  add_transition g3 s1 (Arc st EPS EPS 0) true.

(** substitute(pair, graph), :2502-2571.  The iterators collected in one state are
    erased front to back; after the first erase the others are invalid, and using
    them is Ub. *)
Definition matches (p : bstr * bstr) (l : list arc) : list arc := filter (fun a => pair_eqb (label a) p) l.
Fixpoint collect (f : arc -> option graph) (source : nat) (ls : list (list arc)) : list substitution :=
  match ls with
  | [] => []
  | l :: r =>
      flat_map (fun a => match f a with Some h => [Subst source (tgt a) (wt a) h] | None => [] end) l ++
      collect f (S source) r
  end.
Definition substitute_graph (p : bstr * bstr) (h : graph) (g : graph) : res graph :=
  if negb (valid_pair p) then Throw
  else if negb (smem bcmp (fst p) (alpha g)) && negb (smem bcmp (snd p) (alpha g)) then Ok g
  else if existsb (fun l => 2 <=? length (matches p l)) (sts g) then Ub
  else
    let subs := collect (fun a => if pair_eqb (label a) p then Some h else None) 0 (sts g) in
    let g1 := with_sts g (map (filter (fun a => negb (pair_eqb (label a) p))) (sts g)) in
    Ok (fold_left add_substitution subs g1).

(** substitute(SubstMap, harmonize = false), :2713-2829: iterators are erased back to
    front.  A symbol on one side of a transition only throws; the case of two
    different substituted symbols is covered by that. *)
Definition submap_ok (m : list (bstr * graph)) (a : arc) : bool :=
  match mget bcmp (isy a) m, mget bcmp (osy a) m with
  | None, None => true
  | _, _ => bstr_eqb (isy a) (osy a)
  end.
Definition submap_symbols (m : list (bstr * graph)) (g : graph) : list bstr :=
  flat_map (fun a => match mget bcmp (isy a) m with Some _ => [isy a] | None => [] end) (concat (sts g)).
Definition substitute_submap (m : list (bstr * graph)) (g : graph) : res graph :=
  if existsb (fun e => negb (is_valid_symbol (fst e))) m then Throw
  else if negb (existsb (fun e => smem bcmp (fst e) (alpha g)) m) then Ok g
  else if negb (forallb (submap_ok m) (concat (sts g))) then Throw
  else
    let subs := collect (fun a => mget bcmp (isy a) m) 0 (sts g) in
    let g1 := with_sts g (map (filter (fun a => match mget bcmp (isy a) m with Some _ => false | None => true end)) (sts g)) in
    let g2 := remove_symbols g1 (filter (fun x => negb (is_reserved x)) (submap_symbols m g)) in
    Ok (fold_left add_substitution subs g2).

(** * insert_freely *)
Fixpoint add_loops (ps : list (bstr * bstr)) (w : Z) (s : nat) (ls : list (list arc)) : list (list arc) :=
  match ls with
  | [] => []
  | l :: r => (l ++ map (fun p => Arc s (fst p) (snd p) w) ps) :: add_loops ps w (S s) r
  end.
(** insert_freely(pair), :2971-2999, and insert_freely(set), :3003-3036. *)
Definition insert_freely (ps : list (bstr * bstr)) (w : Z) (g : graph) : res graph :=
  if existsb (fun p => negb (valid_pair p)) ps then Throw
  else let g1 := add_pairs g ps in Ok (with_sts g1 (add_loops ps w 0 (sts g1))).
(** insert_freely(graph), :3041-3059, with get_marker, HfstTropicalTransducerTransitionData.cc:214-217. *)
Definition MARKER := B "@_MARKER_SYMBOL_@".
Definition insert_freely_graph (h g : graph) : res graph :=
  rbind (insert_freely [(MARKER, MARKER)] 0 g) (fun g1 =>
  rmap (fun g2 => remove_symbol g2 MARKER) (substitute_graph (MARKER, MARKER) h g1)).

(** * disjunct, :3106-3186; constructing a transition with an empty symbol throws,
    HfstTropicalTransducerTransitionData.cc:142-150. *)
Fixpoint disjunct_path (g : graph) (l : list (bstr * bstr)) (s : nat) : res (graph * nat) :=
  match l with
  | [] => Ok (g, s)
  | p :: r =>
      match find (fun a => pair_eqb (label a) p) (arcs g s) with
      | Some a => disjunct_path g r (tgt a)
      | None =>
          if negb (valid_pair p) then Throw
          else
            let '(g1, n) := add_state g in
            disjunct_path (add_transition g1 s (Arc n (fst p) (snd p) 0) true) r n
      end
  end.
Definition disjunct (g : graph) (l : list (bstr * bstr)) (w : Z) : res graph :=
  rmap (fun '(g1, s) =>
    match finw g1 s with
    | Some old => if (old <? w)%Z then g1 else set_final_weight g1 s w
    | None => set_final_weight g1 s w
    end) (disjunct_path g l 0).
Fixpoint disjuncts (g : graph) (es : list (list (bstr * bstr) * Z)) : res graph :=
  match es with [] => Ok g | (l, w) :: r => rbind (disjunct g l w) (fun g1 => disjuncts g1 r) end.

(** * complete, :3189-3231.  add_transition only pushes here: both states exist and
      the symbol is already in the alphabet. *)
Definition is_special_symbol (s : bstr) : bool :=
  match s with c :: d :: _ => Ascii.eqb c "@" && Ascii.eqb d "_" | _ => false end.
Definition complete_state (failure : nat) (al : list bstr) (l : list arc) : res (list arc) :=
  if existsb (fun a => negb (bstr_eqb (isy a) (osy a))) l then Throw
  else
    let missing := filter (fun x => negb (existsb (fun a => bstr_eqb (isy a) x) l) && negb (is_special_symbol x)) al in
    if existsb (fun x => negb (is_valid_symbol x)) missing then Throw
    else Ok (l ++ map (fun x => Arc failure x x 0) missing).
Fixpoint complete_states (failure : nat) (al : list bstr) (ls : list (list arc)) : res (list (list arc)) :=
  match ls with
  | [] => Ok []
  | l :: r => rbind (complete_state failure al l) (fun l' =>
              rmap (cons l') (complete_states failure al r))
  end.
Definition complete (g : graph) : res graph :=
  let '(g1, failure) := add_state g in
  rmap (with_sts g1) (complete_states failure (alpha g1) (sts g1)).

(** * Flags: get_flags, purge_symbol, flag_purge, :3235-3299 *)
Definition get_flags (g : graph) : list bstr := filter is_diacritic (alpha g).
Definition purge_symbol (flag symbol : bstr) : bool :=
  if negb (is_diacritic symbol) then false
  else match flag with [] => true | _ => bstr_eqb (get_feature symbol) flag end.
Definition flag_purge (flag : bstr) (g : graph) : graph :=
  let g1 := with_sts g (map (map (fun a => if purge_symbol flag (isy a) || purge_symbol flag (osy a)
                                           then Arc (tgt a) EPS EPS (wt a) else a)) (sts g)) in
  remove_symbols g1 (filter (purge_symbol flag) (alpha g1)).

(** * Histories of calls *)
Inductive op :=
| OAddState | OAddStateN (s : nat)
| OAddTransition (s : nat) (a : arc)
| ORemoveTransition (s : nat) (a : arc) (remove_symbols : bool)
| OSetFinal (s : nat) (w : Z) | ORemoveFinal (s : nat)
| OAddSymbol (x : bstr) | ORemoveSymbol (x : bstr)
| OPrune (force : bool) | OSort (num : bstr -> nat)
| OSubstSymbol (old new : bstr) (inp out : bool)
| OSubstSymbols (m : list (bstr * bstr))
| OSubstPairs (m : list ((bstr * bstr) * (bstr * bstr)))
| OSubstPairSet (p : bstr * bstr) (ps : list (bstr * bstr))
| OSubstFunc (f : bstr * bstr -> option (list (bstr * bstr)))
| OSubstGraph (p : bstr * bstr) (h : graph)
| OSubstMap (m : list (bstr * graph))
| OInsertFreely (ps : list (bstr * bstr)) (w : Z)
| OInsertFreelyGraph (h : graph)
| ODisjunct (l : list (bstr * bstr)) (w : Z)
| OComplete
| OFlagPurge (flag : bstr)
| OInsertTransducer (s1 s2 : nat) (h : graph)
| OSwap (s1 s2 : nat).
Definition run_op (g : graph) (o : op) : res graph :=
  match o with
  | OAddState => Ok (let '(g1, _) := add_state g in g1)
  | OAddStateN s => Ok (add_state_n g s)
  | OAddTransition s a => if valid_pair (label a) then Ok (add_transition g s a true) else Throw
  | ORemoveTransition s a r => Ok (remove_transition g s a r)
  | OSetFinal s w => Ok (set_final_weight g s w)
  | ORemoveFinal s => Ok (remove_final_weight g s)
  | OAddSymbol x => Ok (add_symbol g x)
  | ORemoveSymbol x => Ok (remove_symbol g x)
  | OPrune f => Ok (prune_alphabet f g)
  | OSort num => Ok (sort_arcs num g)
  | OSubstSymbol old new i o => substitute_symbol old new i o g
  | OSubstSymbols m => substitute_symbols m g
  | OSubstPairs m => substitute_symbol_pairs m g
  | OSubstPairSet p ps => substitute_pair_with_set p ps g
  | OSubstFunc f => substitute_func f g
  | OSubstGraph p h => substitute_graph p h g
  | OSubstMap m => substitute_submap m g
  | OInsertFreely ps w => insert_freely ps w g
  | OInsertFreelyGraph h => insert_freely_graph h g
  | ODisjunct l w => disjunct g l w
  | OComplete => complete g
  | OFlagPurge f => Ok (flag_purge f g)
  | OInsertTransducer s1 s2 h => Ok (insert_transducer g s1 s2 h)
  | OSwap s1 s2 => swap_state_numbers g s1 s2
  end.
Fixpoint run_ops (g : graph) (os : list op) : res graph :=
  match os with [] => Ok g | o :: r => rbind (run_op g o) (fun g1 => run_ops g1 r) end.
