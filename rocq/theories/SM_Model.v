(** Model of minimisation and what rests on it in the SFST back end: back-ends/sfst/hopcroft.cc,
    and the functions of fst.cc, operators.cc and SfstTransducer.cc named below.
    Simplifications as in [SF_Model]; in addition, the doubly linked circular lists of states of a
    group and the buckets of the agenda are lists, the size counters of a group are the lengths of
    its lists, and the dummy groups that stand for the buckets are not counted among the groups. *)
From Verif Require Import Base SF_Spec SF_Model.

(** store_symbols and minimise_alphabet, fst.cc:378-432, and complete and complete_alphabet,
    fst.cc:659-684, as far as labels are concerned: the labels of the transitions that can be
    reached are put into the set [ls]. *)
Definition label_before (_ : nat) (a : label * nat) (_ : bool) (ls : list label) : list label := insert_label (fst a) ls.
Definition arc_labels (h : list node) (ls : list label) : res (list label) :=
  rmap snd (visit Nat.eqb (out_of h) nothing nothing label_before nothing2 (S (length h)) 0 ([], ls)).

(** nodeindexing and index_nodes, fst.cc:189-223: the nodes in the order of their numbers. *)
Definition index_enter (n : nat) (a : list nat) : list nat := a ++ [n].
Definition nodeindexing (h : list node) : res (list nat) :=
  rmap snd (visit Nat.eqb (out_of h) index_enter nothing nothing3 nothing2 (S (length h)) 0 ([], [])).
(** node->index. *)
Fixpoint position (n : nat) (a : list nat) : option nat :=
  match a with [] => None | x :: r => if x =? n then Some 0 else option_map S (position n r) end.

(** class StateGroup, hopcroft.cc:59-84: the states from first_state on, the states from
    first_new_state on.  class State: the group of each state. *)
Record group := Group { members : list nat; news : list nat }.
Record mstate := MState { groups : list group; group_of : list nat; agenda : list (nat * nat) }.

(** class Agenda, hopcroft.cc:89-150: entries (bucket, group), newest first. *)
Definition agenda_add (g size : nat) (a : list (nat * nat)) : list (nat * nat) := (Nat.log2 size, g) :: a.
Definition agenda_erase (g : nat) (a : list (nat * nat)) : list (nat * nat) := filter (fun e => negb (snd e =? g)) a.
Definition agenda_contains (g : nat) (a : list (nat * nat)) : bool := existsb (fun e => snd e =? g) a.
Fixpoint first_entry (a : list (nat * nat)) : option (nat * nat) :=
  match a with
  | [] => None
  | e :: r => match first_entry r with
              | None => Some e
              | Some b => if fst e <=? fst b then Some e else Some b
              end
  end.

(** link_state_in, hopcroft.cc:305-321. *)
Definition link_state_in (s : nat) (l : list nat) : list nat :=
  match l with [] => [s] | f :: r => f :: s :: r end.
(** link_state_out, :345-360; taking a state out of a list it is not in is undefined. *)
Definition link_state_out (s : nat) (l : list nat) : list nat := filter (fun x => negb (x =? s)) l.

(** Minimiser::Minimiser, :253-291, with add_state, :330-336, and add_transition, :432-438: the
    groups of the final and the other states, the transitions into each state, newest first. *)
Definition add_state (g s : nat) (st : mstate) : mstate :=
  MState (update g (fun d => Group (link_state_in s (members d)) (news d)) (groups st))
         (update s (fun _ => g) (group_of st)) (agenda st).
Definition add_transition (h : list node) (arr : list nat) (s : nat) (a : label * nat)
                          (inc : res (list (list (nat * label)))) : res (list (list (nat * label))) :=
  rbind inc (fun inc =>
  match position (snd a) arr with
  | Some t => Ok (update t (cons (s, fst a)) inc)
  | None => Ub
  end).
Definition add_source (h : list node) (arr : list nat) (s : nat) (b : mstate * res (list (list (nat * label)))) :
    mstate * res (list (list (nat * label))) :=
  let d := node_at h (nth s arr 0) in
  (add_state (if final d then 0 else 1) s (fst b),
   fold_left (fun inc a => add_transition h arr s a inc) (out d) (snd b)).
Definition minimiser (h : list node) (arr : list nat) : mstate * res (list (list (nat * label))) :=
  let n := length arr in
  fold_left (fun b s => add_source h arr s b) (seq 0 n)
            (MState [Group [] []; Group [] []] (repeat 0 n) [], Ok (repeat [] n)).

(** compute_source_states, :505-538: the sources of the transitions into a group, by label. *)
Definition by_label (m : list (label * list nat)) (t : nat * label) : list (label * list nat) :=
  mset upper_cmp (snd t) (fst t :: match mget upper_cmp (snd t) m with Some l => l | None => [] end) m.
Definition group_at (st : mstate) (g : nat) : group := nth g (groups st) (Group [] []).
Definition compute_source_states (inc : list (list (nat * label))) (st : mstate) (g : nat) : res (list (label * list nat)) :=
  match members (group_at st g) with
  | [] => Ub
  | ms => Ok (fold_left by_label (flat_map (fun s => nth s inc []) ms) [])
  end.

(** move_state_to_new, :383-392; the first part of process_source_groups, :547-571.  The list of
    source groups comes with the state. *)
Definition move_source (s : nat) (x : res (mstate * list nat)) : res (mstate * list nat) :=
  rbind x (fun '(st, srcs) =>
  let g := nth s (group_of st) 0 in
  let d := group_at st g in
  let srcs' := match news d with [] => g :: srcs | _ => srcs end in
  if existsb (Nat.eqb s) (members d) then
    Ok (MState (update g (fun d => Group (link_state_out s (members d)) (link_state_in s (news d))) (groups st))
               (group_of st) (agenda st), srcs')
  else Ub).
(** merge_state_lists, :401-421. *)
Definition merge_lists (l1 l2 : list nat) : list nat :=
  match l1, l2 with
  | [], _ => l2
  | f1 :: r1, f2 :: r2 => f1 :: r2 ++ [f2] ++ r1
  | _, [] => l1
  end.
Definition merge_state_lists (g : nat) (st : mstate) : mstate :=
  MState (update g (fun d => Group (merge_lists (members d) (news d)) []) (groups st)) (group_of st) (agenda st).
(** split, :590-628. *)
Definition split_group (g : nat) (st : mstate) : mstate :=
  let d := group_at st g in
  let newg := length (groups st) in
  let size := length (members d) in
  let new_size := length (news d) in
  MState (update g (fun d => Group (members d) []) (groups st) ++ [Group (news d) []])
         (fold_left (fun m s => update s (fun _ => newg) m) (news d) (group_of st))
         (if agenda_contains g (agenda st) then
            agenda_add newg new_size (agenda_add g size (agenda_erase g (agenda st)))
          else if size <? new_size then agenda_add g size (agenda st)
          else agenda_add newg new_size (agenda st)).
(** process_source_groups, :547-581. *)
Definition finish_group (st : mstate) (g : nat) : mstate :=
  match members (group_at st g) with
  | [] => merge_state_lists g st
  | _ => split_group g st
  end.
Definition process_source_groups (sources : list nat) (st : mstate) : res mstate :=
  rmap (fun '(st', srcs) => fold_left finish_group srcs st')
       (fold_left (fun x s => move_source s x) sources (Ok (st, []))).

(** The loop of Minimiser::result, :476-491. *)
Fixpoint refine (fuel : nat) (inc : list (list (nat * label))) (n : nat) (st : mstate) : res mstate :=
  match fuel with
  | 0 => Diverge
  | S fuel' =>
      match first_entry (agenda st) with
      | None => Ok st
      | Some e =>
          let st0 := MState (groups st) (group_of st) (agenda_erase (snd e) (agenda st)) in
          rbind (compute_source_states inc st0 (snd e)) (fun m =>
          rbind (fold_left (fun x ls => rbind x (process_source_groups (snd ls))) m (Ok st0)) (fun st' =>
          if length (groups st') =? n then Ok st' else refine fuel' inc n st'))
      end
  end.

(** build_transducer, :637-679: the group of the root comes first, the others keep their order. *)
Definition number_of (root g : nat) : nat := if g =? root then 0 else if g <? root then S g else g.
Definition build_arc (arr : list nat) (st : mstate) (root n : nat) (g : res (list node)) (a : label * nat) : res (list node) :=
  rbind g (fun g =>
  match position (snd a) arr with
  | Some t => Ok (add_arc n (fst a) (number_of root (nth t (group_of st) 0)) g)
  | None => Ub
  end).
Definition build_node (h : list node) (arr : list nat) (st : mstate) (root : nat) (g : res (list node)) (i : nat) : res (list node) :=
  match members (group_at st i) with
  | [] => Ub
  | s :: _ =>
      let d := node_at h (nth s arr 0) in
      let n := number_of root i in
      fold_left (build_arc arr st root n) (out d) (rmap (set_final n (final d)) g)
  end.
Definition build_transducer (h : list node) (arr : list nat) (st : mstate) : res (list node) :=
  fold_left (build_node h arr st (nth 0 (group_of st) 0)) (seq 0 (length (groups st)))
            (Ok (repeat fresh (length (groups st)))).

(** Minimiser::result, :447-496. *)
Definition minimiser_result (t : trans) : res trans :=
  let h := nodes t in
  rbind (nodeindexing h) (fun arr =>
  let n := length arr in
  if n =? 1 then copy false t else
  let '(st, inc) := minimiser h arr in
  rbind inc (fun inc =>
  let size g := length (members (group_at st g)) in
  if size 0 =? 0 then Ok (new_trans true) else
  let st1 := if size 1 =? 0 then MState (removelast (groups st)) (group_of st) (agenda_add 0 (size 0) (agenda st))
             else MState (groups st) (group_of st) (agenda_add 1 (size 1) (agenda_add 0 (size 0) (agenda st))) in
  rbind (refine (2 * n + 2) inc n st1) (fun st2 =>
  rmap (fun g => Trans g true true (insert_labels (labels t) [])) (build_transducer h arr st2)))).

(** hopcroft_minimise, :228-249. *)
Definition hopcroft_minimise (t : trans) : res trans :=
  if mini t then copy false t else
  rbind (reverse false t) (fun a1 =>
  rbind (reverse false a1) (fun a2 =>
  rbind (determinise false a2) (fun a1 =>
  rbind (minimiser_result a1) (fun r =>
  rmap (fun ls => Trans (nodes r) (det r) true ls) (arc_labels (nodes r) []))))).
(** rev_det_minimise, fst.cc:441-462. *)
Definition rev_det_minimise (t : trans) : res trans :=
  if mini t then copy false t else
  rbind (reverse true t) (fun a1 =>
  rbind (determinise true a1) (fun a2 =>
  rbind (reverse true a2) (fun a1 =>
  rbind (determinise true a1) (fun a2 =>
  rmap (fun ls => Trans (nodes a2) (det a2) true ls) (arc_labels (nodes a2) []))))).
(** minimise, fst.h:344-348; [hopcroft] is Transducer::hopcroft_minimisation. *)
Definition minimise (hopcroft : bool) (t : trans) : res trans :=
  if hopcroft then hopcroft_minimise t else rev_det_minimise t.
(** SfstTransducer::minimize, SfstTransducer.cc:545-548. *)
Definition minimize (hopcroft : bool) (t : trans) : res trans :=
  rmap (fun r => Trans (nodes r) (det r) (mini r) (insert_labels (labels t) (labels r))) (minimise hopcroft t).

(** is_empty, operators.cc:307-321, generates_empty_string, :328-340. *)
Definition is_empty (hopcroft : bool) (t : trans) : res bool :=
  rmap (fun r => negb (final (node_at (nodes r) 0)) && match out (node_at (nodes r) 0) with [] => true | _ => false end)
       (if mini t then Ok t else minimise hopcroft t).
Definition generates_empty_string (hopcroft : bool) (t : trans) : res bool :=
  rmap (fun r => final (node_at (nodes r) 0)) (if mini t then Ok t else minimise hopcroft t).

(** negate_nodes, operators.cc:611-626, and operator!, :635-660. *)
Definition negate_enter (n : nat) (h : list node) : list node := set_final n (negb (final (node_at h n))) h.
Definition negate_leave (ls : list label) (accept n : nat) (h : list node) : list node :=
  fold_left (fun h l => match target_node (node_at h n) l with Some _ => h | None => add_arc n l accept h end) ls h.
Definition negation (hopcroft : bool) (t : trans) : res trans :=
  match labels t with
  | [] => Throw
  | _ =>
    rbind (if mini t then copy false t else minimise hopcroft t) (fun na =>
    let ls := insert_labels (labels t) (labels na) in
    let accept := length (nodes na) in
    let h := fold_left (fun h l => add_arc accept l accept h) (labels t) (nodes na ++ [Node [] [] true]) in
    rmap (fun '(_, h') => Trans h' false false ls)
         (visit Nat.eqb out_now negate_enter (negate_leave ls accept) nothing3 nothing2 (S (length h)) 0 ([], h)))
  end.
(** operator/, operators.cc:935-944, and SfstTransducer::subtract, SfstTransducer.cc:1024-1045:
    the result; that the label sets of the operands grow is left out. *)
Definition subtract (hopcroft : bool) (t u : trans) : res trans :=
  rbind (arc_labels (nodes t) (match labels t with [] => insert_label (1, 1) [] | ls => ls end)) (fun ls =>
  rbind (negation hopcroft (Trans (nodes u) (det u) (mini u) (insert_labels ls (labels u)))) (fun c =>
  conjunction (Trans (nodes t) (det t) (mini t) ls) c)).

(** compare_nodes, operators.cc:953-988: [m] are the forward pointers, which lead from a node of
    one transducer to one of the other and back. *)
Section Compare.
  Variables h1 h2 : list node.
  Definition forward_of (n1 : nat) (m : list (nat * nat)) : option nat := find_key Nat.eqb n1 m.
  Definition back_of (n2 : nat) (m : list (nat * nat)) : option nat := option_map fst (find (fun p => snd p =? n2) m).
  Fixpoint compare_nodes (fuel n1 n2 : nat) (m : list (nat * nat)) : res (bool * list (nat * nat)) :=
    match fuel with
    | 0 => Diverge
    | S fuel' =>
        match forward_of n1 m, back_of n2 m with
        | Some m2, Some m1 => Ok ((m2 =? n2) && (m1 =? n1), m)
        | None, None =>
            let d1 := node_at h1 n1 in
            let d2 := node_at h2 n2 in
            if negb (Bool.eqb (final d1) (final d2)) then Ok (false, (n1, n2) :: m) else
            rbind ((fix loop (l : list (label * nat)) (m : list (nat * nat)) : res (bool * list (nat * nat)) :=
                      match l with
                      | [] => Ok (true, m)
                      | a :: l' =>
                          match target_node d2 (fst a) with
                          | None => Ok (false, m)
                          | Some t2 =>
                              rbind (compare_nodes fuel' (snd a) t2 m) (fun '(b, m') =>
                              if b then loop l' m' else Ok (false, m'))
                          end
                      end) (out d1) ((n1, n2) :: m)) (fun '(b, m') =>
            Ok (b && forallb (fun a => match target_node d1 (fst a) with Some _ => true | None => false end) (out d2), m'))
        | _, _ => Ok (false, m)
        end
    end.
End Compare.
(** operator==, operators.cc:997-1012; SfstTransducer::are_equivalent, SfstTransducer.cc:1047-1050.
    The two are different objects: the marks would collide otherwise. *)
Definition are_equivalent (hopcroft : bool) (t u : trans) : res bool :=
  rbind (if mini t then Ok t else minimise hopcroft t) (fun p1 =>
  rbind (if mini u then Ok u else minimise hopcroft u) (fun p2 =>
  rmap fst (compare_nodes (nodes p1) (nodes p2) (S (length (nodes p1))) 0 0 []))).

(** is_cyclic_node and is_cyclic, operators.cc:225-260: [vis] are the marked nodes, [path] the set
    of the nodes on the way to here. *)
Section Cyclic.
  Variable h : list node.
  Fixpoint is_cyclic_node (fuel : nat) (n : nat) (path vis : list nat) : res (bool * list nat) :=
    match fuel with
    | 0 => Diverge
    | S fuel' =>
        if existsb (Nat.eqb n) vis then Ok (false, vis) else
        (fix loop (l : list (label * nat)) (vis : list nat) : res (bool * list nat) :=
           match l with
           | [] => Ok (false, vis)
           | a :: l' =>
               if existsb (Nat.eqb (snd a)) (n :: path) then Ok (true, vis) else
               rbind (is_cyclic_node fuel' (snd a) (n :: path) vis) (fun '(b, vis') =>
               if b then Ok (true, vis') else loop l' vis')
           end) (out (node_at h n)) (n :: vis)
    end.
End Cyclic.
Definition is_cyclic (t : trans) : res bool := rmap fst (is_cyclic_node (nodes t) (S (length (nodes t))) 0 [] []).

(** is_automaton_node and is_automaton, operators.cc:269-300. *)
Section Automaton.
  Variable h : list node.
  Fixpoint is_automaton_node (fuel : nat) (n : nat) (vis : list nat) : res (bool * list nat) :=
    match fuel with
    | 0 => Diverge
    | S fuel' =>
        if existsb (Nat.eqb n) vis then Ok (true, vis) else
        (fix loop (l : list (label * nat)) (vis : list nat) : res (bool * list nat) :=
           match l with
           | [] => Ok (true, vis)
           | a :: l' =>
               if negb (snd (fst a) =? fst (fst a)) then Ok (false, vis) else
               rbind (is_automaton_node fuel' (snd a) vis) (fun '(b, vis') =>
               if b then loop l' vis' else Ok (false, vis'))
           end) (out (node_at h n)) (n :: vis)
    end.
End Automaton.
Definition is_automaton (t : trans) : res bool := rmap fst (is_automaton_node (nodes t) (S (length (nodes t))) 0 []).

(** SfstTransducer::extract_input_language and extract_output_language, SfstTransducer.cc:598-638:
    the number of the unknown symbol is 1, that of the identity symbol 2 (initialize_alphabet,
    :374-380); the latter replaces the former. *)
Definition extract_language (input : bool) (t : trans) : res trans :=
  rbind (level input t) (fun l =>
  rmap (fun r => Trans (nodes r) (det r) (mini r) (insert_labels (labels l) (labels r))) (replace_char 1 2 l)).
