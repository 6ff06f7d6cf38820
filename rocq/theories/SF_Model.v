(** Model of the SFST back end, back-ends/sfst: fst.h, fst.cc, operators.cc, determinise.cc, and
    of the functions of libhfst/src/implementations/SfstTransducer.cc that call it.
    Nodes are numbered in the order in which they are allocated, the root being number 0; the
    marks left by traversals (vmark, fst.h:242-249) are lists of nodes, empty when a traversal
    starts; forward pointers and node mappings are association lists.
    Simplifications: numbers (Index, Character) are unbounded; of the alphabet only the set of
    labels is modelled, and both operands of an operation use the same symbol numbers, which
    SfstTransducer::harmonize brings about; a transducer is not modified by operations that read
    it (cached indices and marks); the recursion depth is not limited. *)
From Verif Require Import Base SF_Spec.

(** Label::operator==, alphabet.h:80-81, and the order of the label sets, :115-121. *)
Definition label_eqb (a b : label) : bool := (fst a =? fst b) && (snd a =? snd b).
Definition label_cmp (a b : label) : comparison :=
  match fst a ?= fst b with Eq => snd a ?= snd b | c => c end.
(** Label::is_epsilon, :107-108. *)
Definition is_epsilon (l : label) : bool := label_eqb l (0, 0).
(** Alphabet::insert, :188; Alphabet::copy, alphabet.cc, as far as labels are concerned. *)
Definition insert_label (l : label) (s : list label) : list label :=
  if is_epsilon l then s else sadd label_cmp l s.
Definition insert_labels (ls s : list label) : list label := fold_left (fun s l => insert_label l s) ls s.

(** Node::init, fst.cc:156-163. *)
Definition fresh : node := Node [] [] false.
(** Transducer::Transducer( bool empty=false ), fst.h:298-303. *)
Definition new_trans (empty : bool) : trans := Trans [fresh] empty empty [].
Fixpoint update {A} (n : nat) (f : A -> A) (l : list A) : list A :=
  match l, n with
  | [], _ => []
  | x :: r, 0 => f x :: r
  | x :: r, S n' => x :: update n' f r
  end.
(** Node::set_final, fst.h:168. *)
Definition set_final (n : nat) (b : bool) (h : list node) : list node :=
  update n (fun d => Node (eps d) (arcs d) b) h.
(** Arcs::add_arc, fst.cc:112-126. *)
Definition add_arc (n : nat) (l : label) (t : nat) (h : list node) : list node :=
  update n (fun d => if is_epsilon l then Node (t :: eps d) (arcs d) (final d)
                     else Node (eps d) ((l, t) :: arcs d) (final d)) h.
(** Arcs::target_node, fst.cc:49-60. *)
Definition target_node (d : node) (l : label) : option nat :=
  option_map snd (find (fun a => label_eqb (fst a) l) (arcs d)).

(** The traversals.  They all have this form: nothing happens at a node visited before; otherwise
    the node is marked and entered, for every transition, epsilon transitions first (ArcsIter,
    fst.h:110-152), something happens before and after the traversal of its target, and at last
    the node is left.  [K] are the nodes of the graph that is traversed, or the pairs or sets of
    nodes that stand for nodes; [before] is told whether the target has been visited. *)
Section Visit.
  Context {K S : Type}.
  Variable keqb : K -> K -> bool.
  Variable succ : S -> K -> list (label * K).
  Variables (enter leave : K -> S -> S) (before : K -> label * K -> bool -> S -> S)
            (after : K -> label * K -> S -> S).
  Definition visited (k : K) (vis : list K) : bool := existsb (keqb k) vis.
  Fixpoint visit (fuel : nat) (k : K) (st : list K * S) : res (list K * S) :=
    match fuel with
    | 0 => Diverge
    | Datatypes.S fuel' =>
        if visited k (fst st) then Ok st else
        let s1 := enter k (snd st) in
        rbind ((fix loop (l : list (label * K)) (st : list K * S) : res (list K * S) :=
                  match l with
                  | [] => Ok st
                  | a :: l' =>
                      rbind (visit fuel' (snd a) (fst st, before k a (visited (snd a) (fst st)) (snd st)))
                            (fun st' => loop l' (fst st', after k a (snd st')))
                  end) (succ s1 k) (k :: fst st, s1))
              (fun st' => Ok (fst st', leave k (snd st')))
    end.
End Visit.
Definition nothing {S} (_ : nat) (s : S) : S := s.
Definition nothing2 {S} (_ : nat) (_ : label * nat) (s : S) : S := s.
Definition nothing3 {S} (_ : nat) (_ : label * nat) (_ : bool) (s : S) : S := s.

(** Looking up a forward pointer or a node mapping; following an unset one is undefined. *)
Section Find.
  Context {K : Type}.
  Variable keqb : K -> K -> bool.
  Fixpoint find_key (k : K) (m : list (K * nat)) : option nat :=
    match m with [] => None | (k', n) :: r => if keqb k k' then Some n else find_key k r end.
End Find.
Definition forward (n : nat) (m : list (nat * nat)) : option nat := find_key Nat.eqb n m.

(** What a traversal of [h] that builds other nodes has built. *)
Notation building := (res (list node * list (nat * nat))).

(** recode_label, operators.cc:398-413, without recoding. *)
Definition recode_label (lswitch : bool) (l : label) : label := if lswitch then (snd l, fst l) else l.
(** copy_nodes, operators.cc:422-447: new node, finality; an arc after the target was copied. *)
Definition copy_enter (h : list node) (n : nat) (s : building) : building :=
  rmap (fun '(g, m) => (g ++ [Node [] [] (final (node_at h n))], (n, length g) :: m)) s.
Definition copy_after (lswitch : bool) (n : nat) (a : label * nat) (s : building) : building :=
  rbind s (fun '(g, m) =>
  match forward n m, forward (snd a) m with
  | Some n', Some t' => Ok (add_arc n' (recode_label lswitch (fst a)) t' g, m)
  | _, _ => Ub
  end).
Definition out_of {S} (h : list node) (_ : S) (n : nat) : list (label * nat) := out (node_at h n).
Definition copy_nodes (h : list node) (lswitch : bool) (n : nat) (g : list node) : res (list node * nat) :=
  rbind (visit Nat.eqb (out_of h) (copy_enter h) nothing nothing3 (copy_after lswitch)
               (S (length h)) n ([], Ok (g, [])))
        (fun '(_, s) => rbind s (fun '(g', m) =>
         match forward n m with Some n' => Ok (g', n') | None => Ub end)).
(** Transducer::copy, operators.cc:456-494, without a second alphabet.  The root of the copy is
    there already. *)
Definition copy_enter_root (h : list node) (n : nat) (s : building) : building :=
  if n =? 0 then rmap (fun '(g, m) => (set_final 0 (final (node_at h 0)) g, m)) s
  else copy_enter h n s.
Definition copy (lswitch : bool) (t : trans) : res trans :=
  let h := nodes t in
  rbind (visit Nat.eqb (out_of h) (copy_enter_root h) nothing nothing3 (copy_after lswitch)
               (S (length h)) 0 ([], Ok ([fresh], [(0, 0)])))
        (fun '(_, s) => rmap (fun '(g, _) =>
           Trans g (det t) (mini t) (insert_labels (map (recode_label lswitch) (labels t)) [])) s).
(** switch_levels, fst.h:356; SfstTransducer::invert, SfstTransducer.cc:593-594. *)
Definition switch_levels (t : trans) : res trans := copy true t.

(** operator|, operators.cc:503-517. *)
Definition union (t u : trans) : res trans :=
  rbind (copy_nodes (nodes t) false 0 [fresh]) (fun '(g1, n1) =>
  let g1 := add_arc 0 (0, 0) n1 g1 in
  rbind (copy_nodes (nodes u) false 0 g1) (fun '(g2, n2) =>
  Ok (Trans (add_arc 0 (0, 0) n2 g2) false false (insert_labels (labels u) (insert_labels (labels t) []))))).

(** rec_cat_nodes, operators.cc:526-543. *)
Definition cat_leave (n2 n : nat) (h : list node) : list node :=
  if final (node_at h n) then add_arc n (0, 0) n2 (set_final n false h) else h.
Definition out_now (h : list node) (n : nat) : list (label * nat) := out (node_at h n).
Definition rec_cat_nodes (n n2 : nat) (h : list node) : res (list node) :=
  rmap snd (visit Nat.eqb out_now nothing (cat_leave n2) nothing3 nothing2 (S (length h)) n ([], h)).
(** operator+, operators.cc:552-573. *)
Definition concatenation (t u : trans) : res trans :=
  rbind (copy_nodes (nodes t) false 0 [fresh]) (fun '(g1, n1) =>
  rbind (copy_nodes (nodes u) false 0 (add_arc 0 (0, 0) n1 g1)) (fun '(g2, n2) =>
  rmap (fun g3 => Trans g3 false false (insert_labels (labels u) (insert_labels (labels t) [])))
       (rec_cat_nodes 0 n2 g2))).
(** kleene_star, operators.cc:583-606. *)
Definition kleene_star (t : trans) : res trans :=
  rbind (copy false t) (fun c =>
  rbind (concatenation (Trans [Node [] [] true] false false []) c) (fun e =>
  rmap (fun g => Trans (set_final 0 true g) false false (labels e)) (rec_cat_nodes 0 0 (nodes e)))).

(** SfstTransducer::create_empty_transducer and create_epsilon_transducer, SfstTransducer.cc:382-392. *)
Definition empty_transducer : trans := new_trans false.
Definition epsilon_transducer : trans := Trans (set_final 0 true [fresh]) false false [].
(** SfstTransducer::repeat_plus, SfstTransducer.cc:556-560, repeat_n, :562-571, repeat_le_n,
    :573-584 (the loop counter cannot be one past the largest number here), optionalize, :586-590. *)
Definition repeat_plus (t : trans) : res trans := rbind (kleene_star t) (fun s => concatenation t s).
Fixpoint repeat_from (power t : trans) (n : nat) : res trans :=
  match n with
  | 0 => Ok power
  | S n' => rbind (concatenation power t) (fun p => repeat_from p t n')
  end.
Definition repeat_n (t : trans) (n : nat) : res trans := repeat_from epsilon_transducer t n.
Definition repeat_le_n (t : trans) (n : nat) : res trans :=
  fold_left (fun r i => rbind r (fun result => rbind (repeat_n t i) (fun power => union power result)))
            (seq 0 (S n)) (Ok empty_transducer).
Definition optionalize (t : trans) : res trans := union t epsilon_transducer.
(** SfstTransducer::disjunct( Transducer*, const StringPairVector& ), SfstTransducer.cc:1014-1043,
    after the numbers of the symbols have been found: the transducer itself is changed. *)
Definition path_step (l : label) (s : trans * nat) : trans * nat :=
  let '(t, n) := s in
  let ls := insert_label l (labels t) in
  match target_node (node_at (nodes t) n) l with
  | Some n' => (Trans (nodes t) (det t) (mini t) ls, n')
  | None => (Trans (add_arc n l (length (nodes t)) (nodes t ++ [fresh])) (det t) (mini t) ls, length (nodes t))
  end.
Definition disjunct_path (t : trans) (path : list label) : trans :=
  let '(r, n) := fold_left (fun s l => path_step l s) path (t, 0) in
  Trans (set_final n true (nodes r)) (det r) (mini r) (labels r).

(** reverse_node, operators.cc:347-371, and reverse, :380-391. *)
Definition reverse_enter (h : list node) (n : nat) (s : building) : building :=
  rmap (fun '(g, m) =>
    let g' := g ++ [fresh] in
    ((if final (node_at h n) then add_arc 0 (0, 0) (length g) g' else g'), (n, length g) :: m)) s.
Definition reverse_after (n : nat) (a : label * nat) (s : building) : building :=
  rbind s (fun '(g, m) =>
  match forward n m, forward (snd a) m with
  | Some n', Some t' => Ok (add_arc t' (fst a) n' g, m)
  | _, _ => Ub
  end).
Definition reverse (copy_alphabet : bool) (t : trans) : res trans :=
  let h := nodes t in
  rbind (visit Nat.eqb (out_of h) (reverse_enter h) nothing nothing3 reverse_after
               (S (length h)) 0 ([], Ok ([fresh], [])))
        (fun '(_, s) => rbind s (fun '(g, m) =>
         match forward 0 m with
         | Some r => Ok (Trans (set_final r true g) false false
                               (if copy_alphabet then insert_labels (labels t) [] else []))
         | None => Ub
         end)).

(** Building the part of a graph that can be reached from a node, given by its transitions
    [sc] and final nodes [fin]: the form of map_nodes (operators.cc:1014-1041), replace_char2
    (:1236-1263), conjoin_nodes (:684-723), add_transition and compose_nodes (:762-905),
    determinise_node (determinise.cc:226-251).  The target of a transition is looked up; if it
    is not there, a node is made for it; the transition is added; the target is visited.
    Where the code sets the forward pointer of the target on visiting it, which is the next
    thing to happen, it is set here with the new node. *)
Section Explore.
  Context {K : Type}.
  Variable keqb : K -> K -> bool.
  Variables (sc : K -> res (list (label * K))) (fin : K -> bool).
  Notation exploring := (res (list node * list (K * nat))).
  Definition explore_enter (k : K) (s : exploring) : exploring :=
    rbind s (fun '(g, m) => rbind (sc k) (fun _ =>
    match find_key keqb k m with
    | Some n => Ok (if fin k then set_final n true g else g, m)
    | None => Ub
    end)).
  Definition explore_succ (_ : exploring) (k : K) : list (label * K) :=
    match sc k with Ok l => l | _ => [] end.
  Definition explore_before (k : K) (a : label * K) (_ : bool) (s : exploring) : exploring :=
    rbind s (fun '(g, m) =>
    match find_key keqb k m with
    | Some n =>
        match find_key keqb (snd a) m with
        | Some t => Ok (add_arc n (fst a) t g, m)
        | None => Ok (add_arc n (fst a) (length g) (g ++ [fresh]), (snd a, length g) :: m)
        end
    | None => Ub
    end).
  Definition explore (fuel : nat) (root : K) : res (list node) :=
    rbind (visit keqb explore_succ explore_enter (fun _ s => s) explore_before (fun _ _ s => s)
                 fuel root ([], Ok ([fresh], [(root, 0)])))
          (fun '(_, s) => rmap fst s).
End Explore.

(** level, operators.cc:1050-1067: [input] is the lower level. *)
Definition level (input : bool) (t : trans) : res trans :=
  let c (l : label) := if input then fst l else snd l in
  let h := nodes t in
  rmap (fun g => Trans g false false (fold_left (fun s l => insert_label (c l, c l) s) (labels t) []))
       (explore Nat.eqb (fun n => Ok (map (fun a => ((c (fst a), c (fst a)), snd a)) (out (node_at h n))))
                (fun n => final (node_at h n)) (S (length h)) 0).

(** Label::replace_char, alphabet.h:71-78; replace_char, operators.cc:1213-1228. *)
Definition replace_in_label (c nc : nat) (l : label) : label :=
  (if fst l =? c then nc else fst l, if snd l =? c then nc else snd l).
Definition replace_char (c nc : nat) (t : trans) : res trans :=
  let h := nodes t in
  rmap (fun g => Trans g false false (fold_left (fun s l => insert_label (replace_in_label c nc l) s) (labels t) []))
       (explore Nat.eqb (fun n => Ok (map (fun a => (replace_in_label c nc (fst a), snd a)) (out (node_at h n))))
                (fun n => final (node_at h n)) (S (length h)) 0).

(** freely_insert_at_node, operators.cc:1076-1089, and freely_insert, :1098-1107. *)
Definition insert_enter (l : label) (n : nat) (h : list node) : list node := add_arc n l n h.
Definition freely_insert (l : label) (t : trans) : res trans :=
  rbind (copy false t) (fun c =>
  rmap (fun '(_, h) => Trans h (det c) (mini c) (labels c))
       (visit Nat.eqb out_now (insert_enter l) nothing nothing3 nothing2
              (S (length (nodes c))) 0 ([], nodes c))).

(** NodeSet::add, determinise.cc:141-154: the set is also what has been visited. *)
Definition add_closure (h : list node) (n : nat) (ns : list nat) : res (list nat) :=
  rmap fst (visit Nat.eqb (fun (_ : unit) n => map (fun t => ((0, 0), t)) (eps (node_at h n)))
                  nothing nothing nothing3 nothing2 (S (length h)) n (ns, tt)).
(** NodeArray::NodeArray, determinise.cc:163-179: the nodes with transitions other than epsilon
    ones, in the order of the set (that of the addresses in the code, of the numbers here), and
    whether there is a final node. *)
Definition subset := (list nat * bool)%type.
Definition node_array (h : list node) (ns : list nat) : subset :=
  (filter (fun n => existsb (Nat.eqb n) ns && negb (match arcs (node_at h n) with [] => true | _ => false end))
          (seq 0 (length h)),
   existsb (fun n => final (node_at h n)) ns).
(** The order of std::map<const Label, NodeSet>: Label::operator<, alphabet.h:86-94. *)
Definition upper_cmp (a b : label) : comparison :=
  match snd a ?= snd b with Eq => fst a ?= fst b | c => c end.
(** compute_transitions, determinise.cc:205-227. *)
Definition collect (h : list node) (a : label * nat) (m : res (list (label * list nat))) : res (list (label * list nat)) :=
  rbind m (fun m =>
  rmap (fun ns => mset upper_cmp (fst a) ns m)
       (add_closure h (snd a) (match mget upper_cmp (fst a) m with Some ns => ns | None => [] end))).
Definition compute_transitions (h : list node) (k : subset) : res (list (label * subset)) :=
  rmap (map (fun p => (fst p, node_array h (snd p))))
       (fold_left (fun m a => collect h a m) (flat_map (fun n => arcs (node_at h n)) (fst k)) (Ok [])).
Definition subset_eqb (a b : subset) : bool :=
  (if list_eq_dec Nat.eq_dec (fst a) (fst b) then true else false) && Bool.eqb (snd a) (snd b).
(** determinise, determinise.cc:260-288. *)
Definition determinise (copy_alphabet : bool) (t : trans) : res trans :=
  if det t then copy false t else
  let h := nodes t in
  rbind (add_closure h 0 []) (fun ns =>
  rmap (fun g => Trans g true false (if copy_alphabet then insert_labels (labels t) [] else []))
       (explore subset_eqb (compute_transitions h) snd (S (2 ^ S (length h))) (node_array h ns))).

Definition pair_eqb (a b : nat * nat) : bool := (fst a =? fst b) && (snd a =? snd b).
(** conjoin_nodes, operators.cc:684-723, and operator&, :732-770. *)
Definition conjoin_succ (h1 h2 : list node) (p : nat * nat) : list (label * (nat * nat)) :=
  flat_map (fun a => match target_node (node_at h2 (snd p)) (fst a) with
                     | Some t2 => [(fst a, (snd a, t2))]
                     | None => []
                     end) (out (node_at h1 (fst p))).
Definition both_final (h1 h2 : list node) (p : nat * nat) : bool :=
  final (node_at h1 (fst p)) && final (node_at h2 (snd p)).
Definition conjunction (t u : trans) : res trans :=
  rbind (if det t then Ok t else determinise true t) (fun d1 =>
  rbind (if det u then Ok u else determinise true u) (fun d2 =>
  rmap (fun g => Trans g true false (insert_labels (labels u) (insert_labels (labels t) [])))
       (explore pair_eqb (fun p => Ok (conjoin_succ (nodes d1) (nodes d2) p)) (both_final (nodes d1) (nodes d2))
                (S (length (nodes d1) * length (nodes d2))) (0, 0)))).

(** hash_transitions, operators.cc:119-149: the number of different symbols on one side of the
    transitions of a node. *)
Definition symbols_on (f : label -> nat) (d : node) : nat :=
  length (nodup Nat.eq_dec (map (fun a => f (fst a)) (out d))).
(** CharNode2Trans::iterator, :68-83: the transitions with a symbol on one side. *)
Definition arcs_with (f : label -> nat) (c : nat) (d : node) : list (label * nat) :=
  filter (fun a => f (fst a) =? c) (out d).
(** compose_nodes, :799-893: the node with more symbols is looked up. *)
Definition compose_succ (h1 h2 : list node) (p : nat * nat) : list (label * (nat * nat)) :=
  let d1 := node_at h1 (fst p) in
  let d2 := node_at h2 (snd p) in
  if symbols_on snd d1 <=? symbols_on fst d2 then
    flat_map (fun a1 =>
      if snd (fst a1) =? 0 then [(fst a1, (snd a1, snd p))]
      else map (fun a2 => ((fst (fst a1), snd (fst a2)), (snd a1, snd a2))) (arcs_with fst (snd (fst a1)) d2)) (out d1) ++
    map (fun a2 => (fst a2, (fst p, snd a2))) (arcs_with fst 0 d2)
  else
    flat_map (fun a2 =>
      if fst (fst a2) =? 0 then [(fst a2, (fst p, snd a2))]
      else map (fun a1 => ((fst (fst a1), snd (fst a2)), (snd a1, snd a2))) (arcs_with snd (fst (fst a2)) d1)) (out d2) ++
    map (fun a1 => (fst a1, (snd a1, snd p))) (arcs_with snd 0 d1).
(** Alphabet::compose, alphabet.cc:394-426. *)
Definition compose_labels (la ua : list label) : list label :=
  insert_labels (flat_map (fun l => if snd l =? 0 then [l]
                                    else map (fun u => (fst l, snd u)) (filter (fun u => fst u =? snd l) ua)) la)
                (insert_labels (filter (fun u => fst u =? 0) ua) []).
(** operator||, operators.cc:902-921; SfstTransducer::compose, SfstTransducer.cc:1001-1004. *)
Definition compose (t u : trans) : res trans :=
  rmap (fun g => Trans g false false (compose_labels (labels t) (labels u)))
       (explore pair_eqb (fun p => Ok (compose_succ (nodes t) (nodes u) p)) (both_final (nodes t) (nodes u))
                (S (length (nodes t) * length (nodes u))) (0, 0)).
