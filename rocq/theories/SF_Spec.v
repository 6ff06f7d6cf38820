(** Specification vocabulary for the SFST back end. *)
From Verif Require Import Base.

(** A symbol is a number, 0 the empty one; a label is a pair input:output (SFST: lower:upper). *)
Definition label := (nat * nat)%type.
(** A node: the targets of its epsilon transitions, its other transitions, its finality. *)
Record node := Node { eps : list nat; arcs : list (label * nat); final : bool }.
(** A transducer: its nodes, node 0 being the root; whether it says that it is deterministic and
    that it is minimal; the labels of its alphabet. *)
Record trans := Trans { nodes : list node; det : bool; mini : bool; labels : list label }.

Definition node_at (h : list node) (n : nat) : node := nth n h (Node [] [] false).
(** All transitions of a node. *)
Definition out (d : node) : list (label * nat) := map (fun t => ((0, 0), t)) (eps d) ++ arcs d.

(** The label string read on a way from a node to a final one; labels 0:0 leave no trace. *)
Definition emit (l : label) (w : list label) : list label :=
  match l with (0, 0) => w | _ => l :: w end.
Inductive reads (h : list node) : nat -> list label -> Prop :=
| reads_end n : final (node_at h n) = true -> reads h n []
| reads_step n l t w : In (l, t) (out (node_at h n)) -> reads h t w -> reads h n (emit l w).
Definition lang (t : trans) (w : list label) : Prop := reads (nodes t) 0 w.
(** Two transducers accepting the same label strings. *)
Definition same_lang (t u : trans) : Prop := forall w, lang t w <-> lang u w.

(** The pairs of symbol strings related. *)
Definition side (f : label -> nat) (w : list label) : list nat := filter (fun x => negb (x =? 0)) (map f w).
Definition relates (t : trans) (x y : list nat) : Prop :=
  exists w, lang t w /\ x = side fst w /\ y = side snd w.

(** A label string after every label has been changed; labels that become 0:0 go away. *)
Definition relabel (f : label -> label) (w : list label) : list label :=
  fold_right (fun l r => emit (f l) r) [] w.
(** A label string with any number of copies of a label put in anywhere. *)
Inductive with_inserted (l : label) : list label -> list label -> Prop :=
| ins_nil : with_inserted l [] []
| ins_keep x v w : with_inserted l v w -> with_inserted l (x :: v) (x :: w)
| ins_new v w : with_inserted l v w -> with_inserted l v (l :: w).

(** Strings made of any number of strings of a language. *)
Inductive star (A : list label -> Prop) : list label -> Prop :=
| star_nil : star A []
| star_app u v : A u -> star A v -> star A (u ++ v).

(** Strings made of [n] strings of a language. *)
Fixpoint power (A : list label -> Prop) (n : nat) (w : list label) : Prop :=
  match n with
  | 0 => w = []
  | S n' => exists u v, w = u ++ v /\ power A n' u /\ A v
  end.

(** Nodes that can be reached from a node. *)
Inductive reachable (h : list node) : nat -> nat -> Prop :=
| reach_here n : reachable h n n
| reach_step n l m k : In (l, m) (out (node_at h n)) -> reachable h m k -> reachable h n k.

(** There is a root, transitions lead to nodes, and only the epsilon transitions have label 0:0. *)
Definition graph_ok (h : list node) : Prop :=
  h <> [] /\
  forall n, n < length h ->
    (forall l t, In (l, t) (out (node_at h n)) -> t < length h) /\
    (forall t, ~ In ((0, 0), t) (arcs (node_at h n))).
(** No epsilon transitions, and no two transitions of a node with the same label. *)
Definition deterministic (h : list node) : Prop :=
  forall n, reachable h 0 n -> eps (node_at h n) = [] /\ NoDup (map fst (arcs (node_at h n))).
(** Deterministic, no two nodes accepting the same label strings, and no transition leading to a
    node that accepts nothing. *)
Definition minimal (h : list node) : Prop :=
  deterministic h /\
  (forall n m, reachable h 0 n -> reachable h 0 m -> (forall w, reads h n w <-> reads h m w) -> n = m) /\
  (forall n l t, reachable h 0 n -> In (l, t) (out (node_at h n)) -> exists w, reads h t w).
(** The transducer is in order and what it says about itself is true. *)
Definition trans_ok (t : trans) : Prop :=
  graph_ok (nodes t) /\
  (det t = true -> deterministic (nodes t)) /\
  (mini t = true -> minimal (nodes t)) /\
  ~ In (0, 0) (labels t).
(** A tree: no transition leads to the root, and only one to each other node. *)
Definition is_tree (h : list node) : Prop :=
  (forall n l, ~ In (l, 0) (out (node_at h n))) /\
  (forall n l n' l' t, In (l, t) (out (node_at h n)) -> In (l', t) (out (node_at h n')) -> n = n' /\ l = l').
