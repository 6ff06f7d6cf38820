(** Specification vocabulary for hfst-summarize. *)
From Verif Require Import Base BT_Model BT_Spec.

(** [side] is the input symbol or the output symbol of a transition. *)
(** How often [x] is on that side of the transitions of one state. *)
Definition times (side : arc -> bstr) (x : bstr) (l : list arc) : nat := count_occ bstr_eq_dec (map side l) x.
(** No state has two transitions with the same symbol on that side, or an epsilon on it. *)
Definition deterministic (side : arc -> bstr) (g : graph) : Prop :=
  forall l, In l (sts g) -> NoDup (map side l) /\ ~ In (B "@_EPSILON_SYMBOL_@") (map side l).
(** Both sides are the same on every transition. *)
Definition is_acceptor (g : graph) : Prop := forall l a, In l (sts g) -> In a l -> isy a = osy a.
(** [n] states are final. *)
Definition finals_are (g : graph) (n : nat) : Prop :=
  exists l, NoDup l /\ length l = n /\
    forall s, In s l <-> s < length (sts g) /\ exists w, mget Nat.compare s (fin g) = Some w.
(** [n] transitions have the labels for which [P]. *)
Definition transitions_are (g : graph) (P : bstr * bstr -> Prop) (n : nat) : Prop :=
  exists l r, Permutation.Permutation (concat (sts g)) (l ++ r) /\ length l = n /\
    Forall (fun a => P (isy a, osy a)) l /\ Forall (fun a => ~ P (isy a, osy a)) r.
(** The state [s] is on a loop. *)
Definition on_loop (g : graph) (s : nat) : Prop := exists p w, p <> [] /\ run g s p w s.
(** A state that goes to itself directly. *)
Definition self_loop (g : graph) (s : nat) : Prop := exists a, In a (nth s (sts g) []) /\ tgt a = s.
(** [x] is a symbol on some transition. *)
Definition occurs (g : graph) (x : bstr) : Prop := exists l a, In l (sts g) /\ In a l /\ (x = isy a \/ x = osy a).
(** The number of different symbols on that side of the transitions of each state, added up. *)
Definition total_distinct (side : arc -> bstr) (ls : list (list arc)) : nat :=
  list_sum (map (fun l => length (nodup bstr_eq_dec (map side l))) ls).
