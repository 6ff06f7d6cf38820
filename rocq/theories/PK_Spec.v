(** Tables of transitions in the PC-KIMMO format, independently of the printer. *)
From Verif Require Import Base BT_Model IN_Spec.
From Coq Require Import NArith.

(** The words of a line, each followed by a space. *)
Definition cells (text : bstr) (ws : list bstr) : Prop := text = concat (map (fun w => w ++ [" "%char]) ws).
(** How a symbol is written. *)
Definition written (x w : bstr) : Prop :=
  x = EPS /\ w = B "0" \/ x = UNK /\ w = B "@" \/ x <> EPS /\ x <> UNK /\ w = x.
(** [w] is the number of decimal digits that [n] states need. *)
Definition width_of (n : N) (w : nat) : Prop := (n <= 10 ^ N.of_nat w)%N /\ forall k, k < w -> (10 ^ N.of_nat k < n)%N.
(** The label of some transition of the transducer. *)
Definition used_pair (g : graph) (p : bstr * bstr) : Prop := exists s a, In a (nth s (sts g) []) /\ (isy a, osy a) = p.
(** What stands in the row of state [s] under the pair [p]: the number of a state reached from [s] with
    this pair, counted from 1, or 0 if there is none. *)
Definition entry (g : graph) (s : nat) (p : bstr * bstr) (c : bstr) : Prop :=
  (exists a, In a (nth s (sts g) []) /\ (isy a, osy a) = p /\ decimal c (N.of_nat (tgt a + 1))) \/
  (forall a, In a (nth s (sts g) []) -> (isy a, osy a) <> p) /\ decimal c 0.
(** The row of state [s]. *)
Definition row_of (g : graph) (pairs : list (bstr * bstr)) (s : nat) (text : bstr) : Prop :=
  exists number mark rest cs, text = number ++ mark :: " "%char :: rest /\ decimal number (N.of_nat (s + 1)) /\
    mark = (if is_final_state g s then "."%char else ":"%char) /\ cells rest cs /\ Forall2 (entry g s) pairs cs.
