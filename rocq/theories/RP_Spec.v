(** Specification vocabulary for hfst-repeat. *)
From Verif Require Import Base SF_Spec.

(** What strtod finds in an argument: a fraction or an infinity. *)
Inductive value := Fraction (p : Z) (q : positive) | Infinity (negative : bool).
(** The largest number of repetitions that can be asked for. *)
Definition largest_count : Z := 2147483647.
(** The argument is the natural number [n]. *)
Definition is_count (v : value) (n : nat) : Prop :=
  match v with Fraction p q => p = (Z.of_nat n * Z.pos q)%Z /\ (Z.of_nat n <= largest_count)%Z | Infinity _ => False end.
(** The argument of --from, 0 if omitted. *)
Definition from_says (from : option value) (lo : nat) : Prop :=
  match from with None => lo = 0 | Some v => is_count v lo end.
(** The argument of --to, infinity if omitted. *)
Definition to_says (to : option value) (hi : option nat) : Prop :=
  match to, hi with
  | None, None => True
  | Some (Infinity false), None => True
  | Some v, Some n => is_count v n
  | _, _ => False
  end.
Definition at_most (n : nat) (hi : option nat) : Prop := match hi with None => True | Some k => n <= k end.
(** Strings made of at least [lo] and at most [hi] strings of a language. *)
Definition repeated (A : list label -> Prop) (lo : nat) (hi : option nat) (w : list label) : Prop :=
  exists n, lo <= n /\ at_most n hi /\ power A n w.
