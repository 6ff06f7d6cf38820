(** Specification vocabulary for archives: streams of several transducers. *)
From Verif Require Import Base.

Section Archives.
  Context {A : Type}.
  (** [out] is the first [k] of [xs], or all of them. *)
  Definition the_first (k : nat) (xs out : list A) : Prop := exists rest, xs = out ++ rest /\ length out = Nat.min k (length xs).
  (** [out] is the last [k] of [xs], or all of them. *)
  Definition the_last (k : nat) (xs out : list A) : Prop := exists rest, xs = rest ++ out /\ length out = Nat.min k (length xs).
  (** [out] is what is left of [xs] without the last [k]. *)
  Definition all_but_last (k : nat) (xs out : list A) : Prop := exists rest, xs = out ++ rest /\ length rest = Nat.min k (length xs).
  (** [out] is what is left of [xs] without the first [k]. *)
  Definition all_but_first (k : nat) (xs out : list A) : Prop := exists rest, xs = rest ++ out /\ length rest = Nat.min k (length xs).

  (** The transducers two archives have for each other: one by one, or the only one of the second
      archive for each of the first. *)
  Inductive paired : list A -> list A -> list (A * A) -> Prop :=
  | pr_each xs ys : length xs = length ys -> paired xs ys (combine xs ys)
  | pr_one xs y : paired xs [y] (map (fun x => (x, y)) xs).
End Archives.
