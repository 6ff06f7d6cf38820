(** File names with numbers, independently of the tools. *)
From Verif Require Import Base IN_Spec.
From Coq Require Import NArith.

(** [name] is the prefix, the number [n] in decimal digits without leading zeros, and the extension. *)
Definition numbered (prefix ext : bstr) (n : nat) (name : bstr) : Prop :=
  exists s, decimal s (N.of_nat n) /\ hd_error s <> Some "0"%char /\ name = prefix ++ s ++ ext.

(** Every element [n] times. *)
Definition each_repeated {T} (n : nat) (l out : list T) : Prop :=
  exists parts, Forall2 (fun t p => length p = n /\ Forall (eq t) p) l parts /\ out = concat parts.
