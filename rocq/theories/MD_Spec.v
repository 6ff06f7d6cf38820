(** Well-formed UTF-8 (Unicode, Table 3-7) and names of transducers, independently of the tools. *)
From Verif Require Import Base.
From Coq Require Import NArith.

Definition within (lo hi x : N) : bool := ((lo <=? x) && (x <=? hi))%N.
Definition tail_byte (x : N) : bool := within 128 191 x.
(** One character. *)
Definition character (c : bstr) : bool :=
  match map N_of_ascii c with
  | [a] => within 0 127 a
  | [a; x] => within 194 223 a && tail_byte x
  | [a; x; y] =>
      (N.eqb a 224 && within 160 191 x || within 225 236 a && tail_byte x ||
       N.eqb a 237 && within 128 159 x || within 238 239 a && tail_byte x) && tail_byte y
  | [a; x; y; z] =>
      (N.eqb a 240 && within 144 191 x || within 241 243 a && tail_byte x ||
       N.eqb a 244 && within 128 143 x) && tail_byte y && tail_byte z
  | _ => false
  end.
Definition well_formed (s : bstr) : Prop := exists cs, Forall (fun c => character c = true) cs /\ s = concat cs.

(** The name a transducer is known by. *)
Definition known_as (name shown : bstr) : Prop := shown = match name with [] => B "UNNAMED" | _ => name end.
(** [x] is the text of the first [n] bytes of [s]. *)
Definition first_bytes (n : nat) (s x : bstr) : Prop := length x = n /\ exists r, s = x ++ r.
(** Names longer than 1024 bytes are given by their first 1000 bytes. *)
Definition shortened (full name : bstr) : Prop :=
  length full <= 1024 /\ name = full \/
  1024 < length full /\ exists x, first_bytes 1000 full x /\ name = B "truncated(" ++ x ++ B "...)".

(** [x] is [s], cut after [n] bytes if [n] is not 0. *)
Definition cut (n : N) (s x : bstr) : Prop :=
  (n = 0%N \/ (N.of_nat (length s) <= n)%N) /\ x = s \/ (0 < n <= N.of_nat (length s))%N /\ first_bytes (N.to_nat n) s x.

(** The text KEY=VALUE, and the latest value given for a key. *)
Definition assigns (arg k v : bstr) : Prop := arg = k ++ "="%char :: v /\ ~ In "="%char k.
Definition given_last (args : list bstr) (k v : bstr) : Prop :=
  exists a arg b, args = a ++ arg :: b /\ assigns arg k v /\ forall arg' v', In arg' b -> ~ assigns arg' k v'.
