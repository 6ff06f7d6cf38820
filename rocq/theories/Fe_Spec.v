(** Specification vocabulary for flag elimination.  Flags, their written forms and when a
    sequence of them is accepted are in Flags_Spec. *)
From Verif Require Import Base Flags_Spec.

Definition feature_of (x : flag) : bstr :=
  match x with FP f _ | FN f _ | FR f _ | FD f _ | FC f | FU f _ => f end.

(** Which flags are meant: all, or those of one feature. *)
Definition meant (which : option bstr) (x : flag) : bool :=
  match which with None => true | Some f => bstr_eqb (feature_of x) f end.
Definition only (which : option bstr) (o : option flag) : option flag :=
  match o with Some x => if meant which x then Some x else None | None => None end.

(** The flags meant are obeyed along a sequence of labels, read on the input side. *)
Definition obeyed (which : option bstr) (l : list (bstr * bstr)) : Prop :=
  exists xs, Forall2 reads (map fst l) xs /\ accepted (map (only which) xs) = true.

(** The symbol is a flag that is meant. *)
Definition meant_symbol (which : option bstr) (s : bstr) : Prop :=
  exists x, denotes s x /\ meant which x = true.

(** [without which l m]: [m] is [l] without the labels that are flags meant. *)
Inductive without (which : option bstr) : list (bstr * bstr) -> list (bstr * bstr) -> Prop :=
| wo_nil : without which [] []
| wo_flag p l m : meant_symbol which (fst p) -> without which l m -> without which (p :: l) m
| wo_keep p l m : ~ meant_symbol which (fst p) -> without which l m -> without which (p :: l) (p :: m).

(** Flags occur only paired with themselves, as compose and the lookup assume. *)
Definition flags_paired (r : list (bstr * bstr) -> Z -> Prop) : Prop :=
  forall l w p, r l w -> In p l -> (exists x, denotes (fst p) x \/ denotes (snd p) x) -> fst p = snd p.
(** Symbols on paths are in the alphabet. *)
Definition known_symbols (r : list (bstr * bstr) -> Z -> Prop) (al : list bstr) : Prop :=
  forall l w p, r l w -> In p l -> In (fst p) al /\ In (snd p) al.

(** The operation [s] on a feature matters for the test [c] on the same feature: it makes [c]
    fail or succeed on its own, and is not a test that [c] follows in any case. *)
Definition bears_on (s c : flag) : Prop :=
  feature_of s = feature_of c /\
  match c, s with
  | FU _ _, (FP _ _ | FC _) => True
  | FU _ v, FU _ u => u <> v
  | FR _ _, (FP _ _ | FC _ | FU _ _) => True
  | FD _ _, (FP _ _ | FC _) => True
  | FD _ None, FU _ _ => True
  | FD _ (Some v), FU _ u => u = v
  | _, _ => False
  end.
Definition is_negative (x : flag) : Prop := match x with FN _ _ => True | _ => False end.
Definition is_requirement (x : flag) : Prop := match x with FR _ _ => True | _ => False end.

(** Symbols reserved by the library, "@_..._@", other than epsilon, unknown and identity. *)
Definition reserved_symbol (s : bstr) : Prop :=
  (exists m, s = B "@_" ++ m ++ B "_@") /\
  s <> B "@_EPSILON_SYMBOL_@" /\ s <> B "@_UNKNOWN_SYMBOL_@" /\ s <> B "@_IDENTITY_SYMBOL_@".

(** The flags of the alphabet the elimination of which is right: no negative setting and no
    empty value among those meant, and some operation that bears on each requirement. *)
Definition simple_flags (which : option bstr) (al : list bstr) : Prop :=
  (forall s x, In s al -> denotes s x -> meant which x = true -> ~ is_negative x /\ nonempty_value x) /\
  (forall s x, In s al -> denotes s x -> meant which x = true -> is_requirement x ->
     exists s' y, In s' al /\ denotes s' y /\ bears_on y x).
(** Every flag of the alphabet is meant and has to do with another one. *)
Definition connected_flags (which : option bstr) (al : list bstr) : Prop :=
  forall s x, In s al -> denotes s x ->
    exists s' y, In s' al /\ denotes s' y /\
      (bears_on y x /\ meant which x = true \/ bears_on x y /\ meant which y = true).
