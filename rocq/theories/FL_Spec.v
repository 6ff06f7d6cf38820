(** Specification vocabulary for loops that read nothing. *)
From Verif Require Import Base Flags_Model Flags_Spec BT_Model BT_Spec OLC_Spec OLL_Spec.

(** [walk g n c ts c']: [n] transitions lead from the state and flag values [c] to [c'], reading
    the tokens [ts].  Every flag on the way is allowed.  Unknown and identity read the tokens that
    are not input symbols. *)
Inductive walk (g : graph) : nat -> nat * fenv -> list bstr -> nat * fenv -> Prop :=
| wk_stay c : walk g 0 c [] c
| wk_epsilon s e a n ts c : In a (nth s (sts g) []) -> isy a = EPSILON -> walk g n (tgt a, e) ts c -> walk g (S n) (s, e) ts c
| wk_flag s e a x n ts c : In a (nth s (sts g) []) -> denotes (isy a) x -> snd (Flags_Spec.step x e) = true ->
    walk g n (tgt a, fst (Flags_Spec.step x e)) ts c -> walk g (S n) (s, e) ts c
| wk_known s e a x n ts c : In a (nth s (sts g) []) -> isy a = x -> input_symbol g x ->
    walk g n (tgt a, e) ts c -> walk g (S n) (s, e) (x :: ts) c
| wk_unknown s e a x n ts c : In a (nth s (sts g) []) -> isy a = UNKNOWN \/ isy a = IDENTITY -> ~ input_symbol g x ->
    walk g n (tgt a, e) ts c -> walk g (S n) (s, e) (x :: ts) c.

(** After some of the tokens there is a walk of one transition or more, reading nothing, back to
    the same state and the same flag values. *)
Definition loops (g : graph) (ts : list bstr) : Prop :=
  exists ts1 ts2 n m s e e', ts = ts1 ++ ts2 /\ walk g n (0, env0) ts1 (s, e) /\ walk g (S m) (s, e) [] (s, e') /\ same_values e e'.
Definition no_flags (g : graph) : Prop := forall s a x, In a (nth s (sts g) []) -> ~ denotes (isy a) x.
