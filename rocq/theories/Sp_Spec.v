(** Specification vocabulary for the spell checker. *)
From Verif Require Import Base OrdMap Flags_Spec BT_Model BT_Spec OLC_Model OLC_Spec OLL_Spec.

(** The text [s] is a word of the lexicon [g]: split into tokens, all of them symbols the lexicon
    reads, it labels an accepting run that the flags allow. *)
Definition word_of (g : graph) (s : bstr) : Prop :=
  exists ts r t fw, tokens g s ts /\ (forall x, In x ts -> input_symbol g x)
    /\ lookup_run g 0 env0 r ts t /\ mget Nat.compare t (fin g) = Some fw.

(** * Corrections *)

(** Transition [a] of the error model [m] reads nothing, or the first of the tokens [ts]; the
    unknown symbol reads tokens that are no symbols of the error model. *)
Inductive reads (m : graph) (a : arc) : list bstr -> list bstr -> Prop :=
| re_nothing ts : isy a = EPSILON -> reads m a ts ts
| re_known x ts : isy a = x -> input_symbol m x -> reads m a (x :: ts) ts
| re_unknown x ts : isy a = UNKNOWN -> ~ input_symbol m x -> reads m a (x :: ts) ts.

(** [correction m g p q e ts w out]: from state [p] of the error model and state [q] of the
    lexicon, with flag values [e], a joint run reads [ts] and ends in final states.  [w] is its
    weight with the final weights.  [out] is what it writes: the lexicon's output symbols, and
    an epsilon for every transition of the error model that writes nothing. *)
Inductive correction (m g : graph) : nat -> nat -> fenv -> list bstr -> Z -> list bstr -> Prop :=
| co_end p q e f1 f2 : mget Nat.compare p (fin m) = Some f1 -> mget Nat.compare q (fin g) = Some f2 ->
    correction m g p q e [] (f2 + f1) []
| co_epsilon p q e ts w out b : In b (nth q (sts g) []) -> isy b = EPSILON ->
    correction m g p (tgt b) e ts w out -> correction m g p q e ts (wt b + w) (osy b :: out)
| co_flag p q e ts w out b x : In b (nth q (sts g) []) -> denotes (isy b) x -> snd (Flags_Spec.step x e) = true ->
    correction m g p (tgt b) (fst (Flags_Spec.step x e)) ts w out -> correction m g p q e ts (wt b + w) (osy b :: out)
| co_erased p q e ts ts' w out a : In a (nth p (sts m) []) -> reads m a ts ts' -> osy a = EPSILON ->
    correction m g (tgt a) q e ts' w out -> correction m g p q e ts (wt a + w) (EPSILON :: out)
| co_written p q e ts ts' w out a b : In a (nth p (sts m) []) -> reads m a ts ts' ->
    In b (nth q (sts g) []) -> isy b = osy a -> free_input (isy b) = false ->
    correction m g (tgt a) (tgt b) e ts' w out -> correction m g p q e ts (wt b + wt a + w) (osy b :: out).

(** [w] is the least weight of a correction of [s] that is shown as [str]. *)
Definition corrects (m g : graph) (s str : bstr) (w : Z) : Prop :=
  exists ts out, tokens m s ts /\ correction m g 0 0 env0 ts w out /\ str = concat out.
Definition best_correction (m g : graph) (s str : bstr) (w : Z) : Prop :=
  corrects m g s str w /\ forall w', corrects m g s str w' -> (w <= w')%Z.
