(** Specification vocabulary for lookup. *)
From Verif Require Import Base Flags_Model BT_Model BT_Spec An_Spec.

(** A run takes transitions that either consume an input symbol (Some x) or are free
    (None). *)
Definition step : Type := arc * option bstr.
Definition can_read (g : graph) (a : arc) (x : bstr) : Prop :=
  isy a = x \/ (isy a = B "@_UNKNOWN_SYMBOL_@" \/ isy a = B "@_IDENTITY_SYMBOL_@") /\ ~ In x (alpha g).
(** Epsilons and flag diacritics are free, except that one which literally is the next
    input symbol consumes it. *)
Inductive matches (g : graph) : nat -> list step -> list bstr -> nat -> Prop :=
| ma_nil s : matches g s [] [] s
| ma_free s a r input t : In a (nth s (sts g) []) -> free_arc a -> (forall x i, input = x :: i -> x <> isy a) ->
    matches g (tgt a) r input t -> matches g s ((a, None) :: r) input t
| ma_read s a x r input t : In a (nth s (sts g) []) -> can_read g a x ->
    matches g (tgt a) r input t -> matches g s ((a, Some x) :: r) (x :: input) t.
(** The pair shown for a step: unknown reads, identity copies the symbol. *)
Definition shown (p : step) : bstr * bstr :=
  match p with
  | (a, None) => (isy a, osy a)
  | (a, Some x) => if bstr_eqb (isy a) (B "@_IDENTITY_SYMBOL_@") then (x, x)
                   else if bstr_eqb (isy a) (B "@_UNKNOWN_SYMBOL_@") then (x, osy a) else (isy a, osy a)
  end.
Definition run_weight (r : list step) : Z := path_weight (map fst r).

(** The state sequences between consumed symbols. *)
Fixpoint segments (s : nat) (r : list step) : list (list nat) :=
  match r with
  | [] => [[s]]
  | (a, Some _) :: r => [s] :: segments (tgt a) r
  | (a, None) :: r => match segments (tgt a) r with v :: vs => (s :: v) :: vs | [] => [[s]] end
  end.
(** Counting the cycles of a state sequence: the loop-free trail walked so far grows with
    every new state, and coming back to a state of the trail closes one cycle, which is
    erased from the trail. *)
Inductive trail : list nat -> list nat -> nat -> Prop :=
| tr_start s : trail [s] [s] 0
| tr_new v p k t : trail v p k -> ~ In t p -> trail (v ++ [t]) (p ++ [t]) k
| tr_back v p1 t p2 k : trail v (p1 ++ t :: p2) k -> trail (v ++ [t]) (p1 ++ [t]) (k + 1).
Definition cycles_at_most (n : nat) (v : list nat) : Prop := exists p k, trail v p k /\ k <= n.
(** Every prefix of the run has weight at most the limit. *)
Definition light (lim : option Z) (r : list step) : Prop :=
  match lim with None => True | Some m => forall r1 r2, r = r1 ++ r2 -> (run_weight r1 <= m)%Z end.
Definition within (lim : option Z) (w : Z) : Prop := match lim with None => True | Some m => (w <= m)%Z end.
(** What a lookup is to return: weight and pairs of an accepting run over the input. *)
Definition answer (g : graph) (input : list bstr) (r : list step) (w : Z) (ps : list (bstr * bstr)) : Prop :=
  exists t fw, matches g 0 r input t /\ mget Nat.compare t (fin g) = Some fw /\ ps = map shown r /\ w = (run_weight r + fw)%Z.
