(** Specification vocabulary for the tools that copy a transducer state by state. *)
From Verif Require Import Base BT_Model BT_Spec.

(** A path of [g] from one state to another where [f] gives each transition its new weight, or
    none if the transition may not be used: the pairs read and the sum of the new weights. *)
Inductive changed_path (g : graph) (f : arc -> option Z) : nat -> list (bstr * bstr) -> Z -> nat -> Prop :=
| cp_nil s : changed_path g f s [] 0 s
| cp_cons s a v l w t : In a (nth s (sts g) []) -> f a = Some v -> changed_path g f (tgt a) l w t ->
    changed_path g f s ((isy a, osy a) :: l) (v + w) t.

(** What hfst-reweight is asked to do: -a, -b, -F, -l, -u, -S, -I, -O, -e, -A. *)
Record request := Request {
  q_add : Z; q_mult : Z; q_func : Z -> Z; q_lower : Z; q_upper : option Z;
  q_symbol : option bstr; q_input : option bstr; q_output : option bstr; q_ends_only : bool; q_arcs_only : bool }.
Definition within (q : request) (w : Z) : Prop := (q_lower q <= w)%Z /\ forall u, q_upper q = Some u -> (w <= u)%Z.
(** The conditions of the help text. *)
Definition arc_asked (q : request) (a : arc) : Prop :=
  within q (wt a) /\ q_ends_only q = false /\
  (forall s, q_symbol q = Some s -> isy a = s \/ osy a = s) /\
  (forall s, q_input q = Some s -> isy a = s) /\ (forall s, q_output q = Some s -> osy a = s).
Definition end_asked (q : request) (w : Z) : Prop := within q w /\ q_arcs_only q = false.
(** BVAL * FNAME(w) + AVAL if asked for, the old weight otherwise. *)
Definition new_weight (q : request) (asked : Prop) (w w' : Z) : Prop :=
  (asked -> w' = (q_mult q * q_func q w + q_add q)%Z) /\ (~ asked -> w' = w).
(** A path with its new weights. *)
Inductive reweighted_path (q : request) (g : graph) : nat -> list (bstr * bstr) -> Z -> nat -> Prop :=
| rp_nil s : reweighted_path q g s [] 0 s
| rp_cons s a v l w t : In a (nth s (sts g) []) -> new_weight q (arc_asked q a) (wt a) v -> reweighted_path q g (tgt a) l w t ->
    reweighted_path q g s ((isy a, osy a) :: l) (v + w) t.

(** A line of the file given with -T: SYM and +AVAL, or SYM and BVAL. *)
Inductive rule := AddTo (s : bstr) (v : Z) | MultiplyBy (s : bstr) (v : Z).
(** The request a single line stands for, other options being given in [q]. *)
Definition request_of (q : request) (r : rule) : request :=
  match r with
  | AddTo s v => Request v 1 (q_func q) (q_lower q) (q_upper q) (Some s) (q_input q) (q_output q) (q_ends_only q) (q_arcs_only q)
  | MultiplyBy s v => Request 0 v (q_func q) (q_lower q) (q_upper q) (Some s) (q_input q) (q_output q) (q_ends_only q) (q_arcs_only q)
  end.
(** A symbol that can be given in such a file. *)
Definition nameable (s : bstr) : Prop := s <> [] /\ ~ In "009"%char s /\ ~ In "010"%char s /\ forall r, s <> "#"%char :: r.
(** [r] is written [l], where [num] reads numbers. *)
Inductive written (num : bstr -> option Z) : rule -> bstr -> Prop :=
| wr_add s n v e : nameable s -> ~ In "010"%char n -> num n = Some v -> e = [] \/ e = ["010"%char] ->
    written num (AddTo s v) (s ++ ["009"%char] ++ B "+" ++ n ++ e)
| wr_mul s n v e : nameable s -> ~ In "010"%char n -> (forall r, n <> "+"%char :: r) -> num n = Some v -> e = [] \/ e = ["010"%char] ->
    written num (MultiplyBy s v) (s ++ ["009"%char] ++ n ++ e).
