(** Edges of a graph drawn from a transducer, independently of the printer. *)
From Verif Require Import Base BT_Model.
From Coq Require Import ZArith.

(** How a symbol is written; [unknown] is how the unknown symbol is written on this side. *)
Definition drawn (unknown x w : bstr) : Prop :=
  x = EPS /\ w = B "00" \/ x = IDN /\ w = B "??" \/ x = UNK /\ w = unknown \/ x <> EPS /\ x <> IDN /\ x <> UNK /\ w = x.
(** The text of one transition: INPUT:OUTPUT, or the symbol once if both are written alike, and the weight
    if it is positive; [price] is how weights are written. *)
Definition transition_text (price : Z -> bstr) (a : arc) (text : bstr) : Prop :=
  exists i o, drawn (B "?1") (isy a) i /\ drawn (B "?2") (osy a) o /\
    exists p w, (i = o /\ p = i \/ i <> o /\ p = i ++ B ":" ++ o) /\
      ((0 < wt a)%Z /\ w = B "/" ++ price (wt a) \/ (wt a <= 0)%Z /\ w = []) /\ text = p ++ w.
(** Texts separated by commas. *)
Fixpoint listed (ts : list bstr) : bstr :=
  match ts with [] => [] | [t] => t | t :: r => t ++ B ", " ++ listed r end.
(** [text] lists the transitions from [l] to state [t], in order. *)
Definition lists_transitions (price : Z -> bstr) (l : list arc) (t : nat) (text : bstr) : Prop :=
  exists ts, Forall2 (transition_text price) (filter (fun a => tgt a =? t) l) ts /\ text = listed ts.
(** [cs] are the first of the characters [all], as many as fit in [n] bytes. *)
Definition fitting (n : nat) (all cs : list bstr) : Prop :=
  exists rest, all = cs ++ rest /\ length (concat cs) <= n /\
    match rest with [] => True | c :: _ => n < length (concat cs) + length c end.
