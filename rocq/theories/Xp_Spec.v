(** Paths of a transducer as the users of extract_paths understand them. *)
From Verif Require Import Base Flags_Spec Xp_Model LK_Model.

(** A path from [s] to [u]: a list of consecutive transitions. *)
Inductive tpath (t : tfst) : nat -> list larc -> nat -> Prop :=
| tp_nil s : tpath t s [] s
| tp_cons s a q u : In a (snd (nth s (t_states t) (None, []))) -> tpath t (l_to a) q u -> tpath t s (a :: q) u.
(** The states entered on a path from [s], in order. *)
Definition trail (s : nat) (q : list larc) : list nat := s :: map l_to q.
(** No state is entered more than n+1 times: it is returned to at most n times. *)
Definition returns_at_most (n : nat) (l : list nat) : Prop := forall x, count_occ Nat.eq_dec l x <= n + 1.
(** A limit on cycles; a negative number is none. *)
Definition cycles_ok (c : Z) (s : nat) (q : list larc) : Prop := (0 <= c)%Z -> returns_at_most (Z.to_nat c) (trail s q).
(** The symbol of a label. *)
Inductive sym (t : tfst) (k : nat) : bstr -> Prop :=
| sym_in x : In (k, x) (t_syms t) -> sym t k x
| sym_out : (forall x, ~ In (k, x) (t_syms t)) -> sym t k [].
(** What is reported for a label: the symbol, or nothing for a flag diacritic when those
    are filtered out. *)
Definition shown (t : tfst) (hide : bool) (k : nat) (x : bstr) : Prop :=
  exists y, sym t k y /\
    ((exists f, denotes y f) /\ hide = true /\ x = [] \/ ((forall f, ~ denotes y f) \/ hide = false) /\ x = y).
Definition shown_path (t : tfst) (hide : bool) (q : list larc) (l : list (bstr * bstr)) : Prop :=
  Forall2 (fun a p => shown t hide (l_in a) (fst p) /\ shown t hide (l_out a) (snd p)) q l.
Definition path_weight (q : list larc) (w : Z) : Prop := w = fold_right (fun a z => (l_w a + z)%Z) 0%Z q.
(** The flag diacritics on the input side of a path allow it. *)
Definition flags_allow (t : tfst) (q : list larc) : Prop :=
  exists ys xs, Forall2 (fun a y => sym t (l_in a) y) q ys /\ Forall2 reads ys xs /\ accepted xs = true.
(** An accepted path within the limit on cycles, as reported. *)
Definition reported (t : tfst) (c : Z) (flags hide : bool) (r : tlp) : Prop :=
  exists s q u w z l, t_start t = Some s /\ tpath t s q u /\ fst (nth u (t_states t) (None, [])) = Some z /\
    path_weight q w /\ shown_path t hide q l /\ cycles_ok c s q /\ (flags = true -> flags_allow t q) /\
    r = ((w + z)%Z, l).
(** No state reachable from the start state lies on a cycle. *)
Definition acyclic (t : tfst) : Prop :=
  forall s u q r, t_start t = Some s -> tpath t s q u -> tpath t u r u -> r = [].
(** Labels and symbols correspond one to one (an OpenFst symbol table is such). *)
Definition symbol_table_ok (t : tfst) : Prop :=
  NoDup (map fst (t_syms t)) /\ NoDup (map snd (t_syms t)).
(** No flag diacritic has an empty value. *)
Definition no_empty_values (t : tfst) : Prop :=
  forall k x f, In (k, x) (t_syms t) -> denotes x f -> nonempty_value f.
