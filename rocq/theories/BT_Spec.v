(** Specification vocabulary for basic transducers: paths, weighted languages,
    well-formedness. *)
From Verif Require Import Base BT_Model.
From Coq Require Sorted.

(** A run from s to t: the symbol pairs read and the sum of the weights. *)
Inductive run (g : graph) : nat -> list (bstr * bstr) -> Z -> nat -> Prop :=
| run_nil s : run g s [] 0 s
| run_cons s a l w t : In a (nth s (sts g) []) -> run g (tgt a) l w t ->
    run g s ((isy a, osy a) :: l) (wt a + w) t.
(** [l] is accepted with weight [w] along some path. *)
Definition accepts (g : graph) (l : list (bstr * bstr)) (w : Z) : Prop :=
  exists t v f, run g 0 l v t /\ mget Nat.compare t (fin g) = Some f /\ w = (v + f)%Z.

(** Well-formedness *)
Definition structure_ok (g : graph) : Prop :=
  sts g <> [] /\
  (forall s a, In a (nth s (sts g) []) -> tgt a < length (sts g)) /\
  (forall s w, mget Nat.compare s (fin g) = Some w -> s < length (sts g)).
Definition symbols_ok (g : graph) : Prop :=
  forall s a, In a (nth s (sts g) []) -> In (isy a) (alpha g) /\ In (osy a) (alpha g).
Definition specials_ok (g : graph) : Prop :=
  In (B "@_EPSILON_SYMBOL_@") (alpha g) /\ In (B "@_UNKNOWN_SYMBOL_@") (alpha g) /\
  In (B "@_IDENTITY_SYMBOL_@") (alpha g).
Definition well_formed (g : graph) : Prop := structure_ok g /\ symbols_ok g /\ specials_ok g.

(** Transitions symbol-wise related. *)
Definition mapped (R : bstr * bstr -> bstr * bstr -> Prop) : list (bstr * bstr) -> list (bstr * bstr) -> Prop := Forall2 R.
(** Sequences of [ins] inserted anywhere. *)
Inductive inserted_path (ins : list (bstr * bstr) -> Z -> Prop)
  : list (bstr * bstr) -> list (bstr * bstr) -> Z -> Prop :=
| ins_nil : inserted_path ins [] [] 0
| ins_keep q l l' w : inserted_path ins l l' w -> inserted_path ins (q :: l) (q :: l') w
| ins_more m v l l' w : ins m v -> inserted_path ins l l' w -> inserted_path ins l (m ++ l') (v + w).
(** The paths of h enclosed in epsilon transitions. *)
Definition padded (h : graph) (m : list (bstr * bstr)) (v : Z) : Prop :=
  exists m0, accepts h m0 v /\
    m = (B "@_EPSILON_SYMBOL_@", B "@_EPSILON_SYMBOL_@") :: m0 ++ [(B "@_EPSILON_SYMBOL_@", B "@_EPSILON_SYMBOL_@")].
(** Each pair to which [subst] gives a transducer replaced, at each of its occurrences
    independently, by an epsilon-padded path of it, whose weight is added. *)
Inductive replaced_path (subst : bstr * bstr -> option graph)
  : list (bstr * bstr) -> list (bstr * bstr) -> Z -> Prop :=
| rpl_nil : replaced_path subst [] [] 0
| rpl_keep q l l' w : subst q = None -> replaced_path subst l l' w -> replaced_path subst (q :: l) (q :: l') w
| rpl_subst q h m v l l' w : subst q = Some h -> padded h m v -> replaced_path subst l l' w ->
    replaced_path subst (q :: l) (m ++ l') (v + w).
(** The final weight map is a std::map: its keys ascend. *)
Definition map_ok (g : graph) : Prop := Sorted.StronglySorted lt (map fst (fin g)).

(** A symbol on some transition. *)
Definition used (g : graph) (x : bstr) : Prop := exists s a, In a (nth s (sts g) []) /\ (x = isy a \/ x = osy a).
Definition special (x : bstr) : Prop :=
  x = B "@_EPSILON_SYMBOL_@" \/ x = B "@_UNKNOWN_SYMBOL_@" \/ x = B "@_IDENTITY_SYMBOL_@".
(** Calls that keep the alphabet right; the excluded ones are shown to break it. *)
Definition safe_op (g : graph) (o : op) : Prop :=
  match o with
  | ORemoveSymbol x => ~ special x /\ ~ used g x
  | ORemoveTransition _ a true => ~ special (isy a) /\ ~ special (osy a)
  | OSubstPairSet p [] =>
      ~ special (fst p) /\ ~ special (snd p) /\
      forall s l1 a b l2, nth s (sts g) [] = l1 ++ a :: b :: l2 -> label a = p ->
        isy b <> fst p /\ isy b <> snd p /\ osy b <> fst p /\ osy b <> snd p
  | OSubstPairSet p _ => ~ special (fst p) /\ ~ special (snd p)
  | OInsertFreelyGraph h => ~ used g MARKER /\ ~ used h MARKER
  | _ => True
  end.
Inductive safe_history : graph -> list op -> Prop :=
| sh_nil g : safe_history g []
| sh_cons g o os : safe_op g o -> (forall g', run_op g o = Ok g' -> safe_history g' os) -> safe_history g (o :: os).
(** Built by some sequence of calls. *)
Definition built (g : graph) : Prop := exists os, run_ops empty_graph os = Ok g.
(** Symbol replaced on the chosen sides. *)
Definition replace_on_sides (old new : bstr) (inp out : bool) (p : bstr * bstr) : bstr * bstr :=
  ((if inp then if bstr_eq_dec (fst p) old then new else fst p else fst p),
   (if out then if bstr_eq_dec (snd p) old then new else snd p else snd p)).
(** [h] spliced in between s1 and s2: a run may also leave s1, follow an epsilon-padded
    path of [h] and go on from s2. *)
Inductive spliced_run (g : graph) (s1 s2 : nat) (h : graph) : nat -> list (bstr * bstr) -> Z -> nat -> Prop :=
| spl_nil s : spliced_run g s1 s2 h s [] 0 s
| spl_arc s a l w t : In a (nth s (sts g) []) -> spliced_run g s1 s2 h (tgt a) l w t ->
    spliced_run g s1 s2 h s ((isy a, osy a) :: l) (wt a + w) t
| spl_jump m v l w t : padded h m v -> spliced_run g s1 s2 h s2 l w t ->
    spliced_run g s1 s2 h s1 (m ++ l) (v + w) t.
(** The smallest weight given to [l] in a list of entries. *)
Definition min_weight (es : list (list (bstr * bstr) * Z)) (l : list (bstr * bstr)) (w : Z) : Prop :=
  In (l, w) es /\ forall v, In (l, v) es -> (w <= v)%Z.
(** Paths as lists of transitions. *)
Inductive path (g : graph) : nat -> list arc -> nat -> Prop :=
| path_nil s : path g s [] s
| path_cons s a r t : In a (nth s (sts g) []) -> path g (tgt a) r t -> path g s (a :: r) t.
