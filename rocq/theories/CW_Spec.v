(** Specification vocabulary for compose_intersect. *)
From Verif Require Import Base Flags_Model BT_Model BT_Spec CI_Model CI_Spec.

Definition epsilon := B "@_EPSILON_SYMBOL_@".
Definition edge := B "@#@".
(** A path without its epsilon:epsilon steps. *)
Definition silent (p : bstr * bstr) : bool := bstr_eqb (fst p) epsilon && bstr_eqb (snd p) epsilon.
Definition bare (l : list (bstr * bstr)) : list (bstr * bstr) := filter (fun p => negb (silent p)) l.
(** The weighted paths of a transducer, epsilon:epsilon steps left out. *)
Definition has (g : graph) (l : list (bstr * bstr)) (w : Z) : Prop := exists m, accepts g m w /\ bare m = l.

(** No transition stands for symbols outside the alphabet. *)
Definition closed (g : graph) : Prop :=
  forall x, used g x -> x <> B "@_UNKNOWN_SYMBOL_@" /\ x <> B "@_IDENTITY_SYMBOL_@".
(** The lexicon gets a boundary inserted at both ends of its words if [r] knows the boundary symbol. *)
Definition edged (r : graph) (l l' : list (bstr * bstr)) : Prop :=
  In edge (alpha r) /\ l' = (epsilon, edge) :: l ++ [(epsilon, edge)] \/ ~ In edge (alpha r) /\ l' = l.
(** Words of a lexicon joined with the intersection of the rules [r :: rs]. *)
Definition filtered (lexicon r : graph) (rs : list graph) (l : list (bstr * bstr)) (w : Z) : Prop :=
  exists pl pl' pr k w1 w2, accepts lexicon pl w1 /\ edged r pl pl' /\ rules_accept (rule_tree r rs) pr w2
    /\ joined (rule_tree r rs) pl' pr k /\ bare k = l /\ w = (w1 + w2)%Z.

(** The same from the other end: inputs of the lexicon matched with outputs of the rules.  An
    inserted boundary of the lexicon still meets a boundary that the rules delete. *)
Definition swap (p : bstr * bstr) : bstr * bstr := (snd p, fst p).
Definition turned_word (p : bstr * bstr) : bstr * bstr :=
  if bstr_eqb (fst p) epsilon && bstr_eqb (snd p) edge then p else swap p.
Definition turned_rule (p : bstr * bstr) : bstr * bstr :=
  if bstr_eqb (fst p) edge && bstr_eqb (snd p) epsilon then p else swap p.
Definition filtered_inverse (lexicon r : graph) (rs : list graph) (l : list (bstr * bstr)) (w : Z) : Prop :=
  exists pl pl' pr k w1 w2, accepts lexicon pl w1 /\ edged r pl pl' /\ rules_accept (rule_tree r rs) pr w2
    /\ joined (rule_tree r rs) (map turned_word pl') (map turned_rule pr) k /\ bare (map swap k) = l /\ w = (w1 + w2)%Z.
(** What is asked of rules that are turned: identity on both sides of a transition only, no
    inserted boundaries, and the boundary in the alphabet only if some transition has it. *)
Definition turnable (r : graph) : Prop :=
  (forall s a, In a (nth s (sts r) []) ->
     (isy a = B "@_IDENTITY_SYMBOL_@" <-> osy a = B "@_IDENTITY_SYMBOL_@") /\ (isy a, osy a) <> (epsilon, edge))
  /\ (In edge (alpha r) -> used r edge).

(** Two names the program reserves for itself. *)
Definition reserved_name (x : bstr) : Prop := x = B "||_IDENTITY_SYMBOL_||" \/ x = B "||_UNKNOWN_SYMBOL_||".
