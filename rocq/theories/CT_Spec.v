(** What the conversions between basic and tropical transducers have to preserve. *)
From Verif Require Import Base BT_Model BT_Spec Xp_Model Xp_Spec CT_Model.

(** A symbol table: labels and non-empty symbols, one to one. *)
Definition table_ok (tab : list (nat * bstr)) : Prop :=
  NoDup (map fst tab) /\ NoDup (map snd tab) /\ ~ In [] (map snd tab).
(** A complete OpenFst transducer: every label on a transition is in the input symbol table
    and every transition leads to a state. *)
Definition labelled (t : tfst) : Prop :=
  forall s a, In a (snd (nth s (t_states t) (None, []))) ->
    In (l_in a) (map fst (t_syms t)) /\ In (l_out a) (map fst (t_syms t)) /\ l_to a < length (t_states t).
(** The symbol pairs on a path, as the symbol table names them. *)
Definition named (t : tfst) : list larc -> list (bstr * bstr) -> Prop :=
  Forall2 (fun a p => In (l_in a, fst p) (t_syms t) /\ In (l_out a, snd p) (t_syms t)).
(** [l] is accepted with weight [w] along some path of an OpenFst transducer. *)
Definition tropical_accepts (t : tfst) (l : list (bstr * bstr)) (w : Z) : Prop :=
  exists s q u v z, t_start t = Some s /\ tpath t s q u /\ named t q l /\ path_weight q v /\
    fst (nth u (t_states t) (None, [])) = Some z /\ w = (v + z)%Z.
(** Symbols of tables, except those of label 0. *)
Definition tabled (tab : list (nat * bstr)) (x : bstr) : Prop := exists k, In (k, x) tab /\ k <> 0.
(** No symbol of the alphabet is empty. *)
Definition symbols_nonempty (g : graph) : Prop := ~ In [] (alpha g).
