(** What the lookup state of hfst-proc should be, stated on the transducer that was converted. *)
From Verif Require Import Base Flags_Model Flags_Spec BT_Model BT_Spec An_Spec OLF_Model OLC_Model OLC_Spec OLL_Model OLL_Spec LS_Model.

(** [reached g input r s e]: reading the input, along the arcs [r], the transducer can be in
    state [s] with flag values [e].  Each element of the input is the list of the symbols that
    may be read for it. *)
Inductive reached (g : graph) : list (list bstr) -> list arc -> nat -> fenv -> Prop :=
| at_start : reached g [] [] 0 env0
| by_epsilon input r s e a : reached g input r s e -> In a (nth s (sts g) []) -> isy a = EPSILON ->
    reached g input (r ++ [a]) (tgt a) e
| by_flag input r s e a x : reached g input r s e -> In a (nth s (sts g) []) -> denotes (isy a) x -> snd (Flags_Spec.step x e) = true ->
    reached g input (r ++ [a]) (tgt a) (fst (Flags_Spec.step x e))
| by_symbol input r s e a xs : reached g input r s e -> In a (nth s (sts g) []) -> In (isy a) xs -> free_input (isy a) = false ->
    reached g (input ++ [xs]) (r ++ [a]) (tgt a) e.

(** The symbols written, without epsilons and flags. *)
Definition written (r : list arc) : list bstr := filter (fun x => negb (free_input x)) (map osy r).

(** When letter case is ignored, the number of the lower case of an upper case letter. *)
Definition lower_case (c : casing) (k : N) : N :=
  if case_sensitive c then OLF_Model.NO_SYMBOL
  else if (k =? OLF_Model.NO_SYMBOL)%N then OLF_Model.NO_SYMBOL
  else if has_case c k && negb (is_lower c k) then to_lower c k else OLF_Model.NO_SYMBOL.
(** The symbols for number [k] and, when letter case is ignored, its lower case. *)
Definition symbols_for (tr : transducer) (c : casing) (k : N) : list bstr :=
  if (k =? 0)%N then [] else
  flat_map (fun j => match nth_error (a_table (tr_alphabet tr)) (N.to_nat j) with Some x => [x] | None => [] end) [k; lower_case c k].
(** A number a text can be read as: not that of a flag. *)
Definition no_flag (tr : transducer) (k : N) : Prop := is_flag_symbol (tr_alphabet tr) k = false.
Definition ordinary (tr : transducer) (c : casing) (k : N) : Prop :=
  (k <= 65535)%N /\ no_flag tr k /\ (lower_case c k <= 65535)%N /\ lower_case c k <> 0%N /\ no_flag tr (lower_case c k).
(** A number the transducer knows as input, as does its lower case; or that of no symbol. *)
Definition input_number (tr : transducer) (k : N) : Prop := (0 < k < h_input_symbols (tr_header tr))%N.
Definition readable (tr : transducer) (c : casing) (k : N) : Prop :=
  k = OLF_Model.NO_SYMBOL \/ input_number tr k /\ (lower_case c k = OLF_Model.NO_SYMBOL \/ input_number tr (lower_case c k)).
(** The symbols with these numbers. *)
Definition named (tr : transducer) (ks : list N) (xs : list bstr) : Prop :=
  Forall2 (fun k x => nth_error (a_table (tr_alphabet tr)) (N.to_nat k) = Some x) ks xs.

(** Arcs that need no input lead nowhere in a circle. *)
Inductive free_path (g : graph) : nat -> nat -> Prop :=
| fp_one s a : In a (nth s (sts g) []) -> free_input (isy a) = true -> free_path g s (tgt a)
| fp_more s a t : In a (nth s (sts g) []) -> free_input (isy a) = true -> free_path g (tgt a) t -> free_path g s t.
Definition no_free_cycle (g : graph) : Prop := forall s, ~ free_path g s s.

(** * The choice among analyses *)
(** The weights below that of [p], each counted once, are fewer than [n]. *)
Definition among_best (n : Z) (l : list path) (p : path) : Prop :=
  exists ws, NoDup ws /\ (forall w, In w ws <-> (w < get_weight p)%Z /\ exists q, In q l /\ get_weight q = w) /\ (Z.of_nat (length ws) < n)%Z.
