(** Properties C14-C23, C48, C49, C59, C60: basic transducers. *)
From Verif Require Import Base Flags_Model BT_Model BT_Spec BT_Proofs BT_Proofs2 BT_Proofs3 BT_Proofs4 BT_Proofs5.
From Coq Require Import Permutation Sorted.

(** * C14 *)
(** Whatever calls are made, with whatever arguments, transitions lead to existing
    states and final states exist. *)
Theorem C14_structure : forall os g, run_ops empty_graph os = Ok g -> structure_ok g.
Proof. intros os g. apply structure_run_ops. exact structure_empty. Qed.
Print Assumptions C14_structure.
(** The map of final weights stays a map. *)
Theorem C14_final_weight_map : forall os g, run_ops empty_graph os = Ok g -> map_ok g.
Proof. intros os g. apply map_ok_run_ops. constructor. Qed.
Print Assumptions C14_final_weight_map.
(** The alphabet is right as well, as long as only safe calls are made; what is missing
    is refuted below, case by case. *)
Theorem C14_well_formed_partial : forall os g, safe_history empty_graph os -> run_ops empty_graph os = Ok g -> well_formed g.
Proof.
  intros os g S E. split; [eapply C14_structure; exact E|]. exact (al_run_ops os _ _ al_empty S E).
Qed.
Print Assumptions C14_well_formed_partial.
(** Every call keeps well-formedness, not only from the empty transducer. *)
Theorem C14_step_partial : forall g o g', well_formed g -> safe_op g o -> run_op g o = Ok g' -> well_formed g'.
Proof.
  intros g o g' (H1 & H2) S E. split; [eapply structure_run_op; eassumption|]. eapply al_run_op; [exact H2|exact S|exact E].
Qed.
Print Assumptions C14_step_partial.

Definition xa : bstr := B "a". Definition xb : bstr := B "b". Definition xc : bstr := B "c".
(** a:b followed by a:c, then a:b is removed: a is still used but no longer in the
    alphabet. *)
Theorem C14_substitute_by_empty_set_refuted : exists os g,
  run_ops empty_graph os = Ok g /\ os = [OAddTransition 0 (Arc 1 xa xb 0); OAddTransition 0 (Arc 1 xa xc 0); OSubstPairSet (xa, xb) []] /\
  ~ symbols_ok g.
Proof.
  eexists _, _. split; [|split; [reflexivity|]]; [vm_compute; reflexivity|].
  intros H. specialize (H 0 _ (or_introl eq_refl)). destruct H as [H _]. vm_compute in H. repeat destruct H as [H|H]; try discriminate H. exact H.
Qed.
Print Assumptions C14_substitute_by_empty_set_refuted.
(** Removing the last epsilon transition with remove_symbols_from_alphabet removes
    epsilon from the alphabet. *)
Theorem C14_remove_transition_refuted : exists os g, run_ops empty_graph os = Ok g /\
  os = [OAddTransition 0 (Arc 1 EPS EPS 0); ORemoveTransition 0 (Arc 1 EPS EPS 0) true] /\ ~ specials_ok g.
Proof.
  eexists _, _. split; [|split; [reflexivity|]]; [vm_compute; reflexivity|].
  intros (H & _). vm_compute in H. repeat destruct H as [H|H]; try discriminate H. exact H.
Qed.
Print Assumptions C14_remove_transition_refuted.
(** Substituting the last unknown:unknown pair removes unknown from the alphabet. *)
Theorem C14_substitute_special_refuted : exists os g, run_ops empty_graph os = Ok g /\
  os = [OAddTransition 0 (Arc 1 UNK UNK 0); OSubstPairSet (UNK, UNK) [(xa, xb)]] /\ ~ specials_ok g.
Proof.
  eexists _, _. split; [|split; [reflexivity|]]; [vm_compute; reflexivity|].
  intros (_ & H & _). vm_compute in H. repeat destruct H as [H|H]; try discriminate H. exact H.
Qed.
Print Assumptions C14_substitute_special_refuted.
Theorem C14_remove_symbol_refuted : exists os g, run_ops empty_graph os = Ok g /\
  os = [OAddTransition 0 (Arc 1 xa xb 0); ORemoveSymbol xa] /\ ~ symbols_ok g.
Proof.
  eexists _, _. split; [|split; [reflexivity|]]; [vm_compute; reflexivity|].
  intros H. specialize (H 0 _ (or_introl eq_refl)). destruct H as [H _]. vm_compute in H. repeat destruct H as [H|H]; try discriminate H. exact H.
Qed.
Print Assumptions C14_remove_symbol_refuted.
(** A transducer that uses the marker symbol on one side. *)
Theorem C14_insert_freely_marker_refuted : exists os g h, run_ops empty_graph os = Ok g /\
  run_ops empty_graph [OAddTransition 0 (Arc 1 MARKER xa 0); OSetFinal 1 0] = Ok h /\
  os = [OAddTransition 0 (Arc 1 xa xb 0); OInsertFreelyGraph h] /\ ~ symbols_ok g.
Proof.
  remember (run_ops empty_graph [OAddTransition 0 (Arc 1 MARKER xa 0); OSetFinal 1 0]) as r eqn:Er. vm_compute in Er. subst r.
  eexists _, _, _. split; [|split; [reflexivity|split; [reflexivity|]]]; [vm_compute; reflexivity|].
  intros H. specialize (H 2 (Arc 3 MARKER xa 0)). vm_compute in H. destruct (H (or_introl eq_refl)) as [K _].
  repeat destruct K as [K|K]; try discriminate K. exact K.
Qed.
Print Assumptions C14_insert_freely_marker_refuted.
(** A non-trivial safe history that runs. *)
Definition hist1 : list op :=
  [OAddTransition 0 (Arc 3 xa xb 2); OSetFinal 3 1; ODisjunct [(xa, xc); (xb, xb)] 5; OSubstSymbol xa xc true true;
   OInsertFreely [(xb, EPS)] 1; OSubstPairSet (xc, xb) [(xa, xa); (xb, xb)]; OPrune true; OSwap 1 3].
Example C14_witness : safe_history empty_graph hist1 /\ exists g, run_ops empty_graph hist1 = Ok g /\ 5 < length (concat (sts g)).
Proof.
  split.
  - unfold hist1. repeat (apply sh_cons; [try exact I|intros ? _]); [|apply sh_nil].
    cbn [safe_op fst snd]. unfold special. split; intros [K|[K|K]]; discriminate K.
  - eexists. split; [vm_compute; reflexivity|]. vm_compute. lia.
Qed.

(** * C15 *)
Theorem C15_add_transition : forall g s a g', run_op g (OAddTransition s a) = Ok g' ->
  nth s (sts g') [] = nth s (sts g) [] ++ [a] /\
  (forall t, t <> s -> nth t (sts g') [] = nth t (sts g) []) /\
  length (sts g') = Nat.max (length (sts g)) (S (Nat.max s (tgt a))) /\
  fin g' = fin g /\ (forall x, In x (alpha g') <-> x = isy a \/ x = osy a \/ In x (alpha g)).
Proof.
  intros g s a g' E. cbn [run_op] in E. destruct (valid_pair _); [|discriminate]. injection E as <-.
  pose proof (arcs_add_transition g s a true) as A. unfold arcs in A. split; [rewrite A, Nat.eqb_refl; reflexivity|]. split.
  - intros t N. rewrite A. destruct (Nat.eqb_spec t s); [contradiction|reflexivity].
  - split; [rewrite length_add_transition; lia|]. split; [reflexivity|]. intros x. apply In_alpha_add_transition.
Qed.
Print Assumptions C15_add_transition.
Theorem C15_remove_transition : forall g s a b,
  let g' := remove_transition g s a b in
  (exists keep, nth s (sts g') [] = filter keep (nth s (sts g) []) /\
     forall c, keep c = true <-> ~ (isy c = isy a /\ osy c = osy a /\ tgt c = tgt a)) /\
  (forall t, t <> s -> nth t (sts g') [] = nth t (sts g) []) /\
  length (sts g') = length (sts g) /\ fin g' = fin g.
Proof.
  intros g s a b g'.
  assert (K : forall c, negb (same_arc c a) = true <-> ~ (isy c = isy a /\ osy c = osy a /\ tgt c = tgt a)).
  { intros c. unfold same_arc. rewrite negb_true_iff. split.
    - intros E (E1 & E2 & E3). rewrite E1, E2, E3, !bstr_eqb_refl, Nat.eqb_refl in E. discriminate.
    - intros N. apply not_true_iff_false. intros Q. apply N. apply andb_true_iff in Q. destruct Q as [Q Q3]. apply andb_true_iff in Q.
      destruct Q as [Q1 Q2]. apply bstr_eqb_eq in Q1, Q2. apply Nat.eqb_eq in Q3. auto. }
  assert (R : sts g' = upd s (filter (fun b => negb (same_arc b a)) (arcs g s)) (sts g) /\ fin g' = fin g).
  { unfold g', remove_transition. destruct (Nat.leb_spec (length (sts g)) s) as [L|L]; [rewrite upd_out by exact L; auto|].
    destruct b; [|auto]. repeat destruct (smem _ _ _); auto. }
  destruct R as [R F]. rewrite R. split; [|split; [|split; [apply upd_length|exact F]]].
  - exists (fun c => negb (same_arc c a)). split; [|exact K]. destruct (Nat.lt_ge_cases s (length (sts g))) as [L|L].
    + apply nth_upd_same. exact L.
    + rewrite upd_out by exact L. rewrite !nth_overflow by exact L. reflexivity.
  - intros t N. apply nth_upd_other. exact N.
Qed.
Print Assumptions C15_remove_transition.
(** With remove_symbols, exactly the two symbols go, if no other transition has them. *)
Theorem C15_remove_transition_alphabet : forall g s a x, s < length (sts g) ->
  (In x (alpha (remove_transition g s a true)) <->
     In x (alpha g) /\ ((x <> isy a /\ x <> osy a) \/ used (remove_transition g s a false) x)) /\
  alpha (remove_transition g s a false) = alpha g.
Proof.
  intros g s a x L. unfold remove_transition. destruct (Nat.leb_spec (length (sts g)) s); [lia|]. split; [|reflexivity].
  set (g1 := with_sts g _). change (In x (alpha (prune_after g1 [isy a; osy a])) <-> In x (alpha g1) /\ ((x <> isy a /\ x <> osy a) \/ used g1 x)).
  rewrite prune_after_alpha. simpl In.
  assert (D : used g1 x \/ ~ used g1 x).
  { destruct (smem bcmp x (symbols_used g1)) eqn:E.
    - left. apply (smem_In bcmp bcmp_eq), symbols_used_In in E. exact E.
    - right. intros U. apply not_true_iff_false in E. apply E. apply (smem_In bcmp bcmp_eq), symbols_used_In. exact U. }
  split; intros [H1 H2]; (split; [exact H1|]).
  - destruct D as [D|D]; [auto|]. left. split; intros ->; apply H2; auto.
  - intros [[K|[K|[]]] N]; destruct H2 as [[N1 N2]|H2]; congruence.
Qed.
Print Assumptions C15_remove_transition_alphabet.
Theorem C15_final_weights : forall g s w t,
  (mget Nat.compare t (fin (set_final_weight g s w)) = if t =? s then Some w else mget Nat.compare t (fin g)) /\
  (mget Nat.compare t (fin (remove_final_weight g s)) = if t =? s then None else mget Nat.compare t (fin g)) /\
  (forall u, nth u (sts (set_final_weight g s w)) [] = nth u (sts g) []) /\
  length (sts (set_final_weight g s w)) = Nat.max (length (sts g)) (S s) /\
  sts (remove_final_weight g s) = sts g.
Proof.
  intros g s w t. split; [|split; [|split; [|split]]].
  - cbn [set_final_weight with_fin fin add_state_n with_sts]. destruct (Nat.eqb_spec t s) as [->|N];
      [apply (mget_mset_same Nat.compare Nat.compare_eq_iff)|apply (mget_mset_other Nat.compare Nat.compare_eq_iff); exact N].
  - cbn [remove_final_weight with_fin fin]. destruct (Nat.eqb_spec t s) as [->|N];
      [apply (mget_mdel_same Nat.compare)|apply (mget_mdel_other Nat.compare Nat.compare_eq_iff); exact N].
  - intros u. apply (arcs_add_state_n g s u).
  - apply length_add_state_n.
  - reflexivity.
Qed.
Print Assumptions C15_final_weights.
Theorem C15_get_final_weight : forall g s, structure_ok g ->
  (get_final_weight g s = Throw <-> length (sts g) <= s \/ mget Nat.compare s (fin g) = None) /\
  (forall w, get_final_weight g s = Ok w <-> mget Nat.compare s (fin g) = Some w) /\
  (is_final_state g s = true <-> exists w, mget Nat.compare s (fin g) = Some w).
Proof.
  intros g s G. pose proof (structure_zero g G) as L. unfold get_final_weight, get_max_state, is_final_state, finw. split; [|split].
  - destruct (Nat.ltb_spec (length (sts g) - 1) s); [split; [left; lia|reflexivity]|].
    destruct (mget Nat.compare s (fin g)) eqn:E; split; try discriminate; auto. intros [K|K]; [lia|discriminate].
  - intros w. destruct (Nat.ltb_spec (length (sts g) - 1) s).
    + split; [discriminate|]. intros E. apply (proj2 (proj2 G)) in E. lia.
    + destruct (mget Nat.compare s (fin g)); split; congruence.
  - destruct (mget Nat.compare s (fin g)); split; try discriminate; eauto. intros [w K]; discriminate.
Qed.
Print Assumptions C15_get_final_weight.
Example C15_witness : exists g', run_op empty_graph (OAddTransition 0 (Arc 2 xa xb 4)) = Ok g' /\ length (sts g') = 3 /\ structure_ok g'.
Proof. eexists. split; [vm_compute; reflexivity|]. split; [reflexivity|]. eapply structure_run_op; [exact structure_empty|]. instantiate (1 := OAddTransition 0 (Arc 2 xa xb 4)). vm_compute. reflexivity. Qed.

(** * C16 *)
(** sort_arcs permutes the transitions of every state; the result is the only list
    ordered by (target, input number, output number, weight), so any correct
    std::sort gives it. *)
Definition before (num : bstr -> nat) (a b : arc) : Prop :=
  tgt a < tgt b \/ tgt a = tgt b /\ (num (isy a) < num (isy b) \/ num (isy a) = num (isy b) /\
    (num (osy a) < num (osy b) \/ num (osy a) = num (osy b) /\ (wt a < wt b)%Z)).
Theorem C16_sort_arcs_order : forall num g,
  fin (sort_arcs num g) = fin g /\ alpha (sort_arcs num g) = alpha g /\ length (sts (sort_arcs num g)) = length (sts g) /\
  forall s, Permutation (nth s (sts g) []) (nth s (sts (sort_arcs num g)) []) /\
    StronglySorted (fun a b => ~ before num b a) (nth s (sts (sort_arcs num g)) []).
Proof.
  intros num g. split; [reflexivity|]. split; [reflexivity|]. split; [apply map_length|]. intros s. unfold sort_arcs. cbn [sts with_sts].
  rewrite nth_map_nil by reflexivity. split; [apply std_sort_perm|apply std_sort_sorted].
Qed.
Print Assumptions C16_sort_arcs_order.
Theorem C16_sort_unique : forall num l l', (forall x y, num x = num y -> x = y) ->
  Permutation l l' -> StronglySorted (fun a b => ~ before num b a) l' -> l' = std_sort num l.
Proof.
  intros num l l' I P S. apply (sorted_unique num I); [|exact S|apply std_sort_sorted].
  eapply perm_trans; [apply Permutation_sym; exact P|apply std_sort_perm].
Qed.
Print Assumptions C16_sort_unique.
(** Therefore the documented order, by input and output symbol, is not what is produced. *)
Theorem C16_documented_order_refuted : exists num g, (forall x y, In x [xa; xb] -> In y [xa; xb] -> num x = num y -> x = y) /\
  nth 0 (sts (sort_arcs num g)) [] = [Arc 1 xb xb 0; Arc 2 xa xa 0] /\ num xa < num xb.
Proof.
  exists (fun x => if bstr_eqb x xa then 3 else 4), (Graph [[Arc 2 xa xa 0; Arc 1 xb xb 0]; []; []] [] []). split; [|split; [reflexivity|simpl; lia]].
  intros x y [<-|[<-|[]]] [<-|[<-|[]]]; vm_compute; congruence.
Qed.
Print Assumptions C16_documented_order_refuted.
Example C16_witness : std_sort (@length ascii) [Arc 2 xa xa 0; Arc 1 xb xb 1; Arc 1 xb xb 0] = [Arc 1 xb xb 0; Arc 1 xb xb 1; Arc 2 xa xa 0].
Proof. reflexivity. Qed.

(** * C17 *)
(** Adding any entries with non-empty symbols succeeds; exactly the added sequences are
    accepted, with their smallest weight, each along one path of distinct transitions. *)
Theorem C17_trie : forall es, Forall (fun e => Forall (fun p => fst p <> [] /\ snd p <> []) (fst e)) es ->
  exists g, disjuncts empty_graph es = Ok g /\
    (forall l w, accepts g l w <-> min_weight es l w) /\
    (forall as1 as2 t1 t2, path g 0 as1 t1 -> path g 0 as2 t2 -> map label as1 = map label as2 -> as1 = as2) /\
    (forall s, NoDup (nth s (sts g) [])).
Proof.
  intros es V. assert (V' : Forall (fun e => forallb valid_pair (fst e) = true) es).
  { eapply Forall_impl; [|exact V]. intros [l w] H. cbn [fst] in *. apply forallb_forall. rewrite Forall_forall in H. intros [x y] Hp.
    destruct (H _ Hp) as [H1 H2]. unfold valid_pair. simpl in *. destruct x, y; try congruence; reflexivity. }
  destruct (disjuncts_accepts es V' empty_graph [] tree_empty) as (g & E & T & A).
  - intros l w. split; [|intros [[] _]]. intros (t & v & f & _ & F & _). discriminate F.
  - exists g. split; [exact E|]. split; [exact A|]. split.
    + intros as1 as2 t1 t2. apply (tree_paths_unique g T).
    + apply T.
Qed.
Print Assumptions C17_trie.
(** An entry whose new part has an empty symbol is rejected. *)
Theorem C17_empty_symbol_rejected : forall l w, ~ Forall (fun p => fst p <> [] /\ snd p <> []) l -> disjunct empty_graph l w = Throw.
Proof.
  assert (K : forall l g s, tree g -> s < length (sts g) -> (forall t a, In a (arcs g t) -> isy a <> [] /\ osy a <> []) ->
     ~ Forall (fun p => fst p <> [] /\ snd p <> []) l -> disjunct_path g l s = Throw).
  { induction l as [|p l IH]; intros g s T Hs S N; [exfalso; apply N; constructor|]. cbn [disjunct_path]. destruct (find _ _) as [a|] eqn:F.
    - apply find_some in F. destruct F as [Ha Ep]. apply pair_eqb_eq in Ep. subst p. apply IH; [exact T|exact (proj1 (proj2 (proj1 T)) s a Ha)|exact S|].
      intros Q. apply N. constructor; [exact (S s a Ha)|exact Q].
    - destruct (negb (valid_pair p)) eqn:V; [reflexivity|]. apply negb_false_iff in V.
      assert (Vp : fst p <> [] /\ snd p <> []) by (destruct p as [[|? ?] [|? ?]]; try discriminate V; split; discriminate).
      destruct (tree_leaf g s p T Hs F) as (T1 & L1 & _). cbn [add_state]. apply IH; [exact T1|cbn [add_state fst] in L1; lia| |].
      + intros t a Ha. rewrite arcs_add_transition in Ha. fold (fst (add_state g)) in Ha.
        change (with_sts g (sts g ++ [[]])) with (fst (add_state g)) in Ha. rewrite !arcs_add_state in Ha. destruct (t =? s).
        * apply in_app_iff in Ha. destruct Ha as [Ha|[<-|[]]]; [exact (S s a Ha)|exact Vp].
        * exact (S t a Ha).
      + intros Q. apply N. constructor; [exact Vp|exact Q]. }
  intros l w N. unfold disjunct. rewrite K; [reflexivity|exact tree_empty|simpl; lia| |exact N].
  intros [|[|t]] a [].
Qed.
Print Assumptions C17_empty_symbol_rejected.
Example C17_witness : exists g, disjuncts empty_graph [([(xa, xb); (xb, xb)], 3); ([(xa, xb)], 1); ([(xa, xb); (xb, xb)], 2)]%Z = Ok g /\
  accepts g [(xa, xb); (xb, xb)] 2 /\ ~ accepts g [(xa, xb); (xb, xb)] 3.
Proof.
  destruct (C17_trie [([(xa, xb); (xb, xb)], 3); ([(xa, xb)], 1); ([(xa, xb); (xb, xb)], 2)]%Z) as (g & E & A & _).
  - repeat constructor; discriminate.
  - exists g. split; [exact E|]. split.
    + apply A. split; [simpl; auto|]. intros v [K|[K|[K|[]]]]; inversion K; lia.
    + intros K. apply A in K. destruct K as [_ K]. specialize (K 2%Z (or_intror (or_intror (or_introl eq_refl)))). lia.
Qed.

(** * C18 *)
(** is_special_symbol is the code's test for symbols starting with "@_". *)
Theorem C18_complete : forall g g', structure_ok g -> complete g = Ok g' ->
  (forall l w, accepts g' l w <-> accepts g l w) /\
  (forall s x, s < length (sts g') -> In x (alpha g') -> (forall r, x <> "@"%char :: "_"%char :: r) ->
     exists a, In a (nth s (sts g') []) /\ isy a = x /\ osy a = x) /\
  (forall s a, In a (nth s (sts g') []) -> isy a = osy a) /\ alpha g' = alpha g.
Proof.
  intros g g' G E. destruct (complete_inv _ _ E) as (F & Al & L & A). split; [|split; [|split]].
  - intros l w. unfold accepts. rewrite F. split; intros (t & v & f & R & Hf & ->); exists t, v, f; (split; [|auto]);
      apply (complete_run _ _ G E); try exact R; try apply structure_zero; try exact G; exact (proj2 (proj2 G) t f Hf).
  - intros s x Hs Hx N. rewrite L in Hs. destruct (A s ltac:(lia)) as (mi & Em & Eq & Hm). fold (arcs g' s). rewrite Em.
    destruct (existsb (fun a => bstr_eqb (isy a) x) (arcs g s)) eqn:Q.
    + apply existsb_exists in Q. destruct Q as (a & Ha & Qa). apply bstr_eqb_eq in Qa. exists a. split; [apply in_app_iff; auto|].
      split; [exact Qa|]. rewrite <- (Eq a Ha). exact Qa.
    + rewrite existsb_false in Q. exists (Arc (length (sts g)) x x 0). split; [|auto]. apply in_app_iff. right. apply in_map_iff. exists x. split; [reflexivity|].
      apply Hm. split; [rewrite <- Al; exact Hx|]. split.
      * intros a Ha K. apply Q in Ha. apply bstr_eqb_neq in Ha. contradiction.
      * unfold is_special_symbol. destruct x as [|c [|d r]]; try reflexivity. apply not_true_iff_false. intros K. apply andb_true_iff in K.
        destruct K as [K1 K2]. apply Ascii.eqb_eq in K1, K2. subst. exact (N r eq_refl).
  - intros s a Ha. destruct (Nat.le_gt_cases s (length (sts g))) as [Hs|Hs].
    + destruct (A s Hs) as (mi & Em & Eq & _). change (In a (arcs g' s)) in Ha. rewrite Em in Ha. apply in_app_iff in Ha. destruct Ha as [Ha|Ha]; [exact (Eq a Ha)|].
      apply in_map_iff in Ha. destruct Ha as (x & <- & _). reflexivity.
    + rewrite nth_overflow in Ha by lia. destruct Ha.
  - exact Al.
Qed.
Print Assumptions C18_complete.
(** It throws exactly when some transition has different sides (the empty string not
    being in the alphabet), and then returns nothing. *)
Theorem C18_complete_rejects : forall g, ~ In [] (alpha g) ->
  (complete g = Throw <-> exists s a, In a (nth s (sts g) []) /\ isy a <> osy a) /\
  ((forall s a, In a (nth s (sts g) []) -> isy a = osy a) -> exists g', complete g = Ok g').
Proof.
  intros g N. unfold complete. destruct (add_state g) as [g1 fl] eqn:Ea. injection Ea as <- <-. cbn [sts alpha with_sts].
  pose proof (complete_states_throw_iff (length (sts g)) (alpha g) N (sts g ++ [[]])) as I.
  assert (Q : (exists s a, In a (nth s (sts g ++ [[]]) []) /\ isy a <> osy a) <-> exists s a, In a (nth s (sts g) []) /\ isy a <> osy a).
  { split; intros (s & a & Ha & Hn); exists s, a; rewrite (nth_app_nil (sts g) 1 s : nth s (sts g ++ [[]]) [] = nth s (sts g) []) in *; auto. }
  rewrite Q in I. destruct (complete_states_throw (length (sts g)) (alpha g) (sts g ++ [[]])) as [[ls E]|E].
  - rewrite E in *. cbn [rmap]. split; [|eauto]. split; [discriminate|]. intros K. apply I in K. discriminate.
  - rewrite E in *. cbn [rmap]. split; [tauto|]. intros K. exfalso. destruct (proj1 I eq_refl) as (s & a & Ha & Hn). apply Hn. exact (K s a Ha).
Qed.
Print Assumptions C18_complete_rejects.
Example C18_witness : exists g g', run_ops empty_graph [OAddTransition 0 (Arc 1 xa xa 2); OAddTransition 1 (Arc 0 xb xb 1); OSetFinal 1 0] = Ok g /\
  structure_ok g /\ ~ In [] (alpha g) /\ complete g = Ok g' /\ length (concat (sts g')) = 6.
Proof.
  eexists _, _. split; [vm_compute; reflexivity|]. split; [|split; [|split; [vm_compute; reflexivity|reflexivity]]].
  - apply (C14_structure [OAddTransition 0 (Arc 1 xa xa 2); OAddTransition 1 (Arc 0 xb xb 1); OSetFinal 1 0]). vm_compute. reflexivity.
  - vm_compute. intros K. repeat destruct K as [K|K]; try discriminate K. exact K.
Qed.

(** * C19 *)
Theorem C19_substitute_symbol : forall g old new inp out g', symbols_ok g -> substitute_symbol old new inp out g = Ok g' ->
  forall l' w, accepts g' l' w <-> exists l, accepts g l w /\ l' = map (replace_on_sides old new inp out) l.
Proof. intros g old new inp out g'. apply substitute_symbol_accepts. Qed.
Print Assumptions C19_substitute_symbol.
Theorem C19_substitute_symbol_total : forall g old new inp out, old <> [] -> new <> [] -> exists g', substitute_symbol old new inp out g = Ok g'.
Proof.
  intros g old new inp out N1 N2. unfold substitute_symbol. destruct old; [congruence|]. destruct new; [congruence|]. simpl.
  destruct (_ && _); [eauto|]. destruct (negb _); eauto.
Qed.
Print Assumptions C19_substitute_symbol_total.
(** Without the alphabet knowing the symbol nothing happens, although it may be used: the
    hypothesis is needed. *)
Theorem C19_symbol_outside_alphabet_refuted : exists g, ~ symbols_ok g /\ accepts g [(xa, xa)] 0 /\ substitute_symbol xa xb true true g = Ok g.
Proof.
  exists (Graph [[Arc 1 xa xa 0]; []] [(1, 0%Z)] []). split; [intros H; destruct (H 0 _ (or_introl eq_refl)) as [[] _]|]. split; [|reflexivity].
  exists 1, 0%Z, 0%Z. split; [|auto]. change 0%Z with (0 + 0)%Z. apply (run_cons _ 0 (Arc 1 xa xa 0)); [left; reflexivity|constructor].
Qed.
Print Assumptions C19_symbol_outside_alphabet_refuted.
Example C19_witness : exists g g', run_ops empty_graph [OAddTransition 0 (Arc 1 xa xb 2); OSetFinal 1 0] = Ok g /\ symbols_ok g /\
  substitute_symbol xa xc true false g = Ok g' /\ accepts g' [(xc, xb)] 2.
Proof.
  eexists _, _. split; [vm_compute; reflexivity|]. split; [|split; [vm_compute; reflexivity|]].
  - intros [|[|[|s]]] a Ha; try destruct Ha as [<-|[]]; try destruct Ha. vm_compute. tauto.
  - exists 1, 2%Z, 0%Z. split; [|auto]. change 2%Z with (2 + 0)%Z. apply (run_cons _ 0 (Arc 1 xc xb 2)); [left; reflexivity|constructor].
Qed.

(** * C20 *)
(** Every symbol of a path is looked up once in the map given by the caller. *)
Theorem C20_symbols_simultaneous : forall g m g', substitute_symbols m g = Ok g' ->
  forall l' w, accepts g' l' w <-> exists l, accepts g l w /\
    Forall2 (fun p q => (mget bcmp (fst p) m = Some (fst q) \/ mget bcmp (fst p) m = None /\ fst q = fst p) /\
                        (mget bcmp (snd p) m = Some (snd q) \/ mget bcmp (snd p) m = None /\ snd q = snd p)) l l'.
Proof.
  intros g m g' E l' w. rewrite (substitute_symbols_accepts _ _ _ E). split; intros (l & A & H); exists l; (split; [exact A|]).
  - subst l'. clear A. induction l as [|p l IH]; constructor; [|exact IH]. unfold subst_map_symbol. cbn [fst snd].
    destruct (mget bcmp (fst p) m), (mget bcmp (snd p) m); auto.
  - clear A. induction H as [|p q l l' [H1 H2] H IH]; [reflexivity|]. cbn [map]. f_equal; [|exact IH]. unfold subst_map_symbol. destruct q as [x y]. cbn [fst snd] in *.
    destruct H1 as [->|[-> ->]], H2 as [->|[-> ->]]; reflexivity.
Qed.
Print Assumptions C20_symbols_simultaneous.
Theorem C20_pairs_simultaneous : forall g m g', substitute_symbol_pairs m g = Ok g' ->
  forall l' w, accepts g' l' w <-> exists l, accepts g l w /\
    Forall2 (fun p q => mget pcmp p m = Some q \/ mget pcmp p m = None /\ q = p) l l'.
Proof.
  intros g m g' E l' w. rewrite (substitute_pairs_accepts _ _ _ E). split; intros (l & A & H); exists l; (split; [exact A|]).
  - subst l'. clear A. induction l as [|p l IH]; constructor; [|exact IH]. unfold subst_map_pair. destruct (mget pcmp p m); auto.
  - clear A. induction H as [|p q l l' H1 H IH]; [reflexivity|]. cbn [map]. f_equal; [|exact IH]. unfold subst_map_pair. destruct H1 as [->|[-> ->]]; reflexivity.
Qed.
Print Assumptions C20_pairs_simultaneous.
Theorem C20_total : forall g m, Forall (fun e => fst e <> [] /\ snd e <> []) m -> exists g', substitute_symbols m g = Ok g'.
Proof.
  intros g m V. unfold substitute_symbols. replace (existsb _ m) with false; [eauto|]. symmetry. apply existsb_false. intros [x y] H.
  rewrite Forall_forall in V. destruct (V _ H) as [V1 V2]. unfold valid_pair. simpl in *. destruct x, y; try congruence; reflexivity.
Qed.
Print Assumptions C20_total.
(** Swapping two symbols. *)
Example C20_witness : exists g', substitute_symbols [(xa, xb); (xb, xa)] (Graph [[Arc 1 xa xb 2]; []] [(1, 0%Z)] [xa; xb]) = Ok g' /\ nth 0 (sts g') [] = [Arc 1 xb xa 2].
Proof. eexists. split; vm_compute; reflexivity. Qed.

(** * C21 *)
Theorem C21_pair_to_set_partial : forall g old new g', new <> [] -> substitute_pair_with_set old new g = Ok g' ->
  forall l' w, accepts g' l' w <-> exists l, accepts g l w /\ Forall2 (fun p q => p = old /\ In q new \/ p <> old /\ q = p) l l'.
Proof. intros g old new g' N E. destruct (subst_set_arcs _ _ _ _ N E) as [F A]. apply (accepts_mapped _ _ _ F A). Qed.
Print Assumptions C21_pair_to_set_partial.
(** The empty set: right if no two adjacent transitions of a state carry the pair ... *)
Theorem C21_empty_set_partial : forall g old g', 
  (forall s l1 a b l2, nth s (sts g) [] = l1 ++ a :: b :: l2 -> label a = old -> label b <> old) ->
  substitute_pair_with_set old [] g = Ok g' -> forall l w, accepts g' l w <-> accepts g l w /\ ~ In old l.
Proof.
  intros g old g' H E. unfold substitute_pair_with_set in E. destruct (_ || _); [discriminate|]. injection E as <-. unfold substitute_pair_set_, remove_transitions.
  match goal with |- context [accepts ?x] => set (g' := x) end.
  assert (K : sts g' = map (remove_loop old) (sts g) /\ fin g' = fin g) by (unfold g'; repeat destruct (existsb _ _); auto). destruct K as [Ks Kf].
  assert (A : forall s a, In a (nth s (sts g') []) <-> In a (nth s (sts g) []) /\ label a <> old).
  { intros s a. rewrite Ks, nth_map_nil by reflexivity. rewrite remove_loop_filter by (intros l1 b c l2; apply H). rewrite filter_In, negb_true_iff, pair_eqb_neq. tauto. }
  intros l w. unfold accepts. rewrite Kf. split.
  - intros (t & v & f & R & Hf & ->). apply (run_filtered old g g' A) in R. destruct R as [R N]. split; [|exact N]. exists t, v, f. auto.
  - intros [(t & v & f & R & Hf & ->) N]. exists t, v, f. split; [|auto]. apply (run_filtered old g g' A). auto.
Qed.
Print Assumptions C21_empty_set_partial.
(** ... and wrong otherwise: of two adjacent ones the second survives. *)
Theorem C21_empty_set_refuted : exists os g g', run_ops empty_graph os = Ok g /\ 
  os = [OAddTransition 0 (Arc 1 xa xb 0); OAddTransition 0 (Arc 1 xa xb 1); OSetFinal 1 0] /\
  substitute_pair_with_set (xa, xb) [] g = Ok g' /\ accepts g' [(xa, xb)] 1.
Proof.
  eexists _, _, _. split; [|split; [reflexivity|split; [vm_compute; reflexivity|]]]; [vm_compute; reflexivity|].
  exists 1, 1%Z, 0%Z. split; [|auto]. change 1%Z with (1 + 0)%Z. apply (run_cons _ 0 (Arc 1 xa xb 1)); [left; reflexivity|constructor].
Qed.
Print Assumptions C21_empty_set_refuted.
(** substitute(func): each pair replaced by any pair its function gives. *)
Theorem C21_function : forall g f g', substitute_func f g = Ok g' ->
  forall l' w, accepts g' l' w <-> exists l, accepts g l w /\
    Forall2 (fun p q => (exists qs, f p = Some qs /\ In q qs) \/ f p = None /\ q = p) l l'.
Proof.
  intros g f g' E. destruct (substitute_func_arcs _ _ _ E) as [F A]. apply (accepts_mapped _ _ _ F).
  intros s a'. rewrite A. split; intros (a & q & Ha & Hq & ->); exists a, q; (split; [exact Ha|]); (split; [|reflexivity]).
  - destruct (f (label a)) as [qs|]; [left; eauto|right; auto].
  - destruct Hq as [(qs & -> & Hq)|[-> Hq]]; exact Hq.
Qed.
Print Assumptions C21_function.
(** A function that returns an empty set makes the code read the first element of an
    empty vector. *)
Theorem C21_function_empty_set_refuted : forall g f s a, nth s (sts g) [] = [a] -> s = 0 -> f (label a) = Some [] -> substitute_func f g = Ub.
Proof.
  intros g f s a E -> F. unfold substitute_func. destruct (sts g) as [|l ls]; [discriminate|]. simpl in E. subst l. simpl. rewrite F. reflexivity.
Qed.
Print Assumptions C21_function_empty_set_refuted.
Example C21_witness : exists g', substitute_pair_with_set (xa, xb) [(xb, xb); (xc, xc)] (Graph [[Arc 1 xa xb 2; Arc 0 xa xa 1]; []] [(1, 0%Z)] [xa; xb]) = Ok g' /\
  accepts g' [(xa, xa); (xc, xc)] 3.
Proof.
  eexists. split; [vm_compute; reflexivity|]. exists 1, 3%Z, 0%Z. split; [|auto]. change 3%Z with (1 + (2 + 0))%Z.
  apply (run_cons _ 0 (Arc 0 xa xa 1)); [right; left; reflexivity|]. apply (run_cons _ 0 (Arc 1 xc xc 2)); [|constructor]. vm_compute. tauto.
Qed.

(** * C22 *)
Theorem C22_pair_to_transducer_partial : forall g p h, structure_ok g -> symbols_ok g -> structure_ok h -> map_ok h ->
  fst p <> [] -> snd p <> [] -> (forall s, length (filter (fun a => pair_eqb (label a) p) (nth s (sts g) [])) <= 1) ->
  exists g', substitute_graph p h g = Ok g' /\
    forall l' w, accepts g' l' w <-> exists l v u, accepts g l v /\
      replaced_path (fun q => if pair_eqb q p then Some h else None) l l' u /\ w = (v + u)%Z.
Proof.
  intros g p h G S Gh Mh N1 N2 U. apply substitute_graph_accepts_ok; auto. destruct p as [[|? ?] [|? ?]]; try reflexivity; simpl in *; congruence.
Qed.
Print Assumptions C22_pair_to_transducer_partial.
(** With two matching transitions in one state the code uses an invalidated iterator. *)
Theorem C22_two_matches_refuted : exists os g h, run_ops empty_graph os = Ok g /\
  os = [OAddTransition 0 (Arc 1 xa xb 0); OAddTransition 0 (Arc 0 xa xb 0); OSetFinal 1 0] /\
  run_ops empty_graph [OAddTransition 0 (Arc 1 xc xc 0); OSetFinal 1 0] = Ok h /\ substitute_graph (xa, xb) h g = Ub.
Proof. eexists _, _, _. split; [|split; [reflexivity|split]]; [vm_compute; reflexivity|vm_compute; reflexivity|vm_compute; reflexivity]. Qed.
Print Assumptions C22_two_matches_refuted.
(** substitute(symbol to transducer map) has no such restriction. *)
Theorem C22_symbol_map : forall g m g', structure_ok g -> symbols_ok g -> (forall x h, In (x, h) m -> map_ok h /\ structure_ok h) ->
  substitute_submap m g = Ok g' ->
  forall l' w, accepts g' l' w <-> exists l v u, accepts g l v /\ replaced_path (fun q => mget bcmp (fst q) m) l l' u /\ w = (v + u)%Z.
Proof. intros g m g'. apply substitute_submap_accepts. Qed.
Print Assumptions C22_symbol_map.
(** It rejects exactly transducers with a substituted symbol on one side only. *)
Theorem C22_symbol_map_rejects : forall g m, symbols_ok g -> (forall x h, In (x, h) m -> x <> []) ->
  (substitute_submap m g = Throw <-> exists s a, In a (nth s (sts g) []) /\ isy a <> osy a /\
     (mget bcmp (isy a) m <> None \/ mget bcmp (osy a) m <> None)) /\
  substitute_submap m g <> Ub /\ substitute_submap m g <> Diverge.
Proof.
  intros g m S V. unfold substitute_submap. replace (existsb (fun e => negb (is_valid_symbol (fst e))) m) with false.
  2:{ symmetry. apply existsb_false. intros [x h] H. apply V in H. destruct x; [congruence|reflexivity]. }
  destruct (existsb (fun e => smem bcmp (fst e) (alpha g)) m) eqn:Q; cbn [negb].
  - destruct (forallb (submap_ok m) (concat (sts g))) eqn:E; cbn [negb].
    + split; [|split; discriminate]. split; [discriminate|]. intros (s & a & Ha & Hn & Hm). exfalso. rewrite forallb_forall in E.
      assert (Hc : In a (concat (sts g))) by (apply In_concat_nth; eauto). apply E in Hc. unfold submap_ok in Hc.
      destruct (mget bcmp (isy a) m), (mget bcmp (osy a) m); try (apply bstr_eqb_eq in Hc; contradiction). destruct Hm; congruence.
    + split; [|split; discriminate]. split; [intros _|reflexivity]. apply not_true_iff_false in E. rewrite forallb_forall in E.
      assert (K : existsb (fun a => negb (submap_ok m a)) (concat (sts g)) = true).
      { destruct (existsb (fun a => negb (submap_ok m a)) (concat (sts g))) eqn:K; [reflexivity|]. exfalso. apply E. intros a Ha. rewrite existsb_false in K. apply K in Ha.
        apply negb_false_iff in Ha. exact Ha. }
      apply existsb_concat in K. destruct K as (s & a & Ha & K). exists s, a. split; [exact Ha|]. apply negb_true_iff in K. unfold submap_ok in K.
      destruct (mget bcmp (isy a) m), (mget bcmp (osy a) m); try discriminate K; apply bstr_eqb_neq in K; (split; [exact K|]); (left; discriminate) || (right; discriminate).
  - split; [|split; discriminate]. split; [discriminate|]. intros (s & a & Ha & _ & Hm). exfalso. destruct (S s a Ha) as [I O].
    assert (K : forall x, In x (alpha g) -> mget bcmp x m = None).
    { intros x Hx. destruct (mget bcmp x m) as [h|] eqn:Em; [|reflexivity]. apply (mget_In bcmp bcmp_eq) in Em. rewrite existsb_false in Q. apply Q in Em.
      apply not_true_iff_false in Em. exfalso. apply Em. apply (smem_In bcmp bcmp_eq). exact Hx. }
    destruct Hm as [Hm|Hm]; apply Hm; apply K; assumption.
Qed.
Print Assumptions C22_symbol_map_rejects.
Definition gw : graph := Graph [[Arc 1 xa xb 2; Arc 0 xc xc 1]; []] [(1, 0%Z)] (initialize_alphabet [xa; xb; xc]).
Definition hw : graph := Graph [[Arc 1 xc xb 5]; []] [(1, 3%Z)] (initialize_alphabet [xc; xb]).
Example C22_witness : structure_ok gw /\ symbols_ok gw /\ structure_ok hw /\ map_ok hw /\
  (forall s, length (filter (fun a => pair_eqb (label a) (xa, xb)) (nth s (sts gw) [])) <= 1) /\
  exists g', substitute_graph (xa, xb) hw gw = Ok g' /\ accepts g' [(EPS, EPS); (xc, xb); (EPS, EPS)] 10.
Proof.
  assert (G : structure_ok gw).
  { split; [discriminate|]. split; [intros [|[|[|s]]] a Ha; simpl in Ha; repeat destruct Ha as [<-|Ha]; try destruct Ha; simpl; lia|].
    intros s w. simpl. destruct (Nat.compare s 1) eqn:C; try discriminate. apply Nat.compare_eq_iff in C. lia. }
  assert (S : symbols_ok gw).
  { intros [|[|[|s]]] a Ha; simpl in Ha; repeat destruct Ha as [<-|Ha]; try destruct Ha; vm_compute; tauto. }
  assert (H : structure_ok hw).
  { split; [discriminate|]. split; [intros [|[|[|s]]] a Ha; simpl in Ha; repeat destruct Ha as [<-|Ha]; try destruct Ha; simpl; lia|].
    intros s w. simpl. destruct (Nat.compare s 1) eqn:C; try discriminate. apply Nat.compare_eq_iff in C. lia. }
  assert (M : map_ok hw) by repeat constructor.
  assert (U : forall s, length (filter (fun a => pair_eqb (label a) (xa, xb)) (nth s (sts gw) [])) <= 1) by (intros [|[|[|s]]]; vm_compute; lia).
  repeat (split; [assumption|]). destruct (C22_pair_to_transducer_partial gw (xa, xb) hw G S H M) as (g' & E & A); try discriminate; [exact U|].
  exists g'. split; [exact E|]. apply A. exists [(xa, xb)], 2%Z, 8%Z. split; [|split; [|reflexivity]].
  - exists 1, 2%Z, 0%Z. split; [|auto]. change 2%Z with (2 + 0)%Z. apply (run_cons _ 0 (Arc 1 xa xb 2)); [left; reflexivity|constructor].
  - change 8%Z with (8 + 0)%Z. apply (rpl_subst _ (xa, xb) hw [(EPS, EPS); (xc, xb); (EPS, EPS)] 8 [] []); [reflexivity| |constructor].
    exists [(xc, xb)]. split; [|reflexivity]. exists 1, 5%Z, 3%Z. split; [|auto]. change 5%Z with (5 + 0)%Z.
    apply (run_cons _ 0 (Arc 1 xc xb 5)); [left; reflexivity|constructor].
Qed.

(** * C23 *)
Theorem C23_insert_freely : forall g ps w g', structure_ok g -> insert_freely ps w g = Ok g' ->
  forall l' x, accepts g' l' x <-> exists l v u, accepts g l v /\
    inserted_path (fun m y => exists p, In p ps /\ m = [p] /\ y = w) l l' u /\ x = (v + u)%Z.
Proof.
  intros g ps w g' G E l' x. pose proof (fin_insert_freely _ _ _ _ E) as F. unfold accepts. rewrite F. split.
  - intros (t & v & f & R & Hf & ->). apply (run_inserted _ _ _ _ G E _ _ _ _ (structure_zero g G)) in R. destruct R as (l & v0 & u & R & I & ->).
    exists l, (v0 + f)%Z, u. split; [exists t, v0, f; auto|]. split; [exact I|lia].
  - intros (l & v & u & (t & v0 & f & R & Hf & ->) & I & ->). exists t, (v0 + u)%Z, f. split; [|split; [exact Hf|lia]].
    apply (run_inserted _ _ _ _ G E _ _ _ _ (structure_zero g G)). exists l, v0, u. auto.
Qed.
Print Assumptions C23_insert_freely.
Theorem C23_insert_freely_total : forall g ps w, Forall (fun p => fst p <> [] /\ snd p <> []) ps -> exists g', insert_freely ps w g = Ok g'.
Proof.
  intros g m w V. unfold insert_freely. replace (existsb _ m) with false; [eauto|]. symmetry. apply existsb_false. intros [x y] H.
  rewrite Forall_forall in V. destruct (V _ H) as [V1 V2]. unfold valid_pair. simpl in *. destruct x, y; try congruence; reflexivity.
Qed.
Print Assumptions C23_insert_freely_total.
(** insert_freely(transducer), for transducers not using the reserved marker symbol. *)
Theorem C23_insert_transducer_freely : forall g h, structure_ok g -> structure_ok h -> map_ok h -> ~ used g (B "@_MARKER_SYMBOL_@") ->
  exists g', insert_freely_graph h g = Ok g' /\
    forall l' w, accepts g' l' w <-> exists l v u, accepts g l v /\ inserted_path (padded h) l l' u /\ w = (v + u)%Z.
Proof. intros g h G H M U. apply insert_freely_graph_accepts; assumption. Qed.
Print Assumptions C23_insert_transducer_freely.
(** With the marker already on a transition it runs into C22_two_matches_refuted. *)
Theorem C23_marker_refuted : exists g, run_ops empty_graph [OAddTransition 0 (Arc 1 MARKER MARKER 0); OSetFinal 1 0] = Ok g /\ insert_freely_graph hw g = Ub.
Proof. eexists. split; vm_compute; reflexivity. Qed.
Print Assumptions C23_marker_refuted.
Example C23_witness : structure_ok gw /\ ~ used gw (B "@_MARKER_SYMBOL_@") /\
  exists g', insert_freely [(xb, xc)] 7 gw = Ok g' /\ accepts g' [(xb, xc); (xa, xb); (xb, xc)] 16.
Proof.
  destruct C22_witness as (G & _). split; [exact G|]. split.
  { intros (s & a & Ha & E). destruct s as [|[|[|s]]]; simpl in Ha; repeat destruct Ha as [<-|Ha]; try destruct Ha; destruct E; discriminate. }
  destruct (C23_insert_freely_total gw [(xb, xc)] 7) as [g' E]; [repeat constructor; discriminate|]. exists g'. split; [exact E|].
  apply (C23_insert_freely _ _ _ _ G E). exists [(xa, xb)], 2%Z, 14%Z. split; [|split; [|reflexivity]].
  - exists 1, 2%Z, 0%Z. split; [|auto]. change 2%Z with (2 + 0)%Z. apply (run_cons _ 0 (Arc 1 xa xb 2)); [left; reflexivity|constructor].
  - change 14%Z with (7 + (7 + 0))%Z. apply (ins_more _ [(xb, xc)] 7); [exists (xb, xc); simpl; auto|]. apply ins_keep.
    apply (ins_more _ [(xb, xc)] 7 [] [] 0); [exists (xb, xc); simpl; auto|constructor].
Qed.

(** * C48 *)
Theorem C48_swap_partial : forall g s1 s2 g', swap_state_numbers g s1 s2 = Ok g' ->
  mget Nat.compare s1 (fin g) = None \/ mget Nat.compare s2 (fin g) = None ->
  exists f : nat -> nat, (forall s, f (f s) = s) /\ f s1 = s2 /\ f s2 = s1 /\ (forall s, s <> s1 -> s <> s2 -> f s = s) /\
    (forall s l w t, run g s l w t <-> run g' (f s) l w (f t)) /\
    (forall s, mget Nat.compare (f s) (fin g') = mget Nat.compare s (fin g)).
Proof.
  intros g s1 s2 g' E F. exists (swp s1 s2). split; [apply swp_invol|]. split; [unfold swp; rewrite Nat.eqb_refl; reflexivity|]. split.
  { unfold swp. destruct (Nat.eqb_spec s2 s1); [auto|]. rewrite Nat.eqb_refl. reflexivity. }
  split; [intros s N1 N2; unfold swp; destruct (Nat.eqb_spec s s1), (Nat.eqb_spec s s2); congruence|].
  split; [apply (swap_run _ _ _ _ E)|]. apply (swap_fin _ _ _ _ E F).
Qed.
Print Assumptions C48_swap_partial.
(** Two final states: one loses its finality. *)
Theorem C48_both_final_refuted : exists g g', run_ops empty_graph [OSetFinal 0 1; OSetFinal 1 2] = Ok g /\
  swap_state_numbers g 0 1 = Ok g' /\ mget Nat.compare 0 (fin g') = Some 2%Z /\ mget Nat.compare 1 (fin g') = None.
Proof. eexists _, _. split; [vm_compute; reflexivity|]. split; [vm_compute; reflexivity|]. split; reflexivity. Qed.
Print Assumptions C48_both_final_refuted.
(** Always so, for any two different final states. *)
Theorem C48_both_final_lost_refuted : forall g s1 s2 g' w1 w2, s1 <> s2 -> swap_state_numbers g s1 s2 = Ok g' ->
  mget Nat.compare s1 (fin g) = Some w1 -> mget Nat.compare s2 (fin g) = Some w2 ->
  mget Nat.compare s1 (fin g') = Some w2 /\ mget Nat.compare s2 (fin g') = None.
Proof.
  intros g s1 s2 g' w1 w2 N E F1 F2. unfold swap_state_numbers in E. destruct (negb _); [discriminate|].
  destruct (_ && _) eqn:C; [discriminate|]. injection E as <-. cbn [fin]. unfold swap_finals. rewrite F1, F2. split.
  - apply (mget_mset_same Nat.compare Nat.compare_eq_iff).
  - rewrite (mget_mset_other Nat.compare Nat.compare_eq_iff) by congruence. apply (mget_mdel_same Nat.compare).
Qed.
Print Assumptions C48_both_final_lost_refuted.
Example C48_witness : exists g', swap_state_numbers gw 0 1 = Ok g' /\ nth 1 (sts g') [] = [Arc 0 xa xb 2; Arc 1 xc xc 1] /\ fin g' = [(0, 0%Z)].
Proof. eexists. split; [vm_compute; reflexivity|]. split; reflexivity. Qed.

(** * C49 *)
(** prune_alphabet(force): with unknown or identity on a transition and no force nothing
    is removed; otherwise exactly the symbols on no transition, other than the special
    ones. *)
Theorem C49_prune : forall g force,
  sts (prune_alphabet force g) = sts g /\ fin (prune_alphabet force g) = fin g /\
  forall x, In x (alpha (prune_alphabet force g)) <->
    In x (alpha g) /\ (used g x \/ special x \/ force = false /\ (used g (B "@_UNKNOWN_SYMBOL_@") \/ used g (B "@_IDENTITY_SYMBOL_@"))).
Proof.
  intros g force. unfold prune_alphabet.
  assert (U : forall x, smem bcmp x (symbols_used g) = true <-> used g x).
  { intros x. rewrite (smem_In bcmp bcmp_eq). apply symbols_used_In. }
  destruct (negb force && _) eqn:C.
  - split; [reflexivity|]. split; [reflexivity|]. intros x. apply andb_true_iff in C. destruct C as [C1 C2]. apply negb_true_iff in C1. apply orb_true_iff in C2.
    rewrite !U in C2. split; [intros H; split; [exact H|right; right; split; [exact C1|exact C2]]|tauto].
  - split; [reflexivity|]. split; [reflexivity|]. intros x. cbn [alpha with_alpha]. rewrite filter_In, (smem_In bcmp bcmp_eq), !(In_sadd bcmp bcmp_eq).
    rewrite symbols_used_In. unfold special. fold EPS UNK IDN.
    assert (K : ~ (force = false /\ (used g UNK \/ used g IDN))).
    { intros [-> K]. rewrite <- !U in K. cbn [negb andb] in C. apply orb_false_iff in C. destruct C, K; congruence. }
    tauto.
Qed.
Print Assumptions C49_prune.
Example C49_witness : alpha (prune_alphabet false (add_symbol gw (B "zz"))) = alpha gw /\ In (B "zz") (alpha (add_symbol gw (B "zz"))).
Proof. split; [reflexivity|]. vm_compute. tauto. Qed.

(** * C59: flag_purge *)
Theorem C59_flag_purge : forall g flag,
  let purged x := is_diacritic x = true /\ (flag = [] \/ get_feature x = flag) in
  (forall l' w, accepts (flag_purge flag g) l' w <-> exists l, accepts g l w /\
     Forall2 (fun p q => (purged (fst p) \/ purged (snd p)) /\ q = (B "@_EPSILON_SYMBOL_@", B "@_EPSILON_SYMBOL_@") \/
                         ~ purged (fst p) /\ ~ purged (snd p) /\ q = p) l l') /\
  (forall x, In x (alpha (flag_purge flag g)) <-> In x (alpha g) /\ ~ purged x).
Proof.
  intros g flag purged.
  assert (P : forall x, purge_symbol flag x = true <-> purged x).
  { intros x. unfold purge_symbol, purged. destruct (is_diacritic x); simpl; [|split; [discriminate|intros [K _]; discriminate]].
    destruct flag; [tauto|]. rewrite bstr_eqb_eq. split; [tauto|]. intros [_ [K|K]]; [discriminate|exact K]. }
  unfold flag_purge. cbv zeta. match goal with |- context [remove_symbols ?x ?y] => set (g1 := x); set (xs := y) end.
  destruct (remove_symbols_sts g1 xs) as [Es Ef]. split.
  - intros l' w. refine (iff_trans (accepts_ext g1 _ Es Ef l' w) _).
    apply (accepts_mapped (fun p q => (purged (fst p) \/ purged (snd p)) /\ q = (EPS, EPS) \/ ~ purged (fst p) /\ ~ purged (snd p) /\ q = p) g g1 eq_refl).
    intros s a'. unfold g1. cbn [sts with_sts]. rewrite nth_map_nil by reflexivity. rewrite in_map_iff. split.
    + intros (a & <- & Ha). destruct (purge_symbol flag (isy a)) eqn:Pi; cbn [orb].
      * exists a, (EPS, EPS). split; [exact Ha|]. split; [left; split; [left; apply P; exact Pi|reflexivity]|reflexivity].
      * destruct (purge_symbol flag (osy a)) eqn:Po.
        -- exists a, (EPS, EPS). split; [exact Ha|]. split; [left; split; [right; apply P; exact Po|reflexivity]|reflexivity].
        -- exists a, (label a). split; [exact Ha|]. split; [right|symmetry; apply relabel_label]. rewrite <- !P. cbn [label fst snd]. rewrite Pi, Po. repeat split; discriminate.
    + intros (a & q & Ha & Hq & ->). exists a. split; [|exact Ha]. cbn [label fst snd] in Hq. rewrite <- !P in Hq.
      destruct Hq as [[Hq ->]|(H1 & H2 & ->)].
      * replace (purge_symbol flag (isy a) || purge_symbol flag (osy a)) with true; [reflexivity|]. symmetry. apply orb_true_iff. exact Hq.
      * apply not_true_iff_false in H1, H2. rewrite H1, H2. cbn [orb]. destruct a; reflexivity.
  - intros x. rewrite remove_symbols_alpha. unfold xs. unfold g1. cbn [alpha with_sts]. rewrite filter_In, P.
    destruct (purge_symbol flag x) eqn:Q; [apply P in Q|]; [tauto|]. assert (~ purged x) by (rewrite <- P, Q; discriminate). tauto.
Qed.
Print Assumptions C59_flag_purge.
Example C59_witness : exists g, flag_purge (B "F") (Graph [[Arc 1 (B "@P.F.x@") xa 2; Arc 1 (B "@U.G.x@") xa 3]; []] [(1, 0%Z)] [xa; B "@P.F.x@"]) = g /\
  nth 0 (sts g) [] = [Arc 1 EPS EPS 2; Arc 1 (B "@U.G.x@") xa 3] /\ alpha g = [xa].
Proof. eexists. split; [reflexivity|]. split; vm_compute; reflexivity. Qed.

(** * C60: insert_transducer *)
Theorem C60_insert_transducer : forall g s1 s2 h, structure_ok g -> structure_ok h -> map_ok h -> s1 < length (sts g) -> s2 < length (sts g) ->
  fin (insert_transducer g s1 s2 h) = fin g /\
  forall s l w t, s < length (sts g) -> t < length (sts g) -> (run (insert_transducer g s1 s2 h) s l w t <-> spliced_run g s1 s2 h s l w t).
Proof.
  intros g s1 s2 h G H M L1 L2. split; [apply fin_insert_transducer|]. apply insert_transducer_run; assumption.
Qed.
Print Assumptions C60_insert_transducer.
Example C60_witness : structure_ok gw /\ structure_ok hw /\ map_ok hw /\ spliced_run gw 1 0 hw 1 [(EPS, EPS); (xc, xb); (EPS, EPS); (xa, xb)] 10 1.
Proof.
  destruct C22_witness as (G & _ & H & M & _). split; [exact G|]. split; [exact H|]. split; [exact M|]. change 10%Z with (8 + (2 + 0))%Z.
  apply (spl_jump gw 1 0 hw [(EPS, EPS); (xc, xb); (EPS, EPS)] 8).
  - exists [(xc, xb)]. split; [|reflexivity]. exists 1, 5%Z, 3%Z. split; [|auto]. change 5%Z with (5 + 0)%Z.
    apply (run_cons _ 0 (Arc 1 xc xb 5)); [left; reflexivity|constructor].
  - apply (spl_arc gw 1 0 hw 0 (Arc 1 xa xb 2)); [left; reflexivity|constructor].
Qed.
