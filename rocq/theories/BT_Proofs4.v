(** Ordered final weight maps over histories, insertion of a transducer, completion,
    tries, sorting, swapping. *)
From Verif Require Import Base Flags_Model BT_Model BT_Spec BT_Proofs BT_Proofs2 BT_Proofs3.
From Coq Require Import Permutation Sorted.

Lemma fin_disjunct_path l : forall g s g' s', disjunct_path g l s = Ok (g', s') -> fin g' = fin g.
Proof.
  induction l as [|p l IH]; intros g s g' s' E; cbn [disjunct_path] in E; [injection E as <- <-; reflexivity|].
  destruct (find _ _); [exact (IH _ _ _ _ E)|]. destruct (negb _); [discriminate|]. cbn [add_state] in E. apply IH in E. exact E.
Qed.
Lemma fin_substitute_graph p h g g' : substitute_graph p h g = Ok g' -> fin g' = fin g.
Proof.
  unfold substitute_graph. destruct (negb _); [discriminate|]. destruct (_ && _); [intros E; injection E as <-; reflexivity|].
  destruct (existsb _ _); [discriminate|]. intros E. injection E as <-. rewrite fin_substs. reflexivity.
Qed.
Lemma fin_insert_freely ps w g g' : insert_freely ps w g = Ok g' -> fin g' = fin g.
Proof. unfold insert_freely. destruct (existsb _ _); [discriminate|]. intros E. injection E as <-. exact (proj2 (add_pairs_sts _ _)). Qed.
Theorem map_ok_run_op g o g' : map_ok g -> run_op g o = Ok g' -> map_ok g'.
Proof.
  intros H E. assert (K : fin g' = fin g -> map_ok g') by (intros Ef; unfold map_ok; rewrite Ef; exact H).
  destruct o; cbn [run_op] in E; try (injection E as <-).
  - exact H.
  - exact H.
  - destruct (valid_pair _); [injection E as <-; exact H|discriminate].
  - unfold remove_transition in *. destruct (_ <=? _); [exact H|]. destruct remove_symbols; [|exact H]. repeat destruct (smem _ _ _); exact H.
  - apply map_ok_mset. exact H.
  - apply map_ok_mdel. exact H.
  - exact H.
  - exact H.
  - unfold prune_alphabet. destruct (_ && _); exact H.
  - exact H.
  - apply K. unfold substitute_symbol in E. destruct (_ || _); [discriminate|]. destruct (bstr_eqb _ _); [injection E as <-; reflexivity|].
    destruct (negb _); [injection E as <-; reflexivity|]. injection E as <-. destruct (existsb _ _), (_ && _); reflexivity.
  - apply K. unfold substitute_symbols in E. destruct (existsb _ m); [discriminate|]. injection E as <-. exact (proj2 (add_symbols_sts _ _)).
  - apply K. unfold substitute_symbol_pairs in E. destruct (existsb _ m); [discriminate|]. injection E as <-. exact (proj2 (add_symbols_sts _ _)).
  - apply K. unfold substitute_pair_with_set in E. destruct (_ || _); [discriminate|]. injection E as <-. unfold substitute_pair_set_.
    destruct ps as [|q ps].
    + unfold remove_transitions. repeat destruct (existsb _ _); reflexivity.
    + rewrite (proj2 (prune_after_sts _ _)). destruct (existsb _ _); [|reflexivity]. exact (proj2 (add_pairs_sts _ _)).
  - apply K. unfold substitute_func in E. destruct (subst_func_states f (sts g)) as [[ls ps]| | |]; try discriminate. injection E as <-.
    exact (proj2 (add_pairs_sts _ _)).
  - apply K. eapply fin_substitute_graph. exact E.
  - apply K. unfold substitute_submap in E. destruct (existsb _ m); [discriminate|]. destruct (negb _); [injection E as <-; reflexivity|].
    destruct (negb _); [discriminate|]. injection E as <-. rewrite fin_substs. exact (proj2 (remove_symbols_sts _ _)).
  - apply K. eapply fin_insert_freely. exact E.
  - apply K. unfold insert_freely_graph in E. destruct (insert_freely _ 0 g) as [g1| | |] eqn:E1; try discriminate. cbn [rbind] in E.
    destruct (substitute_graph _ h g1) as [g2| | |] eqn:E2; try discriminate. injection E as <-.
    apply fin_insert_freely in E1. apply fin_substitute_graph in E2. cbn [fin remove_symbol with_alpha]. congruence.
  - unfold disjunct in E. destruct (disjunct_path g l 0) as [[g1 s]| | |] eqn:E1; try discriminate. apply fin_disjunct_path in E1.
    cbn [rmap] in E. injection E as <-. assert (M1 : map_ok g1) by (unfold map_ok; rewrite E1; exact H).
    destruct (finw g1 s) as [old|]; [destruct (_ <? _)%Z; [exact M1|]|]; apply map_ok_mset; exact M1.
  - apply K. unfold complete in E. destruct (add_state g) as [g1 fl] eqn:Ea. injection Ea as <- <-.
    destruct (complete_states _ _ _); try discriminate. injection E as <-. reflexivity.
  - apply K. unfold flag_purge. exact (proj2 (remove_symbols_sts _ _)).
  - apply K. unfold insert_transducer, add_state. rewrite fin_add_transition, fin_leave_arcs, fin_copy_arcs. reflexivity.
  - unfold swap_state_numbers in E. destruct (negb _); [discriminate|]. destruct (_ && _); [discriminate|]. injection E as <-.
    unfold map_ok. cbn [fin]. unfold swap_finals. destruct (mget Nat.compare s1 (fin g)), (mget Nat.compare s2 (fin g));
      repeat first [apply map_ok_mset | apply map_ok_mdel]; exact H.
Qed.

(** * Inserting a transducer freely *)
Definition MM : bstr * bstr := (MARKER, MARKER).
Lemma inserted_replaced h l : ~ In MM l -> forall l' w,
  (exists l1 u1 u2, inserted_path (fun m x => exists p, In p [MM] /\ m = [p] /\ x = 0%Z) l l1 u1 /\
     replaced_path (fun q => if pair_eqb q MM then Some h else None) l1 l' u2 /\ w = (u1 + u2)%Z) <->
  inserted_path (padded h) l l' w.
Proof.
  intros N l' w. split.
  - intros (l1 & u1 & u2 & I & R & ->). revert l' u2 R N. induction I as [|q l l1 u1 I IH|m x l l1 u1 (p & Hp & -> & ->) I IH]; intros l' u2 R N.
    + inversion R; subst. constructor.
    + inversion R as [|q' l0 l0' w0 Eq R'|q' h' m v l0 l0' w0 Eq P R']; subst.
      * constructor. apply IH; [exact R'|]. intros K; apply N; right; exact K.
      * destruct (pair_eqb q MM) eqn:E; [|discriminate]. apply pair_eqb_eq in E. exfalso. apply N. left. exact E.
    + destruct Hp as [<-|[]]. inversion R as [|q' l0 l0' w0 Eq R'|q' h' m v l0 l0' w0 Eq P R']; subst.
      * vm_compute in Eq. discriminate.
      * rewrite (proj2 (pair_eqb_eq MM MM) eq_refl) in Eq. injection Eq as <-.
        replace (0 + u1 + (v + w0))%Z with (v + (u1 + w0))%Z by lia. constructor; [exact P|]. apply IH; assumption.
  - intros I. induction I as [|q l l' u I IH|m x l l' u P I IH].
    + exists [], 0%Z, 0%Z. repeat constructor.
    + destruct IH as (l1 & u1 & u2 & I1 & R & ->); [intros K; apply N; right; exact K|].
      exists (q :: l1), u1, u2. split; [constructor; exact I1|]. split; [|reflexivity]. constructor; [|exact R].
      destruct (pair_eqb q MM) eqn:E; [|reflexivity]. apply pair_eqb_eq in E. exfalso. apply N. left. exact E.
    + destruct (IH N) as (l1 & u1 & u2 & I1 & R & ->). exists (MM :: l1), (0 + u1)%Z, (x + u2)%Z. split; [|split; [|lia]].
      * apply (ins_more _ [MM] 0%Z l l1 u1); [|exact I1]. exists MM. simpl. auto.
      * apply (rpl_subst _ MM h m x l1 l' u2); [|exact P|exact R]. rewrite (proj2 (pair_eqb_eq MM MM) eq_refl). reflexivity.
Qed.
Lemma run_used g s l w t p : run g s l w t -> In p l -> used g (fst p) /\ used g (snd p).
Proof.
  intros R. induction R as [s|s a l w t Ha R IH]; [intros []|]. intros [<-|H]; [|auto]. split; exists s, a; simpl; auto.
Qed.
Lemma existsb_false {A} (f : A -> bool) l : existsb f l = false <-> forall x, In x l -> f x = false.
Proof.
  split.
  - intros H x Hx. destruct (f x) eqn:E; [|reflexivity]. exfalso. apply not_true_iff_false in H. apply H. apply existsb_exists. eauto.
  - intros H. apply not_true_iff_false. intros K. apply existsb_exists in K. destruct K as (x & Hx & E). rewrite H in E by exact Hx. discriminate.
Qed.
Lemma substitute_graph_accepts p h g : structure_ok g -> map_ok h -> structure_ok h ->
  valid_pair p = true -> smem bcmp (fst p) (alpha g) = true \/ smem bcmp (snd p) (alpha g) = true ->
  (forall s, length (matches p (arcs g s)) <= 1) ->
  exists g', substitute_graph p h g = Ok g' /\
    forall l' w, accepts g' l' w <-> exists l v u, accepts g l v /\ replaced_path (fun q => if pair_eqb q p then Some h else None) l l' u /\ w = (v + u)%Z.
Proof.
  intros G Mh Sh V A U. unfold substitute_graph. rewrite V. cbn [negb].
  assert (E1 : negb (smem bcmp (fst p) (alpha g)) && negb (smem bcmp (snd p) (alpha g)) = false).
  { destruct A as [A|A]; rewrite A; simpl; [reflexivity|apply andb_false_r]. }
  rewrite E1.
  assert (E2 : existsb (fun l => 2 <=? length (matches p l)) (sts g) = false).
  { apply existsb_false. intros l Hl. apply (In_nth _ _ []) in Hl. destruct Hl as (s & _ & <-). apply Nat.leb_gt. specialize (U s). unfold arcs in U. lia. }
  rewrite E2. eexists. split; [reflexivity|]. intros l' w.
  apply (accepts_substs (fun q => if pair_eqb q p then Some h else None) (fun a => if pair_eqb (label a) p then Some h else None)).
  - exact G.
  - reflexivity.
  - cbn [sts with_sts]. apply map_length.
  - reflexivity.
  - intros a h' _ E. destruct (pair_eqb _ _); [|discriminate]. injection E as <-. auto.
  - intros s a. unfold arcs at 1. cbn [sts with_sts]. rewrite nth_map_nil by reflexivity. rewrite filter_In. fold (arcs g s).
    destruct (pair_eqb (label a) p); simpl; split; intros [? ?]; split; auto; discriminate.
Qed.
Lemma insert_freely_sts ps w g g' : insert_freely ps w g = Ok g' ->
  sts g' = add_loops ps w 0 (sts g) /\ alpha g' = alpha (add_pairs g ps).
Proof.
  unfold insert_freely. destruct (existsb _ _); [discriminate|]. intros E. injection E as <-. cbn [sts alpha with_sts].
  rewrite (proj1 (add_pairs_sts g ps)). auto.
Qed.
Lemma insert_freely_graph_accepts h g : structure_ok g -> map_ok h -> structure_ok h -> ~ used g MARKER ->
  exists g', insert_freely_graph h g = Ok g' /\
    forall l' w, accepts g' l' w <-> exists l v u, accepts g l v /\ inserted_path (padded h) l l' u /\ w = (v + u)%Z.
Proof.
  intros G Mh Sh U. unfold insert_freely_graph.
  destruct (insert_freely [(MARKER, MARKER)] 0 g) as [g1| | |] eqn:E1; try (vm_compute in E1; discriminate). cbn [rbind].
  pose proof (structure_insert_freely _ _ _ _ G E1) as G1.
  assert (A1 : forall s, s < length (sts g) -> arcs g1 s = arcs g s ++ [Arc s MARKER MARKER 0]).
  { intros s Hs. unfold arcs at 1. rewrite (proj1 (insert_freely_sts _ _ _ _ E1)), add_loops_nth. apply Nat.ltb_lt in Hs. rewrite Hs. reflexivity. }
  assert (L1 : length (sts g1) = length (sts g)).
  { rewrite (proj1 (insert_freely_sts _ _ _ _ E1)). apply add_loops_length. }
  destruct (substitute_graph_accepts (MARKER, MARKER) h g1 G1 Mh Sh eq_refl) as (g2 & E2 & H2).
  - left. apply (smem_In bcmp bcmp_eq). rewrite (proj2 (insert_freely_sts _ _ _ _ E1)). apply add_pairs_alpha. left. exists (MARKER, MARKER). simpl. auto.
  - intros s. destruct (Nat.lt_ge_cases s (length (sts g))) as [Hs|Hs].
    + rewrite A1 by exact Hs. unfold matches. rewrite filter_app, app_length.
      replace (filter (fun a => pair_eqb (label a) (MARKER, MARKER)) (arcs g s)) with (@nil arc); [reflexivity|].
      symmetry. assert (K : forall l, (forall a, In a l -> pair_eqb (label a) (MARKER, MARKER) = false) -> filter (fun a => pair_eqb (label a) (MARKER, MARKER)) l = []).
      { induction l as [|a l IH]; intros K; [reflexivity|]. cbn [filter]. rewrite K by (left; reflexivity). apply IH. intros b Hb. apply K. right. exact Hb. }
      apply K. intros a Ha. apply pair_eqb_neq. intros Q. apply U. exists s, a. split; [exact Ha|]. injection Q as Q _. auto.
    + unfold arcs. rewrite nth_overflow by lia. simpl. lia.
  - rewrite E2. cbn [rmap]. eexists. split; [reflexivity|]. intros l' w. rewrite (accepts_ext g2 (remove_symbol g2 MARKER) eq_refl eq_refl), H2.
    assert (F1 : fin g1 = fin g) by (eapply fin_insert_freely; exact E1).
    assert (K : forall l v, accepts g1 l v <-> exists l0 v0 u, accepts g l0 v0 /\
        inserted_path (fun m x => exists p, In p [(MARKER, MARKER)] /\ m = [p] /\ x = 0%Z) l0 l u /\ v = (v0 + u)%Z).
    { intros l v. unfold accepts at 1. rewrite F1. split.
      - intros (t & v1 & f & R & Hf & ->). apply (run_inserted _ _ _ _ G E1 _ _ _ _ (structure_zero g G)) in R.
        destruct R as (l0 & v0 & u & R & I & ->). exists l0, (v0 + f)%Z, u. split; [exists t, v0, f; auto|]. split; [exact I|lia].
      - intros (l0 & v0 & u & (t & v1 & f & R & Hf & ->) & I & ->). exists t, (v1 + u)%Z, f. split; [|split; [exact Hf|lia]].
        apply (run_inserted _ _ _ _ G E1 _ _ _ _ (structure_zero g G)). exists l0, v1, u. auto. }
    assert (NM : forall l v, accepts g l v -> ~ In MM l).
    { intros l v (t & v1 & f & R & _) Q. apply (run_used _ _ _ _ _ MM R) in Q. apply U. apply Q. }
    split.
    + intros (l1 & v & u & A & R & ->). apply K in A. destruct A as (l0 & v0 & u1 & A & I & ->). exists l0, v0, (u1 + u)%Z. split; [exact A|]. split; [|lia].
      apply inserted_replaced; [eapply NM; exact A|]. exists l1, u1, u. auto.
    + intros (l & v & u & A & I & ->). apply inserted_replaced in I; [|eapply NM; exact A]. destruct I as (l1 & u1 & u2 & I & R & ->).
      exists l1, (v + u1)%Z, u2. split; [|split; [exact R|lia]]. apply K. exists l, v, u1. auto.
Qed.

(** * complete *)
Lemma complete_inv g g' : complete g = Ok g' ->
  fin g' = fin g /\ alpha g' = alpha g /\ length (sts g') = S (length (sts g)) /\
  forall s, s <= length (sts g) -> exists mi, arcs g' s = arcs g s ++ map (fun x => Arc (length (sts g)) x x 0) mi /\
    (forall a, In a (arcs g s) -> isy a = osy a) /\
    (forall x, In x mi <-> In x (alpha g) /\ (forall a, In a (arcs g s) -> isy a <> x) /\ is_special_symbol x = false).
Proof.
  intros E. unfold complete in E. destruct (add_state g) as [g1 fl] eqn:Ea. injection Ea as <- <-.
  destruct (complete_states _ _ _) as [ls| | |] eqn:E1; try discriminate. cbn [rmap] in E. injection E as <-.
  destruct (complete_states_spec _ _ _ _ E1) as [L A]. cbn [sts with_sts alpha fin] in *. rewrite app_length in *. simpl in L.
  split; [reflexivity|]. split; [reflexivity|]. split; [lia|]. intros s Hs. specialize (A s ltac:(simpl; lia)).
  apply complete_state_In in A. rewrite (nth_app_nil (sts g) 1 s : nth s (sts g ++ [[]]) [] = nth s (sts g) []) in A. exact A.
Qed.
Lemma complete_failure_run g g' : complete g = Ok g' -> forall s l w t, run g' s l w t -> s = length (sts g) -> t = length (sts g).
Proof.
  intros E. destruct (complete_inv _ _ E) as (_ & _ & L & A). intros s l w t R. induction R as [s|s a l w t Ha R IH]; [auto|]. intros ->. apply IH.
  destruct (A _ (le_n _)) as (mi & Em & _). change (In a (arcs g' (length (sts g)))) in Ha. rewrite Em in Ha.
  replace (arcs g (length (sts g))) with (@nil arc) in Ha by (symmetry; unfold arcs; apply nth_overflow; lia).
  simpl in Ha. apply in_map_iff in Ha. destruct Ha as (x & <- & _). reflexivity.
Qed.
Lemma complete_run g g' : structure_ok g -> complete g = Ok g' -> forall s l w t, s < length (sts g) -> t < length (sts g) ->
  (run g' s l w t <-> run g s l w t).
Proof.
  intros G E. destruct (complete_inv _ _ E) as (_ & _ & L & A). intros s l w t Hs Ht. split.
  - intros R. induction R as [s|s a l w t Ha R IH]; [constructor|]. destruct (A s ltac:(lia)) as (mi & Em & _).
    change (In a (arcs g' s)) in Ha. rewrite Em in Ha. apply in_app_iff in Ha. destruct Ha as [Ha|Ha].
    + constructor; [exact Ha|]. apply IH; [|exact Ht]. exact (proj1 (proj2 G) s a Ha).
    + apply in_map_iff in Ha. destruct Ha as (x & <- & _). apply (complete_failure_run _ _ E) in R; [|reflexivity]. lia.
  - intros R. induction R as [s|s a l w t Ha R IH]; [constructor|]. constructor.
    + destruct (A s ltac:(lia)) as (mi & Em & _). change (In a (arcs g' s)). rewrite Em. apply in_app_iff. auto.
    + apply IH; [|exact Ht]. exact (proj1 (proj2 G) s a Ha).
Qed.
Lemma complete_states_throw fl al : forall ls, (exists ls', complete_states fl al ls = Ok ls') \/ complete_states fl al ls = Throw.
Proof.
  induction ls as [|l ls IH]; simpl; [left; eauto|].
  unfold complete_state. destruct (existsb _ l); [right; reflexivity|]. destruct (existsb _ (filter _ _)); [right; reflexivity|]. cbn [rbind].
  destruct IH as [[ls' ->]| ->]; [left; simpl; eauto|right; reflexivity].
Qed.
Lemma complete_states_throw_iff fl al : ~ In [] al -> forall ls, complete_states fl al ls = Throw <->
  exists s a, In a (nth s ls []) /\ isy a <> osy a.
Proof.
  intros N. induction ls as [|l ls IH]; cbn [complete_states].
  - split; [discriminate|]. intros ([|s] & a & [] & _).
  - unfold complete_state. destruct (existsb _ l) eqn:E1.
    + split; [intros _|reflexivity]. apply existsb_exists in E1. destruct E1 as (a & Ha & E1). exists 0, a. split; [exact Ha|].
      apply negb_true_iff, bstr_eqb_neq in E1. exact E1.
    + assert (E2 : existsb (fun x => negb (is_valid_symbol x)) (filter (fun x => negb (existsb (fun a => bstr_eqb (isy a) x) l) && negb (is_special_symbol x)) al) = false).
      { apply existsb_false. intros x Hx. apply filter_In in Hx. destruct x; [exfalso; apply N; tauto|reflexivity]. }
      rewrite E2. cbn [rbind]. rewrite existsb_false in E1. split.
      * destruct (complete_states_throw fl al ls) as [[ls' E]|E]; rewrite E; [discriminate|]. intros _. apply IH in E. destruct E as (s & a & H). exists (S s), a. exact H.
      * intros ([|s] & a & Ha & Ne).
        -- exfalso. apply E1 in Ha. apply negb_false_iff, bstr_eqb_eq in Ha. contradiction.
        -- rewrite (proj2 IH); [reflexivity|]. exists s, a. auto.
Qed.

(** * disjunct *)
(** Tree shape: every state is entered by at most one transition, from a smaller
    state; labels leaving a state differ; weights are zero. *)
Definition tree (g : graph) : Prop :=
  structure_ok g /\
  (forall s a, In a (arcs g s) -> s < tgt a /\ wt a = 0%Z) /\
  (forall s s' a b, In a (arcs g s) -> In b (arcs g s') -> tgt a = tgt b -> s = s' /\ a = b) /\
  (forall s a b, In a (arcs g s) -> In b (arcs g s) -> label a = label b -> a = b) /\
  (forall s, NoDup (arcs g s)).
Lemma run_snoc g s l w t : run g s l w t -> l = [] /\ s = t \/ exists l1 u a, l = l1 ++ [label a] /\ In a (arcs g u) /\ tgt a = t /\ exists w1, run g s l1 w1 u.
Proof.
  intros R. induction R as [s|s a l w t Ha R IH]; [left; auto|]. right. destruct IH as [(-> & <-)|(l1 & u & b & -> & Hb & <- & w1 & R1)].
  - exists [], s, a. split; [reflexivity|]. split; [exact Ha|]. split; [reflexivity|]. exists 0%Z. constructor.
  - exists (label a :: l1), u, b. split; [reflexivity|]. split; [exact Hb|]. split; [reflexivity|]. exists (wt a + w1)%Z. constructor; assumption.
Qed.
Lemma tree_run_mono g s l w t : tree g -> run g s l w t -> s + length l <= t.
Proof. intros (_ & P & _) R. induction R as [s|s a l w t Ha R IH]; simpl; [lia|]. apply P in Ha. lia. Qed.
Lemma tree_run_unique g t : tree g -> forall l l' w w', run g 0 l w t -> run g 0 l' w' t -> l = l'.
Proof.
  intros T. induction t as [t IH] using lt_wf_ind. intros l l' w w' R R'. pose proof T as (_ & P & I & D & _).
  pose proof (run_snoc _ _ _ _ _ R) as [(-> & E)|(l1 & u & a & -> & Ha & Et & w1 & R1)];
  pose proof (run_snoc _ _ _ _ _ R') as [(-> & E')|(l2 & u' & b & -> & Hb & Et' & w2 & R2)].
  - reflexivity.
  - apply P in Hb. lia.
  - apply P in Ha. lia.
  - destruct (I u u' a b Ha Hb ltac:(lia)) as [<- <-]. f_equal. eapply (IH u); [apply P in Ha; lia|exact R1|exact R2].
Qed.
Lemma tree_run_weight g s l w t : tree g -> run g s l w t -> w = 0%Z.
Proof. intros (_ & P & _) R. induction R as [s|s a l w t Ha R IH]; [reflexivity|]. apply P in Ha. lia. Qed.
Lemma tree_run_det g : tree g -> forall l s w w' t t', run g s l w t -> run g s l w' t' -> t = t'.
Proof.
  intros T l. induction l as [|p l IH]; intros s w w' t t' R R'; inversion R as [|s1 a l1 w1 t1 Ha R1]; subst;
    inversion R' as [|s2 b l2 w2 t2 Hb R2]; subst; [reflexivity|].
  assert (a = b) by (apply (proj1 (proj2 (proj2 (proj2 T))) s a b Ha Hb); unfold label; congruence). subst b. eapply IH; eassumption.
Qed.
Lemma tree_empty : tree empty_graph.
Proof.
  assert (N : forall s, arcs empty_graph s = []) by (intros [|[|s]]; reflexivity).
  split; [|split; [|split; [|split]]].
  - split; [discriminate|]. split; [|discriminate]. intros s a. fold (arcs empty_graph s). rewrite N. intros [].
  - intros s a. rewrite N. intros [].
  - intros s s' a b. rewrite N. intros [].
  - intros s a b. rewrite N. intros [].
  - intros s. rewrite N. constructor.
Qed.
(** Adding one fresh leaf. *)
Lemma tree_leaf g s p : tree g -> s < length (sts g) -> find (fun a => pair_eqb (label a) p) (arcs g s) = None ->
  let g' := add_transition (fst (add_state g)) s (Arc (length (sts g)) (fst p) (snd p) 0) true in
  tree g' /\ length (sts g') = S (length (sts g)) /\ fin g' = fin g /\ run g' s [p] 0 (length (sts g)) /\
  (forall u l w t, t < length (sts g) -> (run g' u l w t <-> run g u l w t)).
Proof.
  intros T Hs F g'. pose proof T as (G & P & I & D & ND). set (n := length (sts g)) in *.
  assert (A : forall t, arcs g' t = if t =? s then arcs g s ++ [Arc n (fst p) (snd p) 0] else arcs g t).
  { intros t. unfold g'. rewrite arcs_add_transition, !arcs_add_state. reflexivity. }
  assert (In' : forall t a, In a (arcs g' t) <-> In a (arcs g t) \/ t = s /\ a = Arc n (fst p) (snd p) 0).
  { intros t a. rewrite A. destruct (Nat.eqb_spec t s) as [->|Nt]; [rewrite in_app_iff; simpl; intuition|intuition]. }
  assert (Old : forall t a, In a (arcs g t) -> tgt a < n) by (intros t a Ha; exact (proj1 (proj2 G) t a Ha)).
  assert (NF : forall a, In a (arcs g s) -> label a <> p).
  { intros a Ha E. apply (find_none _ _ F) in Ha. apply pair_eqb_neq in Ha. contradiction. }
  assert (T' : tree g').
  { split; [apply structure_add_transition, structure_add_state; exact G|]. split; [|split; [|split]].
    - intros t a Ha. apply In' in Ha. destruct Ha as [Ha|[-> ->]]; [exact (P t a Ha)|]. simpl. split; [exact Hs|reflexivity].
    - intros t t' a b Ha Hb E. apply In' in Ha, Hb. destruct Ha as [Ha|[-> ->]], Hb as [Hb|[-> ->]].
      + exact (I t t' a b Ha Hb E).
      + apply Old in Ha. simpl in E. lia.
      + apply Old in Hb. simpl in E. lia.
      + auto.
    - intros t a b Ha Hb E. apply In' in Ha, Hb. destruct Ha as [Ha|[-> ->]], Hb as [Hb|[Et ->]]; subst.
      + exact (D t a b Ha Hb E).
      + exfalso. apply (NF a Ha). destruct p. exact E.
      + exfalso. apply (NF b Hb). destruct p. symmetry. exact E.
      + reflexivity.
    - intros t. rewrite A. destruct (t =? s); [|apply ND]. rewrite <- (rev_involutive (arcs g s ++ _)). apply NoDup_rev. rewrite rev_app_distr.
      simpl. constructor; [|apply NoDup_rev; apply ND]. rewrite <- in_rev. intros K. apply Old in K. simpl in K. lia. }
  split; [exact T'|]. split.
  { unfold g'. rewrite length_add_transition. cbn [add_state fst with_sts sts tgt]. rewrite app_length. simpl. fold n. lia. }
  split; [reflexivity|]. split.
  { pose proof (run_cons g' s (Arc n (fst p) (snd p) 0) [] 0 n) as K. cbn [isy osy wt tgt] in K. rewrite <- surjective_pairing in K. apply K; [|constructor].
    apply In'. auto. }
  intros u l w t Ht. split.
  - intros R. induction R as [u|u a l w t Ha R IH]; [constructor|]. apply In' in Ha. destruct Ha as [Ha|[-> ->]].
    + constructor; [exact Ha|apply IH; exact Ht].
    + apply (tree_run_mono g') in R; [|exact T']. cbn [tgt] in R. lia.
  - intros R. induction R as [u|u a l w t Ha R IH]; [constructor|]. constructor; [apply In'; auto|apply IH; exact Ht].
Qed.
Lemma disjunct_path_tree l : forall g s, tree g -> s < length (sts g) -> forallb valid_pair l = true ->
  exists g' s', disjunct_path g l s = Ok (g', s') /\ tree g' /\ length (sts g) <= length (sts g') /\ s' < length (sts g') /\
    fin g' = fin g /\ run g' s l 0 s' /\ (forall u l w t, t < length (sts g) -> (run g' u l w t <-> run g u l w t)).
Proof.
  induction l as [|p l IH]; intros g s T Hs V; cbn [disjunct_path].
  - exists g, s. split; [reflexivity|]. split; [exact T|]. split; [lia|]. split; [exact Hs|]. split; [reflexivity|]. split; [constructor|tauto].
  - cbn [forallb] in V. apply andb_true_iff in V. destruct V as [V1 V2]. destruct (find _ _) as [a|] eqn:F.
    + apply find_some in F. destruct F as [Ha Ep]. apply pair_eqb_eq in Ep. subst p.
      assert (Ht : tgt a < length (sts g)) by exact (proj1 (proj2 (proj1 T)) s a Ha).
      destruct (IH g (tgt a) T Ht V2) as (g' & s' & E & T' & L & Hs' & Ef & R & A). exists g', s'. split; [exact E|]. split; [exact T'|]. split; [exact L|].
      split; [exact Hs'|]. split; [exact Ef|]. split; [|exact A].
      assert (W : wt a = 0%Z) by apply (proj1 (proj2 T) s a Ha).
      assert (Ra : run g s [label a] (wt a + 0) (tgt a)) by (constructor; [exact Ha|constructor]).
      apply A in Ra; [|exact Ht]. rewrite W in Ra. exact (run_app _ _ _ _ _ _ _ _ Ra R).
    + rewrite V1. cbn [negb]. destruct (tree_leaf g s p T Hs F) as (T1 & L1 & F1 & R1 & A1).
      change (let '(g1, n) := add_state g in disjunct_path (add_transition g1 s (Arc n (fst p) (snd p) 0) true) l n)
        with (disjunct_path (add_transition (fst (add_state g)) s (Arc (length (sts g)) (fst p) (snd p) 0) true) l (length (sts g))).
      set (g1 := add_transition (fst (add_state g)) s (Arc (length (sts g)) (fst p) (snd p) 0) true) in *.
      destruct (IH g1 (length (sts g)) T1 ltac:(lia) V2) as (g' & s' & E & T' & L & Hs' & Ef & R & A). exists g', s'. split; [exact E|]. split; [exact T'|].
      split; [lia|]. split; [exact Hs'|]. split; [congruence|]. split.
      * apply A in R1; [|lia]. exact (run_app _ _ _ _ _ _ _ _ R1 R).
      * intros u m w t Ht. rewrite A by lia. apply A1. exact Ht.
Qed.
Lemma tree_fin g f : tree g -> (forall s w, mget Nat.compare s f = Some w -> s < length (sts g)) -> tree (with_fin g f).
Proof. intros ((G1 & G2 & G3) & T) H. split; [|exact T]. split; [exact G1|]. split; [exact G2|exact H]. Qed.
Lemma set_final_in_range g s w : s < length (sts g) -> set_final_weight g s w = with_fin g (mset Nat.compare s w (fin g)).
Proof.
  intros H. unfold set_final_weight, add_state_n, with_fin, with_sts. cbn [sts fin alpha]. replace (S s - length (sts g)) with 0 by lia.
  simpl. rewrite app_nil_r. reflexivity.
Qed.
Lemma disjunct_accepts g l w : tree g -> forallb valid_pair l = true ->
  exists g', disjunct g l w = Ok g' /\ tree g' /\
    (forall l' w', l' <> l -> (accepts g' l' w' <-> accepts g l' w')) /\
    (forall w', accepts g' l w' <-> (forall v, accepts g l v -> w' = Z.min v w) /\ ((forall v, ~ accepts g l v) -> w' = w)).
Proof.
  intros T V. destruct (disjunct_path_tree l g 0 T (structure_zero g (proj1 T)) V) as (g1 & s & E & T1 & L & Hs & Ef & R & A).
  unfold disjunct. rewrite E. cbn [rmap].
  assert (B1 : forall l' w', accepts g1 l' w' <-> accepts g l' w').
  { intros l' w'. unfold accepts. rewrite Ef. split; intros (t & v & f & R' & Hf & ->); exists t, v, f; (split; [|auto]);
      apply (A 0 l' v t); try exact R'; exact (proj2 (proj2 (proj1 T)) t f Hf). }
  set (f' := mset Nat.compare s w (fin g1)).
  assert (T2 : tree (with_fin g1 f')).
  { apply tree_fin; [exact T1|]. intros u x Hx. destruct (Nat.eq_dec u s) as [->|Nu]; [exact Hs|].
    unfold f' in Hx. rewrite (mget_mset_other Nat.compare Nat.compare_eq_iff) in Hx by exact Nu. exact (proj2 (proj2 (proj1 T1)) u x Hx). }
  assert (Q : forall l' v t, run g1 0 l' v t -> (t = s <-> l' = l)).
  { intros l' v t R'. split.
    - intros ->. exact (tree_run_unique g1 s T1 _ _ _ _ R' R).
    - intros ->. exact (tree_run_det g1 T1 _ _ _ _ _ _ R' R). }
  assert (Acc : forall v, accepts g l v <-> finw g1 s = Some v).
  { intros v. rewrite <- B1. split.
    - intros (t & v1 & f & R' & Hf & ->). pose proof (tree_run_weight _ _ _ _ _ T1 R') as ->. apply (tree_run_det _ T1 _ _ _ _ _ _ R) in R'. subst t. exact Hf.
    - intros Hf. exists s, 0%Z, v. auto. }
  assert (B2 : (forall l' w', l' <> l -> (accepts (with_fin g1 f') l' w' <-> accepts g l' w')) /\
               (forall w', accepts (with_fin g1 f') l w' <-> w' = w)).
  { split.
    - intros l' w' N. rewrite <- B1. unfold accepts. cbn [fin with_fin]. split; intros (t & v & f & R' & Hf & ->); exists t, v, f.
      + apply (run_ext g1 (with_fin g1 f') eq_refl) in R'. split; [exact R'|]. split; [|reflexivity].
        unfold f' in Hf. rewrite (mget_mset_other Nat.compare Nat.compare_eq_iff) in Hf; [exact Hf|]. intros K; apply N; apply (Q _ _ _ R'); exact K.
      + split; [apply (run_ext g1 (with_fin g1 f') eq_refl); exact R'|]. split; [|reflexivity].
        unfold f'. rewrite (mget_mset_other Nat.compare Nat.compare_eq_iff); [exact Hf|]. intros K; apply N; apply (Q _ _ _ R'); exact K.
    - intros w'. unfold accepts. cbn [fin with_fin]. split.
      + intros (t & v & f & R' & Hf & ->). apply (run_ext g1 (with_fin g1 f') eq_refl) in R'. pose proof (tree_run_weight _ _ _ _ _ T1 R') as ->.
        apply (tree_run_det _ T1 _ _ _ _ _ _ R) in R'. subst t. unfold f' in Hf. rewrite (mget_mset_same Nat.compare Nat.compare_eq_iff) in Hf.
        injection Hf as ->. reflexivity.
      + intros ->. exists s, 0%Z, w. split; [apply (run_ext g1 (with_fin g1 f') eq_refl); exact R|]. split; [|reflexivity]. apply (mget_mset_same Nat.compare Nat.compare_eq_iff). }
  destruct (finw g1 s) as [old|] eqn:Fs.
  - destruct (Z.ltb_spec old w) as [C|C].
    + exists g1. split; [reflexivity|]. split; [exact T1|]. split; [intros; apply B1|]. intros w'. rewrite B1, Acc. split.
      * intros Hw. injection Hw as <-. split; [intros v Hv; apply Acc in Hv; injection Hv as <-; lia|].
        intros K. exfalso. apply (K old). apply Acc. reflexivity.
      * intros [K _]. rewrite (K old); [f_equal; lia|]. apply Acc. reflexivity.
    + rewrite set_final_in_range by exact Hs. exists (with_fin g1 f'). split; [reflexivity|]. split; [exact T2|]. split; [apply B2|]. intros w'. rewrite (proj2 B2). split.
      * intros ->. split; [intros v Hv; apply Acc in Hv; injection Hv as <-; lia|reflexivity].
      * intros [K _]. rewrite (K old); [lia|]. apply Acc. reflexivity.
  - rewrite set_final_in_range by exact Hs. exists (with_fin g1 f'). split; [reflexivity|]. split; [exact T2|]. split; [apply B2|]. intros w'. rewrite (proj2 B2). split.
    + intros ->. split; [|reflexivity]. intros v Hv. apply Acc in Hv. discriminate.
    + intros [_ K]. apply K. intros v Hv. apply Acc in Hv. discriminate.
Qed.

(** * Sorting *)
Lemma insert_sorted_perm num a l : Permutation (a :: l) (insert_sorted num a l).
Proof.
  induction l as [|b l IH]; cbn [insert_sorted]; [apply Permutation_refl|]. destruct (arc_lt num b a); [|apply Permutation_refl].
  eapply perm_trans; [apply perm_swap|]. apply perm_skip. exact IH.
Qed.
Lemma std_sort_perm num l : Permutation l (std_sort num l).
Proof.
  induction l as [|a l IH]; cbn [std_sort fold_right]; [constructor|]. eapply perm_trans; [apply perm_skip; exact IH|]. apply insert_sorted_perm.
Qed.
Section ArcLt.
  Variable num : bstr -> nat.
  Definition key_lt (a b : arc) : Prop :=
    tgt a < tgt b \/ tgt a = tgt b /\ (num (isy a) < num (isy b) \/ num (isy a) = num (isy b) /\
      (num (osy a) < num (osy b) \/ num (osy a) = num (osy b) /\ (wt a < wt b)%Z)).
  Lemma arc_lt_iff a b : arc_lt num a b = true <-> key_lt a b.
  Proof.
    unfold arc_lt, data_lt, key_lt. destruct (Nat.eqb_spec (tgt a) (tgt b)) as [E|N].
    - destruct (Nat.ltb_spec (num (isy a)) (num (isy b))); [split; [intros; right; split; [exact E|left; assumption]|reflexivity]|].
      destruct (Nat.ltb_spec (num (isy b)) (num (isy a))); [split; [discriminate|intros K; lia]|].
      destruct (Nat.ltb_spec (num (osy a)) (num (osy b))); [split; [intros; lia|reflexivity]|].
      destruct (Nat.ltb_spec (num (osy b)) (num (osy a))); [split; [discriminate|intros K; lia]|].
      rewrite Z.ltb_lt. lia.
    - rewrite Nat.ltb_lt. lia.
  Qed.
  Lemma arc_lt_false a b : arc_lt num a b = false <-> ~ key_lt a b.
  Proof. rewrite <- arc_lt_iff. destruct (arc_lt num a b); split; congruence. Qed.
  Lemma std_sort_sorted l : StronglySorted (fun a b => ~ key_lt b a) (std_sort num l).
  Proof.
    induction l as [|a l IH]; cbn [std_sort fold_right]; [constructor|]. fold (std_sort num l). revert IH. generalize (std_sort num l) as m. clear l.
    induction m as [|b m IHm]; intros S; cbn [insert_sorted]; [repeat constructor|].
    inversion S as [|x y S1 S2]; subst. destruct (arc_lt num b a) eqn:E.
    - apply arc_lt_iff in E. constructor; [apply IHm; exact S1|]. apply Forall_forall. intros c Hc. apply insert_sorted_In in Hc. destruct Hc as [->|Hc].
      + unfold key_lt in *. lia.
      + rewrite Forall_forall in S2. apply S2. exact Hc.
    - apply arc_lt_false in E. constructor; [exact S|]. constructor; [exact E|]. eapply Forall_impl; [|exact S2].
      intros c Hc. simpl in Hc. unfold key_lt in *. lia.
  Qed.
  Hypothesis num_inj : forall x y, num x = num y -> x = y.
  Lemma key_total a b : ~ key_lt a b -> ~ key_lt b a -> a = b.
  Proof.
    intros H1 H2. assert (E : tgt a = tgt b /\ num (isy a) = num (isy b) /\ num (osy a) = num (osy b) /\ wt a = wt b) by (unfold key_lt in *; lia).
    destruct E as (E1 & E2 & E3 & E4). apply num_inj in E2, E3. destruct a, b. simpl in *. congruence.
  Qed.
  Lemma sorted_unique : forall l l', Permutation l l' -> StronglySorted (fun a b => ~ key_lt b a) l -> StronglySorted (fun a b => ~ key_lt b a) l' -> l = l'.
  Proof.
    induction l as [|a l IH]; intros l' P S S'; [apply Permutation_nil in P; auto|]. destruct l' as [|b l']; [apply Permutation_sym, Permutation_nil in P; discriminate|].
    inversion S as [|x y S1 S2]; subst. inversion S' as [|x y S1' S2']; subst. rewrite Forall_forall in S2, S2'.
    assert (E : a = b).
    { assert (Ha : In a (b :: l')) by (eapply Permutation_in; [exact P|left; reflexivity]).
      assert (Hb : In b (a :: l)) by (eapply Permutation_in; [apply Permutation_sym; exact P|left; reflexivity]).
      destruct Ha as [Ha|Ha]; [auto|]. destruct Hb as [Hb|Hb]; [auto|]. apply S2' in Ha. apply S2 in Hb. apply key_total; assumption. }
    subst b. f_equal. apply IH; [eapply Permutation_cons_inv; exact P|exact S1|exact S1'].
  Qed.
End ArcLt.

(** * Swapping *)
Definition swp (s1 s2 s : nat) : nat := if s =? s1 then s2 else if s =? s2 then s1 else s.
Lemma swap_target_swp s1 s2 t : swap_target s1 s2 t = swp s1 s2 t.
Proof. unfold swap_target, swp. destruct (Nat.eqb_spec t s2), (Nat.eqb_spec t s1); subst; auto. Qed.
Lemma swp_invol s1 s2 s : swp s1 s2 (swp s1 s2 s) = s.
Proof.
  unfold swp. destruct (Nat.eqb_spec s s1) as [->|N1].
  - destruct (Nat.eqb_spec s2 s1) as [->|]; [reflexivity|]. rewrite Nat.eqb_refl. reflexivity.
  - destruct (Nat.eqb_spec s s2) as [->|N2]; [rewrite Nat.eqb_refl; reflexivity|].
    destruct (Nat.eqb_spec s s1); [congruence|]. destruct (Nat.eqb_spec s s2); congruence.
Qed.
Lemma swap_arcs g s1 s2 g' : swap_state_numbers g s1 s2 = Ok g' ->
  forall s, nth (swp s1 s2 s) (sts g') [] = map (fun a => Arc (swp s1 s2 (tgt a)) (isy a) (osy a) (wt a)) (nth s (sts g) []).
Proof.
  unfold swap_state_numbers. destruct (negb _) eqn:B; [discriminate|]. apply negb_false_iff, andb_true_iff in B.
  destruct B as [B1 B2]. apply Nat.ltb_lt in B1, B2. destruct (_ && _); [discriminate|]. intros E. injection E as <-.
  intros s. cbn [sts]. rewrite nth_map_nil by reflexivity.
  assert (K : forall l, map (fun a => Arc (swap_target s1 s2 (tgt a)) (isy a) (osy a) (wt a)) l = map (fun a => Arc (swp s1 s2 (tgt a)) (isy a) (osy a) (wt a)) l).
  { intros l. apply map_ext. intros a. rewrite swap_target_swp. reflexivity. }
  rewrite K. f_equal. unfold swp. destruct (Nat.eqb_spec s s1) as [->|N1]; [rewrite nth_upd_same by (rewrite upd_length; exact B2); reflexivity|].
  destruct (Nat.eqb_spec s s2) as [->|N2].
  - rewrite nth_upd_other by congruence. rewrite nth_upd_same by exact B1. reflexivity.
  - rewrite !nth_upd_other by congruence. reflexivity.
Qed.
Lemma swap_run g s1 s2 g' : swap_state_numbers g s1 s2 = Ok g' ->
  forall s l w t, run g s l w t <-> run g' (swp s1 s2 s) l w (swp s1 s2 t).
Proof.
  intros E. pose proof (swap_arcs _ _ _ _ E) as A. intros s l w t. split.
  - intros R. induction R as [s|s a l w t Ha R IH]; [constructor|].
    apply (run_cons g' (swp s1 s2 s) (Arc (swp s1 s2 (tgt a)) (isy a) (osy a) (wt a))); [|exact IH].
    rewrite A. apply in_map_iff. eauto.
  - intros R. remember (swp s1 s2 s) as s' eqn:Es. remember (swp s1 s2 t) as t' eqn:Et. revert s t Es Et.
    induction R as [s'|s' a l w t' Ha R IH]; intros s t Es Et.
    + assert (s = t) by (rewrite <- (swp_invol s1 s2 s), <- (swp_invol s1 s2 t); congruence). subst. constructor.
    + subst s'. rewrite A in Ha. apply in_map_iff in Ha. destruct Ha as (b & <- & Hb).
      apply (run_cons g s b l w t Hb). apply IH; [reflexivity|exact Et].
Qed.
Lemma swap_fin g s1 s2 g' : swap_state_numbers g s1 s2 = Ok g' -> finw g s1 = None \/ finw g s2 = None ->
  forall s, finw g' (swp s1 s2 s) = finw g s.
Proof.
  intros E F s. unfold swap_state_numbers in E. destruct (negb _); [discriminate|].
  destruct (_ && _) eqn:C; [discriminate|]. injection E as <-. unfold finw in *. cbn [fin]. unfold swap_finals. 
  pose proof (@mget_mset_same nat Z Nat.compare Nat.compare_eq_iff) as MS. pose proof (@mget_mset_other nat Z Nat.compare Nat.compare_eq_iff) as MO.
  pose proof (@mget_mdel_same nat Z Nat.compare) as DS. pose proof (@mget_mdel_other nat Z Nat.compare Nat.compare_eq_iff) as DO.
  unfold is_final_state, finw in C.
  destruct (mget Nat.compare s1 (fin g)) as [w1|] eqn:F1, (mget Nat.compare s2 (fin g)) as [w2|] eqn:F2.
  - destruct F; discriminate.
  - assert (N12 : s1 <> s2) by congruence. unfold swp. destruct (Nat.eqb_spec s s1) as [->|N1]; [rewrite MS; congruence|].
    destruct (Nat.eqb_spec s s2) as [->|N2].
    + rewrite MO by exact N12. rewrite DS. congruence.
    + rewrite MO, DO by congruence. reflexivity.
  - assert (N12 : s1 <> s2) by congruence. unfold swp. destruct (Nat.eqb_spec s s1) as [->|N1]; [rewrite MO, DS by congruence; congruence|].
    destruct (Nat.eqb_spec s s2) as [->|N2].
    + rewrite MS. congruence.
    + rewrite MO, DO by congruence. reflexivity.
  - unfold swp. destruct (Nat.eqb_spec s s1) as [->|N1]; [congruence|]. destruct (Nat.eqb_spec s s2) as [->|N2]; congruence.
Qed.
