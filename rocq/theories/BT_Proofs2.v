(** Symbols and alphabets over histories; exact effects; sorting; swapping; pruning. *)
From Verif Require Import Base Flags_Model BT_Model BT_Spec BT_Proofs.
From Coq Require Import Permutation Sorted.

Definition al_ok (g : graph) : Prop := symbols_ok g /\ specials_ok g.
Lemma specials_iff g : specials_ok g <-> forall x, special x -> In x (alpha g).
Proof.
  unfold specials_ok, special. split.
  - intros (H1 & H2 & H3) x [->|[->| ->]]; assumption.
  - intros H. repeat split; apply H; tauto.
Qed.
Lemma special_reserved x : special x <-> is_reserved x = true.
Proof. unfold special, is_reserved. rewrite !orb_true_iff, !bstr_eqb_eq. unfold EPS, UNK, IDN. tauto. Qed.
Lemma symbols_iff g : symbols_ok g <-> forall x, used g x -> In x (alpha g).
Proof.
  unfold symbols_ok, used. split.
  - intros H x (s & a & Ha & [->| ->]); apply (H s a Ha).
  - intros H s a Ha. split; apply H; exists s, a; tauto.
Qed.
Lemma used_sts g g' : sts g = sts g' -> forall x, used g x <-> used g' x.
Proof. intros E x. unfold used. rewrite E. tauto. Qed.
(** The alphabet of g' has the old one's symbols except those neither special nor used. *)
Lemma al_grow g g' : al_ok g -> (forall x, In x (alpha g) -> special x \/ used g' x -> In x (alpha g')) ->
  (forall x, used g' x -> used g x \/ In x (alpha g')) -> al_ok g'.
Proof.
  intros [H1 H2] A U. pose proof (proj1 (symbols_iff g) H1) as S. pose proof (proj1 (specials_iff g) H2) as P. split.
  - apply symbols_iff. intros x Hx. destruct (U x Hx) as [K|K]; [|exact K]. apply A; [apply S; exact K|tauto].
  - apply specials_iff. intros x Hx. apply A; [apply P; exact Hx|tauto].
Qed.
Lemma al_add_state g : al_ok g -> al_ok (fst (add_state g)).
Proof.
  intros H. apply (al_grow g); [exact H|auto|]. intros x (s & a & Ha & E). left.
  change (nth s (sts (fst (add_state g))) []) with (arcs (fst (add_state g)) s) in Ha. rewrite arcs_add_state in Ha.
  exists s, a. auto.
Qed.
Lemma al_add_state_n g n : al_ok g -> al_ok (add_state_n g n).
Proof.
  intros H. apply (al_grow g); [exact H|auto|]. intros x (s & a & Ha & E). left.
  change (nth s (sts (add_state_n g n)) []) with (arcs (add_state_n g n) s) in Ha. rewrite arcs_add_state_n in Ha.
  exists s, a. auto.
Qed.
Lemma al_add_transition g s a : al_ok g -> al_ok (add_transition g s a true).
Proof.
  intros H. apply (al_grow g); [exact H| |].
  - intros x Hx _. apply In_alpha_add_transition. tauto.
  - intros x (t & b & Hb & E). change (In b (arcs (add_transition g s a true) t)) in Hb. rewrite arcs_add_transition in Hb.
    destruct (t =? s) eqn:Ets; [apply in_app_iff in Hb; destruct Hb as [Hb|[<-|[]]]|].
    + left. apply Nat.eqb_eq in Ets. subst. exists s, b. auto.
    + right. apply In_alpha_add_transition. tauto.
    + left. exists t, b. auto.
Qed.
Lemma al_fold {A} (f : graph -> A -> graph) l : (forall g x, al_ok g -> al_ok (f g x)) ->
  forall g, al_ok g -> al_ok (fold_left f l g).
Proof. intros H. induction l as [|x l IH]; intros g Hg; simpl; auto. Qed.
Lemma al_copy_arcs ls : forall g off k, al_ok g -> al_ok (copy_arcs g off k ls).
Proof.
  induction ls as [|l ls IH]; intros g off k H; simpl; [exact H|]. apply IH. apply al_fold; [|exact H].
  intros g' a Hg. apply al_add_transition. exact Hg.
Qed.
Lemma al_leave_arcs f g off t : al_ok g -> al_ok (leave_arcs g off t f).
Proof. intros H. unfold leave_arcs. apply al_fold; [|exact H]. intros g' [s w] Hg. apply al_add_transition. exact Hg. Qed.
Lemma al_add_substitution g s : al_ok g -> al_ok (add_substitution g s).
Proof.
  intros H. unfold add_substitution. pose proof (al_add_state g H) as H1. destruct (add_state g) as [g1 st].
  apply al_leave_arcs, al_copy_arcs, al_add_transition. exact H1.
Qed.
Lemma al_insert_transducer g s1 s2 h : al_ok g -> al_ok (insert_transducer g s1 s2 h).
Proof.
  intros H. unfold insert_transducer. pose proof (al_add_state g H) as H1. destruct (add_state g) as [g1 st].
  apply al_add_transition, al_leave_arcs, al_copy_arcs. exact H1.
Qed.
Lemma al_same g g' : al_ok g -> alpha g' = alpha g -> (forall x, used g' x -> used g x) -> al_ok g'.
Proof. intros H E U. apply (al_grow g); [exact H|intros x Hx _; rewrite E; exact Hx|]. intros x Hx. left. auto. Qed.
Lemma used_map g g' (f : list arc -> list arc) x : f [] = [] -> sts g' = map f (sts g) ->
  (used g' x <-> exists s a, In a (f (arcs g s)) /\ (x = isy a \/ x = osy a)).
Proof.
  intros E1 E2. unfold used. rewrite E2. split; intros (s & a & Ha & E); exists s, a; (split; [|exact E]);
    rewrite nth_map_nil in * by exact E1; exact Ha.
Qed.
Lemma used_with_sts g0 ls (f : list arc -> list arc) x : f [] = [] ->
  (used (with_sts g0 (map f ls)) x <-> exists s a, In a (f (nth s ls [])) /\ (x = isy a \/ x = osy a)).
Proof.
  intros E1. unfold used. cbn [sts with_sts]. split; intros (s & a & Ha & E); exists s, a; (split; [|exact E]);
    rewrite nth_map_nil in * by exact E1; exact Ha.
Qed.
Lemma prune_after_alpha g xs x : In x (alpha (prune_after g xs)) <-> In x (alpha g) /\ ~ (In x xs /\ ~ used g x).
Proof.
  unfold prune_after. assert (U : forall y, smem bcmp y (symbols_used g) = true <-> used g y).
  { intros y. rewrite (smem_In bcmp bcmp_eq). apply symbols_used_In. }
  revert U. generalize (symbols_used g) as u, (used g) as P. intros u P U. revert g.
  induction xs as [|y xs IH]; intros g; simpl; [tauto|]. destruct (smem bcmp y u) eqn:E.
  - rewrite IH. apply U in E. split; [|tauto]. intros (H1 & H2). split; [exact H1|]. intros ([->|H] & N); tauto.
  - rewrite IH. simpl. rewrite (In_sdel bcmp bcmp_eq).
    assert (N : ~ P y) by (rewrite <- U, E; discriminate). split.
    + intros ((H1 & H2) & H3). split; [exact H2|]. intros ([->|H] & K); [congruence|tauto].
    + intros (H1 & H2). split; [split; [|exact H1]|tauto]. intros ->. tauto.
Qed.
Lemma al_prune_after g xs : al_ok g -> (forall x, In x xs -> ~ special x) -> al_ok (prune_after g xs).
Proof.
  intros H N. pose proof (prune_after_sts g xs) as [E _]. apply (al_grow g); [exact H| |].
  - intros x Hx K. apply prune_after_alpha. split; [exact Hx|]. intros (K1 & K2). destruct K as [K|K]; [exact (N x K1 K)|].
    apply K2. rewrite <- (used_sts _ _ E). exact K.
  - intros x Hx. left. rewrite <- (used_sts _ _ E). exact Hx.
Qed.
Lemma remove_loop_used p : forall l x, (x = fst p \/ x = snd p) -> used_loop p x l = false ->
  (forall l1 a b l2, l = l1 ++ a :: b :: l2 -> label a = p -> isy b <> x /\ osy b <> x) ->
  forall a, In a (remove_loop p l) -> isy a <> x /\ osy a <> x.
Proof.
  fix IH 1. intros [|a l] x Hx E A c; simpl in *; [tauto|]. destruct (pair_eqb (label a) p) eqn:Ep.
  - destruct l as [|b l]; [simpl; tauto|]. apply pair_eqb_eq in Ep. intros [<-|H].
    + apply (A [] a b l); [reflexivity|exact Ep].
    + apply (IH l x Hx E) in H; [exact H|]. intros l1 a' b' l2 -> Ea. apply (A (a :: b :: l1) a' b' l2); [reflexivity|exact Ea].
  - apply orb_false_iff in E. destruct E as [E1 E2]. apply orb_false_iff in E1. destruct E1 as [E0 E1].
    apply bstr_eqb_neq in E0, E1. intros [<-|H]; [tauto|]. apply (IH l x Hx E2) in H; [exact H|].
    intros l1 a' b' l2 -> Ea. apply (A (a :: l1) a' b' l2); [reflexivity|exact Ea].
Qed.
Lemma existsb_concat {A} (f : A -> bool) ls : existsb f (concat ls) = true <-> exists s a, In a (nth s ls []) /\ f a = true.
Proof.
  rewrite existsb_exists. split.
  - intros (a & Ha & E). apply in_concat in Ha. destruct Ha as (l & Hl & Ha).
    apply (In_nth _ _ []) in Hl. destruct Hl as (s & _ & <-). eauto.
  - intros (s & a & Ha & E). exists a. split; [|exact E]. apply in_concat. exists (nth s ls []). split; [|exact Ha].
    apply nth_In. destruct (Nat.lt_ge_cases s (length ls)); [assumption|]. rewrite nth_overflow in Ha by assumption. destruct Ha.
Qed.
Lemma In_concat_nth {A} (ls : list (list A)) a : In a (concat ls) <-> exists s, In a (nth s ls []).
Proof.
  split.
  - intros Ha. apply in_concat in Ha. destruct Ha as (l & Hl & Ha).
    apply (In_nth _ _ []) in Hl. destruct Hl as (s & _ & <-). eauto.
  - intros (s & Ha). apply in_concat. exists (nth s ls []). split; [|exact Ha].
    apply nth_In. destruct (Nat.lt_ge_cases s (length ls)); [assumption|]. rewrite nth_overflow in Ha by assumption. destruct Ha.
Qed.
Lemma used_concat g x : used g x <-> exists a, In a (concat (sts g)) /\ (x = isy a \/ x = osy a).
Proof.
  unfold used. split.
  - intros (s & a & Ha & E). exists a. split; [apply In_concat_nth; eauto|exact E].
  - intros (a & Ha & E). apply In_concat_nth in Ha. destruct Ha as (s & Ha). eauto.
Qed.
Lemma flag_not_special x : is_diacritic x = true -> ~ special x.
Proof. intros H [->|[->| ->]]; vm_compute in H; discriminate. Qed.
Lemma purge_not_special f x : purge_symbol f x = true -> ~ special x.
Proof.
  unfold purge_symbol. destruct (is_diacritic x) eqn:E; simpl; [|discriminate]. intros _. apply flag_not_special. exact E.
Qed.
Lemma al_insert_freely ps w g g' : al_ok g -> insert_freely ps w g = Ok g' -> al_ok g'.
Proof.
  intros H. unfold insert_freely. destruct (existsb _ _); [discriminate|]. intros E. injection E as <-.
  apply (al_grow g); [exact H| |].
  - intros x Hx _. cbn [alpha with_sts]. apply add_pairs_alpha. tauto.
  - intros x (s & a & Ha & E). cbn [sts with_sts] in Ha. rewrite add_loops_nth in Ha. destruct (s <? _) eqn:L; [|destruct Ha].
    apply in_app_iff in Ha. destruct Ha as [Ha|Ha].
    + left. rewrite (proj1 (add_pairs_sts g ps)) in Ha. exists s, a. auto.
    + right. cbn [alpha with_sts]. apply add_pairs_alpha. left. apply in_map_iff in Ha. destruct Ha as (p & <- & Hp). exists p. simpl in E. auto.
Qed.
Lemma al_substitute_graph p h g g' : al_ok g -> substitute_graph p h g = Ok g' -> al_ok g'.
Proof.
  intros H. unfold substitute_graph. destruct (negb (valid_pair p)); [discriminate|].
  destruct (_ && _); [intros E; injection E as <-; exact H|]. destruct (existsb _ _); [discriminate|].
  intros E. injection E as <-. apply al_fold; [apply al_add_substitution|].
  apply (al_same g); [exact H|reflexivity|]. intros x (s & a & Ha & E). cbn [sts with_sts] in Ha.
  rewrite nth_map_nil in Ha by reflexivity. apply filter_In in Ha. exists s, a. tauto.
Qed.
(** Which symbols add_substitution can put on transitions. *)
Lemma used_add_transition g s a x : used (add_transition g s a true) x -> used g x \/ x = isy a \/ x = osy a.
Proof.
  intros (t & b & Hb & E). change (In b (arcs (add_transition g s a true) t)) in Hb. rewrite arcs_add_transition in Hb.
  destruct (t =? s) eqn:Ets; [apply in_app_iff in Hb; destruct Hb as [Hb|[<-|[]]]|].
  - left. apply Nat.eqb_eq in Ets. subst. exists s, b. auto.
  - tauto.
  - left. exists t, b. auto.
Qed.
Lemma used_copy_arcs ls : forall g off k x, used (copy_arcs g off k ls) x ->
  used g x \/ exists a, In a (concat ls) /\ (x = isy a \/ x = osy a).
Proof.
  induction ls as [|l ls IH]; intros g off k x; simpl; [tauto|]. intros H. apply IH in H.
  destruct H as [H|(a & Ha & E)]; [|right; exists a; rewrite in_app_iff; tauto].
  assert (G : forall l g, used (fold_left (fun g a => add_transition g (k + off) (Arc (tgt a + off) (isy a) (osy a) (wt a)) true) l g) x ->
            used g x \/ exists a, In a l /\ (x = isy a \/ x = osy a)).
  { clear. induction l as [|a l IH]; intros g; simpl; [tauto|]. intros H. apply IH in H.
    destruct H as [H|(b & Hb & E)]; [|right; exists b; tauto]. apply used_add_transition in H. simpl in H.
    destruct H as [H|H]; [tauto|right; exists a; tauto]. }
  apply G in H. destruct H as [H|(a & Ha & E)]; [tauto|right; exists a; rewrite in_app_iff; tauto].
Qed.
Lemma used_leave_arcs f : forall g off t x, used (leave_arcs g off t f) x -> used g x \/ x = EPS.
Proof.
  unfold leave_arcs. induction f as [|[s w] f IH]; intros g off t x; simpl; [tauto|]. intros H. apply IH in H.
  destruct H as [H|H]; [|tauto]. apply used_add_transition in H. cbn [isy osy] in H. tauto.
Qed.
Lemma used_add_substitution g s x : used (add_substitution g s) x -> used g x \/ used (s_graph s) x \/ x = EPS.
Proof.
  unfold add_substitution. intros H. cbn [add_state] in H.
  apply used_leave_arcs in H. destruct H as [H|H]; [|tauto]. apply used_copy_arcs in H.
  destruct H as [H|H]; [|right; left; apply used_concat; exact H]. apply used_add_transition in H. cbn [isy osy] in H.
  destruct H as [H|H]; [|tauto]. left. destruct H as (t & b & Hb & E).
  change (In b (arcs (fst (add_state g)) t)) in Hb. rewrite arcs_add_state in Hb. exists t, b. auto.
Qed.
Lemma collect_graph f : forall ls k s, In s (collect f k ls) -> exists a, In a (concat ls) /\ f a = Some (s_graph s).
Proof.
  induction ls as [|l ls IH]; intros k s; simpl; [tauto|]. rewrite in_app_iff. intros [H|H].
  - apply in_flat_map in H. destruct H as (a & Ha & H). destruct (f a) eqn:E; [|destruct H]. destruct H as [<-|[]].
    exists a. rewrite in_app_iff. tauto.
  - apply IH in H. destruct H as (a & Ha & E). exists a. rewrite in_app_iff. tauto.
Qed.
Lemma used_substs subs : forall g x, used (fold_left add_substitution subs g) x ->
  used g x \/ (exists s, In s subs /\ used (s_graph s) x) \/ x = EPS.
Proof.
  induction subs as [|s subs IH]; intros g x; simpl; [tauto|]. intros H. apply IH in H.
  destruct H as [H|[(s' & Hs & H)|H]]; [|right; left; exists s'; tauto|tauto].
  apply used_add_substitution in H. destruct H as [H|[H|H]]; [tauto|right; left; exists s; tauto|tauto].
Qed.
Lemma al_disjunct_path l : forall g s g' s', al_ok g -> disjunct_path g l s = Ok (g', s') -> al_ok g'.
Proof.
  induction l as [|p l IH]; intros g s g' s' H E; simpl in E.
  - injection E as <- <-. auto.
  - destruct (find _ _) as [a|] eqn:F; [exact (IH _ _ _ _ H E)|].
    destruct (negb _); [discriminate|]. apply IH in E; [exact E|].
    apply al_add_transition, (al_add_state g H).
Qed.

Theorem al_run_op g o g' : al_ok g -> safe_op g o -> run_op g o = Ok g' -> al_ok g'.
Proof.
  intros H SF E. destruct o; cbn [run_op] in E; try (injection E as <-).
  - apply (al_add_state g H).
  - apply al_add_state_n. exact H.
  - destruct (valid_pair _); [injection E as <-|discriminate]. apply al_add_transition. exact H.
  - unfold remove_transition. destruct (Nat.leb_spec (length (sts g)) s) as [L|L]; [exact H|].
    set (g1 := with_sts g _).
    assert (H1 : al_ok g1).
    { apply (al_same g); [exact H|reflexivity|]. intros x (t & b & Hb & E). unfold g1 in Hb. cbn [sts with_sts] in Hb.
      destruct (Nat.eq_dec t s) as [->|N]; [rewrite nth_upd_same in Hb by assumption; apply filter_In in Hb; exists s, b; tauto|].
      rewrite nth_upd_other in Hb by exact N. exists t, b. auto. }
    destruct remove_symbols; [|exact H1].
    change (al_ok (prune_after g1 [isy a; osy a])). apply al_prune_after; [exact H1|].
    intros x [<-|[<-|[]]]; apply SF.
  - apply al_add_state_n. exact H.
  - exact H.
  - apply (al_grow g); [exact H|intros y Hy _; simpl; apply (In_sadd bcmp bcmp_eq); tauto|intros y Hy; left; exact Hy].
  - destruct SF as [N U]. apply (al_grow g); [exact H| |intros y Hy; left; exact Hy]. intros y Hy K. simpl. apply (In_sdel bcmp bcmp_eq).
    split; [|exact Hy]. intros ->. destruct K; [auto|]. apply U. assumption.
  - unfold prune_alphabet. destruct (_ && _); [exact H|]. apply (al_grow g); [exact H| |intros y Hy; left; exact Hy].
    intros y Hy K. simpl. apply filter_In. split; [exact Hy|]. apply (smem_In bcmp bcmp_eq). rewrite !(In_sadd bcmp bcmp_eq), symbols_used_In.
    unfold special in K. unfold EPS, UNK, IDN. destruct K as [K|K]; tauto.
  - apply (al_same g); [exact H|reflexivity|]. intros x. unfold sort_arcs. rewrite used_with_sts by reflexivity.
    intros (s & a & Ha & E). apply std_sort_In in Ha. exists s, a. auto.
  - unfold substitute_symbol in E. destruct (_ || _); [discriminate|]. destruct (bstr_eqb_spec old new) as [Eq|Ne]; [injection E as <-; exact H|].
    destruct (negb _); [injection E as <-; exact H|]. injection E as <-.
    set (g1 := if inp && out && negb (is_reserved old) then remove_symbol g old else g).
    assert (A1 : forall x, In x (alpha g1) <-> In x (alpha g) /\ (inp && out && negb (is_reserved old) = true -> x <> old)).
    { intros x. unfold g1. destruct (_ && _); simpl; [rewrite (In_sdel bcmp bcmp_eq)|]; intuition. }
    assert (S1 : sts g1 = sts g) by (unfold g1; destruct (_ && _); reflexivity).
    match goal with |- al_ok (with_sts ?x _) => set (g3 := x) end.
    assert (A3 : forall x, In x (alpha g3) <-> x = new \/ In x (alpha g1)).
    { intros x. unfold g3. destruct (existsb _ _); simpl; rewrite !(In_sadd bcmp bcmp_eq); tauto. }
    assert (S3 : sts g3 = sts g) by (unfold g3; destruct (existsb _ _); simpl; exact S1).
    assert (U : forall x, used (with_sts g3 (map (map (subst_symbol_arc old new inp out)) (sts g3))) x ->
                x = new \/ used g x /\ (inp && out = true -> x <> old)).
    { intros x. rewrite used_with_sts by reflexivity. unfold arcs. rewrite S3.
      intros (s & a & Ha & E). apply in_map_iff in Ha. destruct Ha as (b & <- & Hb). simpl in E.
      assert (Ui : used g (isy b)) by (exists s, b; auto). assert (Uo : used g (osy b)) by (exists s, b; auto).
      destruct E as [E|E]; revert E.
      - destruct inp; simpl; [destruct (bstr_eqb_spec (isy b) old)|]; intros ->; [tauto| |right; split; [exact Ui|discriminate]].
        right. split; [exact Ui|]. intros _. assumption.
      - destruct out; simpl; [destruct (bstr_eqb_spec (osy b) old)|]; intros ->; [tauto| |right; split; [exact Uo|]].
        + right. split; [exact Uo|]. intros _. assumption.
        + rewrite andb_false_r. discriminate. }
    apply (al_grow g); [exact H| |].
    + intros x Hx K. cbn [alpha with_sts]. apply A3. destruct (bstr_eq_dec x new) as [->|Nx]; [tauto|]. right. apply A1. split; [exact Hx|].
      intros C. apply andb_true_iff in C. destruct C as [C1 C2]. destruct K as [K|K].
      * intros ->. apply special_reserved in K. rewrite K in C2. discriminate.
      * apply U in K. destruct K as [K|[_ K]]; [congruence|]. apply K. exact C1.
    + intros x Hx. apply U in Hx. cbn [alpha with_sts]. rewrite A3. tauto.
  - unfold substitute_symbols in E. destruct (existsb _ m); [discriminate|]. injection E as <-.
    set (xs := flat_map (added_by_map m) (concat (sts g))). pose proof (add_symbols_sts g xs) as [Es _].
    apply (al_grow g); [exact H|intros y Hy _; cbn [alpha with_sts]; apply add_symbols_alpha; tauto|].
    intros x. rewrite used_with_sts by reflexivity. unfold arcs. rewrite Es. intros (s & a & Ha & E).
    apply in_map_iff in Ha. destruct Ha as (b & <- & Hb). cbn [isy osy relabel fst snd] in E. cbn [alpha with_sts].
    assert (Hc : In b (concat (sts g))) by (apply In_concat_nth; eauto).
    destruct E as [E|E]; revert E; unfold subst_map_symbol.
    + destruct (mget bcmp (isy b) m) as [y|] eqn:Em; intros ->; [right; apply add_symbols_alpha; left|left; exists s, b; auto].
      apply in_flat_map. exists b. split; [exact Hc|]. unfold added_by_map. rewrite Em. simpl. tauto.
    + destruct (mget bcmp (osy b) m) as [y|] eqn:Em; intros ->; [right; apply add_symbols_alpha; left|left; exists s, b; auto].
      apply in_flat_map. exists b. split; [exact Hc|]. unfold added_by_map. rewrite Em. rewrite in_app_iff. simpl. tauto.
  - unfold substitute_symbol_pairs in E. destruct (existsb _ m); [discriminate|]. injection E as <-.
    set (xs := flat_map (added_by_pairs m) (concat (sts g))). pose proof (add_symbols_sts g xs) as [Es _].
    apply (al_grow g); [exact H|intros y Hy _; cbn [alpha with_sts]; apply add_symbols_alpha; tauto|].
    intros x. rewrite used_with_sts by reflexivity. unfold arcs. rewrite Es. intros (s & a & Ha & E).
    apply in_map_iff in Ha. destruct Ha as (b & <- & Hb). cbn [isy osy relabel] in E. cbn [alpha with_sts].
    assert (Hc : In b (concat (sts g))) by (apply In_concat_nth; eauto).
    unfold subst_map_pair in E. destruct (mget pcmp (label b) m) as [q|] eqn:Em; [right; apply add_symbols_alpha; left|left; exists s, b; auto].
    apply in_flat_map. exists b. split; [exact Hc|]. unfold added_by_pairs. rewrite Em. simpl. destruct E; subst; tauto.
  - unfold substitute_pair_with_set in E. destruct (_ || _); [discriminate|]. injection E as <-.
    unfold substitute_pair_set_. destruct ps as [|q ps].
    + cbn [safe_op] in SF. destruct SF as (N1 & N2 & SF). unfold remove_transitions.
      set (g1 := with_sts g (map (remove_loop p) (sts g))).
      assert (U1 : forall x, used g1 x -> used g x).
      { intros x. rewrite (used_map g g1 (remove_loop p) x eq_refl eq_refl). intros (s & a & Ha & E). apply remove_loop_In in Ha. exists s, a. auto. }
      assert (U2 : forall x, x = fst p \/ x = snd p -> existsb (used_loop p x) (sts g) = false -> ~ used g1 x).
      { intros x Hx Ex. rewrite (used_map g g1 (remove_loop p) x eq_refl eq_refl). intros (s & a & Ha & E).
        assert (Hs : used_loop p x (arcs g s) = false).
        { destruct (used_loop p x (arcs g s)) eqn:Q; [|reflexivity]. exfalso. apply not_true_iff_false in Ex. apply Ex.
          apply existsb_exists. exists (arcs g s). split; [|exact Q]. apply nth_In. apply (arcs_In_length g s a).
          apply remove_loop_In in Ha. exact Ha. }
        eapply remove_loop_used in Hs; [|exact Hx| |exact Ha]; [destruct Hs, E; congruence|].
        intros l1 b c l2 El Eb. destruct (SF s l1 b c l2 El Eb) as (Q1 & Q2 & Q3 & Q4). destruct Hx; subst x; tauto. }
      assert (H1 : al_ok g1) by (apply (al_same g); [exact H|reflexivity|exact U1]).
      assert (H2 : al_ok (if existsb (used_loop p (fst p)) (sts g) then g1 else remove_symbol g1 (fst p))).
      { destruct (existsb (used_loop p (fst p)) (sts g)) eqn:Q; [exact H1|]. apply (al_grow g1); [exact H1| |intros y Hy; left; exact Hy].
        intros y Hy K. apply (In_sdel bcmp bcmp_eq). split; [|exact Hy]. intros ->. destruct K as [K|K]; [tauto|].
        exact (U2 (fst p) (or_introl eq_refl) Q K). }
      set (g2 := if existsb (used_loop p (fst p)) (sts g) then g1 else remove_symbol g1 (fst p)) in *.
      assert (S2 : sts g2 = sts g1) by (unfold g2; destruct (existsb _ _); reflexivity).
      destruct (existsb (used_loop p (snd p)) (sts g)) eqn:Q; [exact H2|]. apply (al_grow g2); [exact H2| |intros y Hy; left; exact Hy].
      intros y Hy K. apply (In_sdel bcmp bcmp_eq). split; [|exact Hy]. intros ->. destruct K as [K|K]; [tauto|].
      apply (U2 (snd p) (or_intror eq_refl) Q). rewrite <- (used_sts _ _ S2). exact K.
    + cbn [safe_op] in SF. apply al_prune_after; [|intros x [<-|[<-|[]]]; apply SF].
      set (g1 := with_sts g (map (subst_set_state p (q :: ps)) (sts g))).
      assert (U : forall x, used g1 x -> used g x \/ exists s b r, In b (arcs g s) /\ label b = p /\ In r (q :: ps) /\ (x = fst r \/ x = snd r)).
      { intros x. rewrite (used_map g g1 (subst_set_state p (q :: ps)) x eq_refl eq_refl). intros (s & a & Ha & E).
        unfold subst_set_state in Ha. apply in_app_iff in Ha. destruct Ha as [Ha|Ha].
        - apply in_map_iff in Ha. destruct Ha as (b & <- & Hb). destruct (pair_eqb (label b) p) eqn:Eb; [|left; exists s, b; auto].
          right. exists s, b, q. apply pair_eqb_eq in Eb. simpl in *. tauto.
        - apply in_flat_map in Ha. destruct Ha as (b & Hb & Ha). destruct (pair_eqb (label b) p) eqn:Eb; [|destruct Ha].
          apply in_map_iff in Ha. destruct Ha as (r & <- & Hr). right. exists s, b, r. apply pair_eqb_eq in Eb. simpl in *. tauto. }
      destruct (existsb (fun a => pair_eqb (label a) p) (concat (sts g))) eqn:Q.
      * destruct (add_pairs_sts g1 (q :: ps)) as [Es _]. apply (al_grow g); [exact H|intros y Hy _; apply add_pairs_alpha; right; exact Hy|].
        intros x Hx. apply (used_sts _ _ Es) in Hx. apply U in Hx. destruct Hx as [Hx|(s & b & r & _ & _ & Hr & E)]; [tauto|].
        right. apply add_pairs_alpha. left. exists r. auto.
      * apply (al_same g); [exact H|reflexivity|]. intros x Hx. apply U in Hx. destruct Hx as [Hx|(s & b & r & Hb & Eb & _)]; [exact Hx|].
        exfalso. apply not_true_iff_false in Q. apply Q. apply existsb_concat. exists s, b. split; [exact Hb|apply pair_eqb_eq; exact Eb].
  - unfold substitute_func in E. destruct (subst_func_states f (sts g)) as [[ls ps]| | |] eqn:E1; try discriminate.
    cbn [rmap] in E. injection E as <-. destruct (subst_func_states_spec _ _ _ _ E1) as (L & A & P).
    destruct (add_pairs_sts (with_sts g ls) ps) as [Es _]. apply (al_grow g); [exact H|intros y Hy _; apply add_pairs_alpha; right; exact Hy|].
    intros x Hx. apply (used_sts _ _ Es) in Hx. destruct Hx as (s & a & Ha & E). cbn [sts with_sts] in Ha. apply A in Ha.
    destruct Ha as [[Ha _]|(b & qs & q & Hb & Ef & Hq & ->)]; [left; exists s, a; auto|].
    right. apply add_pairs_alpha. left. exists q. split; [|exact E]. apply P. exists s, b, qs. auto.
  - eapply al_substitute_graph; eassumption.
  - unfold substitute_submap in E. destruct (existsb _ m); [discriminate|].
    destruct (negb _); [injection E as <-; exact H|]. destruct (negb (forallb _ _)) eqn:EF; [discriminate|]. injection E as <-.
    apply al_fold; [apply al_add_substitution|]. set (g1 := with_sts g _). set (xs := filter _ _).
    destruct (remove_symbols_sts g1 xs) as [Es _]. apply negb_false_iff in EF. rewrite forallb_forall in EF.
    assert (U : forall x, used (remove_symbols g1 xs) x -> used g x /\ mget bcmp x m = None).
    { intros x Hx. apply (used_sts _ _ Es) in Hx. unfold g1 in Hx.
      rewrite used_with_sts in Hx by reflexivity.
      destruct Hx as (s & a & Ha & E). apply filter_In in Ha. destruct Ha as [Ha Em]. split; [exists s, a; auto|].
      assert (Hc : In a (concat (sts g))) by (apply In_concat_nth; eauto). specialize (EF a Hc). unfold submap_ok in EF.
      destruct (mget bcmp (isy a) m) eqn:Ei; [discriminate|]. destruct (mget bcmp (osy a) m) eqn:Eo.
      - apply bstr_eqb_eq in EF. rewrite <- EF, Ei in Eo. discriminate.
      - destruct E; subst; assumption. }
    apply (al_grow g); [exact H| |intros x Hx; left; apply U; exact Hx].
    intros x Hx K. apply remove_symbols_alpha. split; [|exact Hx]. unfold xs. rewrite filter_In. intros [K1 K2]. destruct K as [K|K].
    + apply special_reserved in K. rewrite K in K2. discriminate.
    + apply U in K. destruct K as [_ K]. apply in_flat_map in K1. destruct K1 as (a & _ & K1).
      destruct (mget bcmp (isy a) m) eqn:Ei; [|destruct K1]. destruct K1 as [<-|[]]. congruence.
  - eapply al_insert_freely; eassumption.
  - destruct SF as [Ug Uh]. unfold insert_freely_graph in E. destruct (insert_freely _ 0 g) as [g1| | |] eqn:E1; try discriminate. cbn [rbind] in E.
    destruct (substitute_graph _ h g1) as [g2| | |] eqn:E2; try discriminate. cbn [rmap] in E. injection E as <-.
    pose proof (al_insert_freely _ _ _ _ H E1) as H1. pose proof (al_substitute_graph _ _ _ _ H1 E2) as H2.
    apply (al_grow g2); [exact H2| |intros x Hx; left; exact Hx]. intros x Hx K. apply (In_sdel bcmp bcmp_eq). split; [|exact Hx]. intros ->.
    destruct K as [K|K].
    + destruct K as [K|[K|K]]; discriminate K.
    + change (used g2 MARKER) in K. unfold substitute_graph in E2. destruct (negb (valid_pair _)); [discriminate|].
      unfold insert_freely in E1. destruct (existsb _ _); [discriminate|]. injection E1 as <-.
      destruct (_ && _) eqn:Q.
      { cbn [fst snd] in Q. apply andb_true_iff in Q. destruct Q as [Q _]. apply negb_true_iff, not_true_iff_false in Q. apply Q.
        apply (smem_In bcmp bcmp_eq). cbn [alpha with_sts add_pairs fold_left fst snd add_symbol with_alpha]. apply (In_sadd bcmp bcmp_eq). tauto. }
      destruct (existsb _ _); [discriminate|]. injection E2 as <-. apply used_substs in K. destruct K as [K|[(s & Hs & K)|K]].
      * rewrite used_with_sts in K by reflexivity. destruct K as (s & a & Ha & E). unfold arcs in Ha. cbn [sts with_sts] in Ha.
        apply filter_In in Ha. destruct Ha as [Ha Hn]. rewrite add_loops_nth in Ha. destruct (s <? _); [|destruct Ha].
        apply in_app_iff in Ha. destruct Ha as [Ha|Ha].
        -- apply Ug. exists s, a. auto.
        -- apply in_map_iff in Ha. destruct Ha as (q & <- & [<-|[]]). vm_compute in Hn. discriminate.
      * apply collect_graph in Hs. destruct Hs as (a & _ & Ef). destruct (pair_eqb _ _); [|discriminate]. injection Ef as Ef.
        rewrite <- Ef in K. exact (Uh K).
      * discriminate K.
  - unfold disjunct in E. destruct (disjunct_path g l 0) as [[g1 s]| | |] eqn:E1; try discriminate. cbn [rmap] in E. injection E as <-.
    pose proof (al_disjunct_path _ _ _ _ _ H E1) as H1.
    destruct (finw g1 s) as [old|]; [destruct (_ <? _)%Z; [exact H1|]|]; apply (al_add_state_n g1 s H1).
  - unfold complete in E. destruct (add_state g) as [g1 fl] eqn:Ea. injection Ea as <- <-.
    destruct (complete_states _ _ _) as [ls| | |] eqn:E1; try discriminate. cbn [rmap] in E. injection E as <-.
    destruct (complete_states_spec _ _ _ _ E1) as [L A]. cbn [sts with_sts alpha] in L, A. apply (al_grow g); [exact H|auto|].
    intros x (s & a & Ha & E). cbn [sts with_sts] in Ha.
    assert (Hs : s < length (sts g ++ [[]])).
    { destruct (Nat.lt_ge_cases s (length (sts g ++ [[]]))); [assumption|]. rewrite nth_overflow in Ha by lia. destruct Ha. }
    specialize (A s Hs). apply complete_state_In in A. destruct A as (mi & Em & _ & Hm). rewrite Em in Ha.
    apply in_app_iff in Ha. destruct Ha as [Ha|Ha].
    + left. rewrite (nth_app_nil (sts g) 1 s : nth s (sts g ++ [[]]) [] = nth s (sts g) []) in Ha. exists s, a. auto.
    + right. apply in_map_iff in Ha. destruct Ha as (y & <- & Hy). apply Hm in Hy. simpl in E. cbn [alpha with_sts]. destruct E; subst; tauto.
  - unfold flag_purge. set (g1 := with_sts g _). set (xs := filter _ _). destruct (remove_symbols_sts g1 xs) as [Es _].
    assert (U : forall x, used (remove_symbols g1 xs) x -> x = EPS \/ used g x /\ purge_symbol flag x = false).
    { intros x Hx. apply (used_sts _ _ Es) in Hx. unfold g1 in Hx.
      rewrite used_with_sts in Hx by reflexivity.
      destruct Hx as (s & a & Ha & E). apply in_map_iff in Ha. destruct Ha as (b & <- & Hb).
      destruct (purge_symbol flag (isy b)) eqn:Pi; cbn [orb] in E; [simpl in E; tauto|].
      destruct (purge_symbol flag (osy b)) eqn:Po; [simpl in E; tauto|].
      right. split; [exists s, b; auto|]. destruct E; subst; assumption. }
    apply (al_grow g); [exact H| |].
    + intros x Hx K. apply remove_symbols_alpha. split; [|exact Hx]. unfold xs. rewrite filter_In. intros [_ P].
      pose proof (purge_not_special _ _ P) as N. destruct K as [K|K]; [exact (N K)|]. apply U in K. destruct K as [->|[_ K]]; [|congruence].
      apply N. left. reflexivity.
    + intros x Hx. apply U in Hx. destruct Hx as [->|[Hx _]]; [right|left; exact Hx].
      apply remove_symbols_alpha. split; [|exact (proj1 (proj2 H))]. unfold xs. rewrite filter_In. intros [_ P].
      apply (purge_not_special _ _ P). left. reflexivity.
  - apply al_insert_transducer. exact H.
  - unfold swap_state_numbers in E. destruct (negb _) eqn:B; [discriminate|]. apply negb_false_iff, andb_true_iff in B.
    destruct B as [B1 B2]. apply Nat.ltb_lt in B1, B2. destruct (_ && _); [discriminate|]. injection E as <-.
    apply (al_same g); [exact H|reflexivity|]. intros x (s & a & Ha & E). cbn [sts] in Ha. rewrite nth_map_nil in Ha by reflexivity.
    apply in_map_iff in Ha. destruct Ha as (b & <- & Hb). cbn [isy osy] in E.
    destruct (Nat.eq_dec s s2) as [->|M2]; [rewrite nth_upd_same in Hb by (rewrite upd_length; exact B2); exists s1, b; auto|].
    rewrite nth_upd_other in Hb by exact M2. destruct (Nat.eq_dec s s1) as [->|M1].
    + rewrite nth_upd_same in Hb by exact B1. exists s2, b; auto.
    + rewrite nth_upd_other in Hb by exact M1. exists s, b. auto.
Qed.
