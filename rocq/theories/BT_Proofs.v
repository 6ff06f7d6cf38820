(** Proofs about the basic transducer model: structure, well-formedness, exact
    effects of the elementary operations. *)
From Verif Require Import Base Flags_Model BT_Model BT_Spec.
From Coq Require Import Permutation Sorted.

(** * Elementary facts *)
Lemma arcs_In_length g s a : In a (arcs g s) -> s < length (sts g).
Proof.
  intros H. destruct (Nat.lt_ge_cases s (length (sts g))) as [L|L]; [exact L|].
  unfold arcs in H. rewrite nth_overflow in H by exact L. destruct H.
Qed.
Lemma nth_app_nil {A} (l : list (list A)) k s : nth s (l ++ repeat [] k) [] = nth s l [].
Proof.
  destruct (Nat.lt_ge_cases s (length l)) as [L|L]; [rewrite app_nth1 by exact L; reflexivity|].
  rewrite app_nth2 by exact L. rewrite (nth_overflow l) by exact L. apply nth_repeat.
Qed.
Lemma arcs_add_state g s : arcs (fst (add_state g)) s = arcs g s.
Proof. apply (nth_app_nil (sts g) 1). Qed.
Lemma arcs_add_state_n g n s : arcs (add_state_n g n) s = arcs g s.
Proof. apply nth_app_nil. Qed.
Lemma length_add_state_n g n : length (sts (add_state_n g n)) = Nat.max (length (sts g)) (S n).
Proof. cbn [add_state_n with_sts sts]. rewrite app_length, repeat_length. lia. Qed.
Lemma arcs_push_arc g s a t : s < length (sts g) ->
  arcs (push_arc g s a) t = if t =? s then arcs g s ++ [a] else arcs g t.
Proof.
  intros H. unfold arcs at 1, push_arc; simpl. destruct (Nat.eqb_spec t s) as [->|N].
  - apply nth_upd_same. exact H.
  - apply nth_upd_other. exact N.
Qed.
Lemma arcs_add_transition g s a b t :
  arcs (add_transition g s a b) t = if t =? s then arcs g s ++ [a] else arcs g t.
Proof.
  unfold add_transition. set (g1 := add_state_n (add_state_n g s) (tgt a)).
  assert (E : forall u, arcs g1 u = arcs g u) by (intros u; unfold g1; rewrite !arcs_add_state_n; reflexivity).
  assert (L : s < length (sts g1)) by (unfold g1; rewrite !length_add_state_n; lia).
  destruct b; rewrite arcs_push_arc by exact L; rewrite <- !E; reflexivity.
Qed.
Lemma length_add_transition g s a b :
  length (sts (add_transition g s a b)) = Nat.max (length (sts g)) (Nat.max (S s) (S (tgt a))).
Proof.
  unfold add_transition, push_arc.
  transitivity (length (sts (add_state_n (add_state_n g s) (tgt a)))); [destruct b; apply upd_length|rewrite !length_add_state_n; lia].
Qed.
Lemma fin_add_transition g s a b : fin (add_transition g s a b) = fin g.
Proof. destruct b; reflexivity. Qed.
Lemma In_alpha_add_transition g s a x :
  In x (alpha (add_transition g s a true)) <-> x = isy a \/ x = osy a \/ In x (alpha g).
Proof. simpl. rewrite !(In_sadd bcmp bcmp_eq). tauto. Qed.

Lemma add_symbols_sts g xs : sts (add_symbols g xs) = sts g /\ fin (add_symbols g xs) = fin g.
Proof. revert g; induction xs as [|x xs IH]; intros g; simpl; [tauto|]. destruct (IH (add_symbol g x)) as [-> ->]. tauto. Qed.
Lemma add_symbols_alpha g xs x : In x (alpha (add_symbols g xs)) <-> In x xs \/ In x (alpha g).
Proof.
  revert g; induction xs as [|y xs IH]; intros g; simpl; [tauto|]. rewrite IH. simpl. rewrite (In_sadd bcmp bcmp_eq).
  intuition.
Qed.
Lemma remove_symbols_sts g xs : sts (remove_symbols g xs) = sts g /\ fin (remove_symbols g xs) = fin g.
Proof. revert g; induction xs as [|x xs IH]; intros g; simpl; [tauto|]. destruct (IH (remove_symbol g x)) as [-> ->]. tauto. Qed.
Lemma remove_symbols_alpha g xs x : In x (alpha (remove_symbols g xs)) <-> ~ In x xs /\ In x (alpha g).
Proof.
  revert g; induction xs as [|y xs IH]; intros g; simpl; [tauto|]. rewrite IH. simpl. rewrite (In_sdel bcmp bcmp_eq).
  split; [intuition|]. intros (H1 & H2). repeat split; auto.
Qed.
Lemma add_pairs_sts g ps : sts (add_pairs g ps) = sts g /\ fin (add_pairs g ps) = fin g.
Proof.
  revert g; induction ps as [|p ps IH]; intros g; [simpl; tauto|]. change (add_pairs g (p :: ps)) with
    (add_pairs (add_symbol (add_symbol g (fst p)) (snd p)) ps).
  destruct (IH (add_symbol (add_symbol g (fst p)) (snd p))) as [-> ->]. simpl; tauto.
Qed.
Lemma add_pairs_alpha g ps x : In x (alpha (add_pairs g ps)) <->
  (exists p, In p ps /\ (x = fst p \/ x = snd p)) \/ In x (alpha g).
Proof.
  revert g; induction ps as [|p ps IH]; intros g.
  - simpl. split; [tauto|]. intros [(q & [] & _)|H]; exact H.
  - change (add_pairs g (p :: ps)) with (add_pairs (add_symbol (add_symbol g (fst p)) (snd p)) ps).
    rewrite IH. simpl alpha. rewrite !(In_sadd bcmp bcmp_eq). split.
    + intros [(q & Hq & E)|[H|[H|H]]]; [left; exists q; simpl; tauto| | |right; exact H]; left; exists p; simpl; tauto.
    + intros [(q & [->|Hq] & E)|H]; [destruct E; subst; tauto|left; exists q; tauto|tauto].
Qed.
Lemma symbols_used_In g x : In x (symbols_used g) <-> exists s a, In a (arcs g s) /\ (x = isy a \/ x = osy a).
Proof.
  unfold symbols_used.
  assert (H : forall l acc, In x (fold_left (fun s a => sadd bcmp (osy a) (sadd bcmp (isy a) s)) l acc) <->
            (exists a, In a l /\ (x = isy a \/ x = osy a)) \/ In x acc).
  { induction l as [|a l IH]; intros acc; simpl.
    - split; [tauto|]. intros [(a & [] & _)|H]; exact H.
    - rewrite IH, !(In_sadd bcmp bcmp_eq). split.
      + intros [(b & Hb & E)|[H|[H|H]]]; [left; exists b; tauto|left; exists a; tauto|left; exists a; tauto|tauto].
      + intros [(b & [->|Hb] & E)|H]; [tauto|left; exists b; tauto|tauto]. }
  rewrite H. simpl. split.
  - intros [(a & Ha & E)|[]]. apply in_concat in Ha. destruct Ha as (l & Hl & Ha).
    apply (In_nth _ _ []) in Hl. destruct Hl as (s & _ & <-). exists s, a. split; [exact Ha|exact E].
  - intros (s & a & Ha & E). left. exists a. split; [|exact E]. apply in_concat. exists (arcs g s). split; [|exact Ha].
    apply nth_In. eapply arcs_In_length. exact Ha.
Qed.
Lemma pair_eqb_eq p q : pair_eqb p q = true <-> p = q.
Proof.
  unfold pair_eqb. rewrite andb_true_iff, !bstr_eqb_eq. destruct p, q; simpl. split; [intros [-> ->]; reflexivity|].
  intros E; injection E as -> ->; tauto.
Qed.
Lemma pair_eqb_neq p q : pair_eqb p q = false <-> p <> q.
Proof. rewrite <- pair_eqb_eq. destruct (pair_eqb p q); split; congruence. Qed.
Lemma pcmp_eq p q : pcmp p q = Eq <-> p = q.
Proof.
  unfold pcmp. destruct p as [a b], q as [c d]; simpl. split.
  - destruct (bcmp a c) eqn:E; try discriminate. apply bcmp_eq in E. intros H. apply bcmp_eq in H. congruence.
  - intros E; injection E as -> ->. rewrite (proj2 (bcmp_eq c c) eq_refl). apply bcmp_eq. reflexivity.
Qed.

(** * Structure *)
Lemma structure_lengths g g' : structure_ok g -> length (sts g) <= length (sts g') ->
  (forall s a, In a (arcs g' s) -> tgt a < length (sts g')) ->
  (forall s w, finw g' s = Some w -> s < length (sts g')) -> structure_ok g'.
Proof.
  intros (H1 & H2 & H3) L H4 H5. split; [|split; [exact H4|exact H5]].
  destruct (sts g'); [|discriminate]. destruct (sts g); [congruence|simpl in L; lia].
Qed.
(** Same states and finals, targets among the old targets. *)
Lemma structure_same g g' : structure_ok g -> length (sts g') = length (sts g) -> fin g' = fin g ->
  (forall s a, In a (arcs g' s) -> exists b, In b (arcs g s) /\ tgt a = tgt b) -> structure_ok g'.
Proof.
  intros H L F A. pose proof H as (H1 & H2 & H3). apply (structure_lengths g); [exact H|lia| |].
  - intros s a Ha. destruct (A s a Ha) as (b & Hb & ->). rewrite L. exact (H2 s b Hb).
  - intros s w E. unfold finw in E. rewrite F in E. rewrite L. exact (H3 s w E).
Qed.
Lemma structure_alpha g al : structure_ok g -> structure_ok (with_alpha g al).
Proof. intros H. exact H. Qed.
Lemma structure_sts g ls : structure_ok g -> length ls = length (sts g) ->
  (forall s a, In a (nth s ls []) -> exists b, In b (arcs g s) /\ tgt a = tgt b) -> structure_ok (with_sts g ls).
Proof. intros H L A. apply (structure_same g); [exact H|exact L|reflexivity|exact A]. Qed.
Lemma structure_add_state g : structure_ok g -> structure_ok (fst (add_state g)).
Proof.
  intros (H1 & H2 & H3). apply (structure_lengths g); [split; auto|simpl; rewrite app_length; lia| |].
  - intros s a Ha. rewrite arcs_add_state in Ha. apply H2 in Ha. simpl. rewrite app_length. lia.
  - intros s w E. apply H3 in E. simpl. rewrite app_length. lia.
Qed.
Lemma structure_add_state_n g n : structure_ok g -> structure_ok (add_state_n g n).
Proof.
  intros (H1 & H2 & H3). apply (structure_lengths g); [split; auto|rewrite length_add_state_n; lia| |].
  - intros s a Ha. rewrite arcs_add_state_n in Ha. apply H2 in Ha. rewrite length_add_state_n. lia.
  - intros s w E. apply H3 in E. rewrite length_add_state_n. lia.
Qed.
Lemma structure_add_transition g s a b : structure_ok g -> structure_ok (add_transition g s a b).
Proof.
  intros H. pose proof H as (H1 & H2 & H3). apply (structure_lengths g); [exact H|rewrite length_add_transition; lia| |].
  - intros t c Hc. rewrite arcs_add_transition in Hc. rewrite length_add_transition.
    destruct (t =? s); [apply in_app_iff in Hc; destruct Hc as [Hc|[<-|[]]]|]; try lia; apply H2 in Hc; lia.
  - intros t w E. unfold finw in E. rewrite fin_add_transition in E. apply H3 in E. rewrite length_add_transition. lia.
Qed.
Lemma structure_fold_add {A} (f : graph -> A -> graph) l : (forall g x, structure_ok g -> structure_ok (f g x)) ->
  forall g, structure_ok g -> structure_ok (fold_left f l g).
Proof. intros H. induction l as [|x l IH]; intros g Hg; simpl; auto. Qed.
Lemma structure_copy_arcs ls : forall g off k, structure_ok g -> structure_ok (copy_arcs g off k ls).
Proof.
  induction ls as [|l ls IH]; intros g off k H; simpl; [exact H|]. apply IH. apply structure_fold_add; [|exact H].
  intros g' a Hg. apply structure_add_transition. exact Hg.
Qed.
Lemma structure_leave_arcs f : forall g off t, structure_ok g -> structure_ok (leave_arcs g off t f).
Proof.
  intros g off t H. unfold leave_arcs. apply structure_fold_add; [|exact H].
  intros g' [s w] Hg. apply structure_add_transition. exact Hg.
Qed.
Lemma structure_add_substitution g s : structure_ok g -> structure_ok (add_substitution g s).
Proof.
  intros H. unfold add_substitution. pose proof (structure_add_state g H) as H1. destruct (add_state g) as [g1 st].
  apply structure_leave_arcs, structure_copy_arcs, structure_add_transition. exact H1.
Qed.
Lemma structure_insert_transducer g s1 s2 h : structure_ok g -> structure_ok (insert_transducer g s1 s2 h).
Proof.
  intros H. unfold insert_transducer. pose proof (structure_add_state g H) as H1. destruct (add_state g) as [g1 st].
  apply structure_add_transition, structure_leave_arcs, structure_copy_arcs. exact H1.
Qed.
Lemma structure_set_final g s w : structure_ok g -> structure_ok (set_final_weight g s w).
Proof.
  intros H. apply (structure_add_state_n g s) in H. destruct H as (H1 & H2 & H3). split; [exact H1|]. split; [exact H2|].
  intros t v. change (sts (set_final_weight g s w)) with (sts (add_state_n g s)).
  change (fin (set_final_weight g s w)) with (mset Nat.compare s w (fin g)).
  destruct (Nat.eq_dec t s) as [->|N]; [rewrite length_add_state_n; lia|].
  rewrite (mget_mset_other Nat.compare Nat.compare_eq_iff) by exact N. apply H3.
Qed.
Lemma structure_remove_final g s : structure_ok g -> structure_ok (remove_final_weight g s).
Proof.
  intros (H1 & H2 & H3). split; [exact H1|]. split; [exact H2|]. intros t v. cbn [fin remove_final_weight with_fin sts].
  destruct (Nat.eq_dec t s) as [->|N]; [rewrite (mget_mdel_same Nat.compare); discriminate|].
  rewrite (mget_mdel_other Nat.compare Nat.compare_eq_iff) by exact N. apply H3.
Qed.
Lemma nth_map_nil {A B} (f : list A -> list B) ls s : f [] = [] -> nth s (map f ls) [] = f (nth s ls []).
Proof. intros E. rewrite <- E at 1. apply map_nth. Qed.
Lemma structure_map g f : structure_ok g -> f [] = [] ->
  (forall l a, In a (f l) -> exists b, In b l /\ tgt a = tgt b) -> structure_ok (with_sts g (map f (sts g))).
Proof.
  intros H E A. apply structure_sts; [exact H|apply map_length|]. intros s a. rewrite nth_map_nil by exact E. apply A.
Qed.
Lemma prune_after_sts g xs : sts (prune_after g xs) = sts g /\ fin (prune_after g xs) = fin g.
Proof.
  unfold prune_after. generalize (symbols_used g) as u. intros u. revert g. induction xs as [|x xs IH]; intros g; simpl; [tauto|].
  destruct (smem bcmp x u); [apply IH|]. destruct (IH (remove_symbol g x)) as [-> ->]. tauto.
Qed.
Lemma structure_eq g g' : structure_ok g -> sts g' = sts g /\ fin g' = fin g -> structure_ok g'.
Proof. intros H [E F]. unfold structure_ok in *. rewrite E, F. exact H. Qed.
Lemma insert_sorted_In num a l x : In x (insert_sorted num a l) <-> x = a \/ In x l.
Proof.
  induction l as [|b l IH]; simpl; [intuition|]. destruct (arc_lt num b a); simpl; [rewrite IH|]; intuition.
Qed.
Lemma std_sort_In num l x : In x (std_sort num l) <-> In x l.
Proof. induction l as [|a l IH]; simpl; [tauto|]. rewrite insert_sorted_In, IH. intuition. Qed.
Lemma remove_loop_In p : forall l a, In a (remove_loop p l) -> In a l.
Proof.
  fix IH 1. intros [|b l] a; simpl; [tauto|]. destruct (pair_eqb (label b) p).
  - destruct l as [|c l]; simpl; [tauto|]. intros [->|H]; [tauto|]. right; right. exact (IH l a H).
  - intros [->|H]; [tauto|]. right. exact (IH l a H).
Qed.
Lemma subst_set_state_tgt old new l a : In a (subst_set_state old new l) -> exists b, In b l /\ tgt a = tgt b.
Proof.
  unfold subst_set_state. destruct new as [|first rest]; [eauto|]. intros H. apply in_app_iff in H. destruct H as [H|H].
  - apply in_map_iff in H. destruct H as (b & <- & Hb). exists b. split; [exact Hb|]. destruct (pair_eqb _ _); reflexivity.
  - apply in_flat_map in H. destruct H as (b & Hb & H). destruct (pair_eqb _ _); [|destruct H].
    apply in_map_iff in H. destruct H as (q & <- & _). exists b. split; [exact Hb|reflexivity].
Qed.
Lemma subst_func_state_spec f l l' new ps : subst_func_state f l = Ok (l', new, ps) ->
  (forall a, In a (l' ++ new) <-> (In a l /\ f (label a) = None) \/
     exists b qs q, In b l /\ f (label b) = Some qs /\ In q qs /\ a = relabel b q) /\
  (forall q, In q ps <-> exists b qs, In b l /\ f (label b) = Some qs /\ In q qs) /\ length l' = length l.
Proof.
  revert l' new ps. induction l as [|a l IH]; intros l' new ps H.
  - simpl in H. injection H as <- <- <-. split; [|split].
    + intros a. simpl. split; [tauto|]. intros [[[] _]|(b & qs & q & [] & _)].
    + intros q. simpl. split; [tauto|]. intros (b & qs & [] & _).
    + reflexivity.
  - cbn [subst_func_state] in H.
    destruct (subst_func_state f l) as [[[l1 n1] p1]| | |] eqn:E;
      try (destruct (f (label a)) as [[|? ?]|]; [| destruct (existsb _ _) |]; discriminate).
    destruct (IH l1 n1 p1 eq_refl) as (A & P & L). clear IH.
    destruct (f (label a)) as [[|q0 qs]|] eqn:Ef; [discriminate| |].
    + destruct (existsb _ _) eqn:Ev; [discriminate|]. cbn [rbind rmap] in H. injection H as <- <- <-.
      split; [|split; [|simpl; lia]].
      * intros b. rewrite <- app_comm_cons. simpl. rewrite !in_app_iff. specialize (A b). rewrite in_app_iff in A. simpl. rewrite !in_app_iff.
        assert (Hm : In b (map (relabel a) qs) <-> exists q, In q qs /\ b = relabel a q).
        { rewrite in_map_iff. split; intros (q & ? & ?); exists q; intuition. }
        split.
        -- intros [<-|[H|[<-|[H|H]]]].
           ++ right. exists a, (q0 :: qs), q0. simpl. tauto.
           ++ destruct (proj1 A (or_introl H)) as [[H1 H2]|(c & qs' & q & H1 & H2 & H3)]; [left; tauto|].
              right. exists c, qs', q. tauto.
           ++ right. exists a, (q0 :: qs), q0. simpl. tauto.
           ++ apply Hm in H. destruct H as (q & Hq & ->). right. exists a, (q0 :: qs), q. simpl. tauto.
           ++ destruct (proj1 A (or_intror H)) as [[H1 H2]|(c & qs' & q & H1 & H2 & H3)]; [left; tauto|].
              right. exists c, qs', q. tauto.
        -- intros [[[->|H1] H2]|(c & qs' & q & [<-|H1] & H2 & H3 & H4)].
           ++ congruence.
           ++ assert (K := proj2 A (or_introl (conj H1 H2))). tauto.
           ++ rewrite Ef in H2. injection H2 as <-. destruct H3 as [<-|H3]; [left; congruence|].
              right; right; right; left. apply Hm. exists q. tauto.
           ++ assert (K := proj2 A (or_intror (ex_intro _ c (ex_intro _ qs' (ex_intro _ q (conj H1 (conj H2 (conj H3 H4)))))))).
              tauto.
      * intros q. change (In q ((q0 :: qs) ++ p1) <-> exists b qs', In b (a :: l) /\ f (label b) = Some qs' /\ In q qs').
        rewrite in_app_iff, P. split.
        -- intros [H|(b & qs' & H1 & H2)]; [exists a, (q0 :: qs); simpl; tauto|exists b, qs'; simpl; tauto].
        -- intros (b & qs' & [<-|H1] & H2 & H3); [left; congruence|right; exists b, qs'; tauto].
    + cbn [rbind rmap] in H. injection H as <- <- <-. split; [|split; [|simpl; lia]].
      * intros b. simpl. rewrite A. split.
        -- intros [<-|[[H1 H2]|(c & qs' & q & H1 & H2)]]; [left; tauto|left; tauto|right; exists c, qs', q; tauto].
        -- intros [[[->|H1] H2]|(c & qs' & q & [<-|H1] & H2 & H3)]; [tauto|tauto|congruence|].
           right; right. exists c, qs', q. tauto.
      * intros q. simpl. rewrite P. split; [intros (b & qs' & H1 & H2); exists b, qs'; tauto|].
        intros (b & qs' & [<-|H1] & H2 & H3); [congruence|exists b, qs'; tauto].
Qed.
Lemma subst_func_states_spec f : forall ls ls' ps, subst_func_states f ls = Ok (ls', ps) ->
  length ls' = length ls /\
  (forall s a, In a (nth s ls' []) <-> (In a (nth s ls []) /\ f (label a) = None) \/
     exists b qs q, In b (nth s ls []) /\ f (label b) = Some qs /\ In q qs /\ a = relabel b q) /\
  (forall q, In q ps <-> exists s b qs, In b (nth s ls []) /\ f (label b) = Some qs /\ In q qs).
Proof.
  induction ls as [|l ls IH]; intros ls' ps H.
  - simpl in H. injection H as <- <-. split; [reflexivity|]. split.
    + intros [|s] a; simpl; (split; [tauto|]); intros [[[] _]|(b & qs & q & [] & _)].
    + intros q. simpl. split; [tauto|]. intros ([|s] & b & qs & [] & _).
  - cbn [subst_func_states] in H. destruct (subst_func_state f l) as [[[l' new] p0]| | |] eqn:E; try discriminate.
    cbn [rbind] in H. destruct (subst_func_states f ls) as [[ls1 p1]| | |] eqn:E1; try discriminate.
    cbn [rmap] in H. injection H as <- <-. destruct (IH ls1 p1 eq_refl) as (L & A & P).
    destruct (subst_func_state_spec _ _ _ _ _ E) as (A0 & P0 & _). split; [simpl; lia|]. split.
    + intros [|s] a; simpl; [apply A0|apply A].
    + intros q. rewrite in_app_iff, P0, P. split.
      * intros [(b & qs & H)|(s & b & qs & H)]; [exists 0, b, qs; exact H|exists (S s), b, qs; exact H].
      * intros ([|s] & b & qs & H); [left; exists b, qs; exact H|right; exists s, b, qs; exact H].
Qed.
Lemma add_loops_nth ps w : forall ls k s, nth s (add_loops ps w k ls) [] =
  if s <? length ls then nth s ls [] ++ map (fun p => Arc (k + s) (fst p) (snd p) w) ps else [].
Proof.
  induction ls as [|l ls IH]; intros k s; simpl; [destruct s; reflexivity|]. destruct s as [|s]; simpl.
  - rewrite Nat.add_0_r. reflexivity.
  - rewrite IH. replace (S k + s) with (k + S s) by lia. reflexivity.
Qed.
Lemma add_loops_length ps w : forall ls k, length (add_loops ps w k ls) = length ls.
Proof. induction ls as [|l ls IH]; intros k; simpl; auto. Qed.
Lemma complete_states_spec fl al : forall ls ls', complete_states fl al ls = Ok ls' ->
  length ls' = length ls /\ forall s, s < length ls -> complete_state fl al (nth s ls []) = Ok (nth s ls' []).
Proof.
  induction ls as [|l ls IH]; intros ls' H; simpl in H; [injection H as <-; simpl; split; [reflexivity|intros; lia]|].
  destruct (complete_state fl al l) as [l'| | |] eqn:E; try discriminate. cbn [rbind] in H.
  destruct (complete_states fl al ls) as [ls1| | |]; try discriminate. cbn [rmap] in H. injection H as <-.
  destruct (IH ls1 eq_refl) as [L A]. split; [simpl; lia|]. intros [|s] Hs; [exact E|]. simpl in *. apply A. lia.
Qed.
Lemma complete_state_In fl al l l' : complete_state fl al l = Ok l' -> exists missing,
  l' = l ++ map (fun x => Arc fl x x 0) missing /\
  (forall a, In a l -> isy a = osy a) /\
  (forall x, In x missing <-> In x al /\ (forall a, In a l -> isy a <> x) /\ is_special_symbol x = false).
Proof.
  unfold complete_state. destruct (existsb _ l) eqn:E1; [discriminate|]. destruct (existsb _ (filter _ al)) eqn:E2; [discriminate|].
  intros H. injection H as <-. eexists. split; [reflexivity|]. split.
  - intros a Ha. destruct (bstr_eqb_spec (isy a) (osy a)) as [Q|Q]; [exact Q|]. exfalso.
    apply not_true_iff_false in E1. apply E1. apply existsb_exists. exists a. split; [exact Ha|].
    apply negb_true_iff, bstr_eqb_neq. exact Q.
  - intros x. rewrite filter_In, andb_true_iff, !negb_true_iff. split.
    + intros (H1 & H2 & H3). split; [exact H1|]. split; [|exact H3]. intros a Ha Q.
      apply not_true_iff_false in H2. apply H2. apply existsb_exists. exists a. split; [exact Ha|apply bstr_eqb_eq; exact Q].
    + intros (H1 & H2 & H3). split; [exact H1|]. split; [|exact H3]. apply not_true_iff_false. intros K.
      apply existsb_exists in K. destruct K as (a & Ha & Q). apply bstr_eqb_eq in Q. exact (H2 a Ha Q).
Qed.
Lemma structure_disjunct_path l : forall g s g' s', structure_ok g -> s < length (sts g) ->
  disjunct_path g l s = Ok (g', s') -> structure_ok g' /\ s' < length (sts g').
Proof.
  induction l as [|p l IH]; intros g s g' s' H Hs E; simpl in E.
  - injection E as <- <-. auto.
  - destruct (find _ _) as [a|] eqn:F.
    + apply IH in E; [exact E|exact H|]. apply find_some in F. destruct H as (_ & H2 & _). exact (H2 _ _ (proj1 F)).
    + destruct (negb _); [discriminate|]. apply IH in E; [exact E| |].
      * apply structure_add_transition, (structure_add_state g H).
      * rewrite length_add_transition. simpl. lia.
Qed.
Lemma swap_finals_other s1 s2 f s : s <> s1 -> s <> s2 ->
  mget Nat.compare s (swap_finals s1 s2 f) = mget Nat.compare s f.
Proof.
  intros N1 N2. unfold swap_finals. destruct (mget Nat.compare s1 f), (mget Nat.compare s2 f);
    repeat first [rewrite (mget_mset_other Nat.compare Nat.compare_eq_iff) by assumption |
                  rewrite (mget_mdel_other Nat.compare Nat.compare_eq_iff) by assumption]; reflexivity.
Qed.
Lemma structure_substitute_graph p h g g' : structure_ok g -> substitute_graph p h g = Ok g' -> structure_ok g'.
Proof.
  intros H. unfold substitute_graph. destruct (negb (valid_pair p)); [discriminate|].
  destruct (_ && _); [intros E; injection E as <-; exact H|]. destruct (existsb _ _); [discriminate|].
  intros E. injection E as <-. apply structure_fold_add; [apply structure_add_substitution|].
  apply structure_map; [exact H|reflexivity|]. intros l a Ha. apply filter_In in Ha. exists a. tauto.
Qed.
Lemma structure_insert_freely ps w g g' : structure_ok g -> insert_freely ps w g = Ok g' -> structure_ok g'.
Proof.
  intros H. unfold insert_freely. destruct (existsb _ ps); [discriminate|]. intros E. injection E as <-.
  assert (H1 : structure_ok (add_pairs g ps)) by (apply (structure_eq g); [exact H|apply add_pairs_sts]).
  apply (structure_lengths (add_pairs g ps)); [exact H1| | |].
  - simpl. rewrite add_loops_length. lia.
  - intros s a. unfold arcs. simpl. rewrite add_loops_nth, add_loops_length.
    destruct (Nat.ltb_spec s (length (sts (add_pairs g ps)))); [|simpl; tauto].
    rewrite in_app_iff, in_map_iff. intros [Ha|(p & <- & _)]; [exact (proj1 (proj2 H1) _ _ Ha)|simpl; lia].
  - intros s v E. simpl. rewrite add_loops_length. exact (proj2 (proj2 H1) _ _ E).
Qed.
Theorem structure_run_op g o g' : structure_ok g -> run_op g o = Ok g' -> structure_ok g'.
Proof.
  intros H E. destruct o; cbn [run_op] in E;
    try (injection E as <-).
  - apply (structure_add_state g H).
  - apply structure_add_state_n. exact H.
  - destruct (valid_pair _); [injection E as <-|discriminate]. apply structure_add_transition. exact H.
  - unfold remove_transition. destruct (Nat.leb_spec (length (sts g)) s); [exact H|].
    assert (H1 : structure_ok (with_sts g (upd s (filter (fun b => negb (same_arc b a)) (arcs g s)) (sts g)))).
    { apply structure_sts; [exact H|apply upd_length|]. intros t b Hb. exists b. split; [|reflexivity].
      destruct (Nat.eq_dec t s) as [->|N]; [rewrite nth_upd_same in Hb by assumption; apply filter_In in Hb; tauto|].
      rewrite nth_upd_other in Hb by exact N. exact Hb. }
    destruct remove_symbols; [|exact H1]. repeat destruct (smem _ _ _); exact H1.
  - apply structure_set_final. exact H.
  - apply structure_remove_final. exact H.
  - exact H.
  - exact H.
  - unfold prune_alphabet. destruct (_ && _); exact H.
  - apply structure_map; [exact H|reflexivity|]. intros l a Ha. apply std_sort_In in Ha. eauto.
  - unfold substitute_symbol in E. destruct (_ || _); [discriminate|]. destruct (bstr_eqb old new); [injection E as <-; exact H|].
    destruct (negb _); [injection E as <-; exact H|]. injection E as <-.
    match goal with |- structure_ok (with_sts ?x _) => set (g3 := x) end.
    assert (H3 : structure_ok g3) by (unfold g3; destruct (existsb _ _), (_ && _); exact H).
    apply structure_map; [exact H3|reflexivity|]. intros l a Ha. apply in_map_iff in Ha. destruct Ha as (b & <- & Hb). exists b. tauto.
  - unfold substitute_symbols in E. destruct (existsb _ m); [discriminate|]. injection E as <-.
    assert (H1 : structure_ok (add_symbols g (flat_map (added_by_map m) (concat (sts g)))))
      by (apply (structure_eq g); [exact H|apply add_symbols_sts]).
    apply structure_map; [exact H1|reflexivity|]. intros l a Ha. apply in_map_iff in Ha. destruct Ha as (b & <- & Hb). exists b. tauto.
  - unfold substitute_symbol_pairs in E. destruct (existsb _ m); [discriminate|]. injection E as <-.
    assert (H1 : structure_ok (add_symbols g (flat_map (added_by_pairs m) (concat (sts g)))))
      by (apply (structure_eq g); [exact H|apply add_symbols_sts]).
    apply structure_map; [exact H1|reflexivity|]. intros l a Ha. apply in_map_iff in Ha. destruct Ha as (b & <- & Hb). exists b. tauto.
  - unfold substitute_pair_with_set in E. destruct (_ || _); [discriminate|]. injection E as <-.
    unfold substitute_pair_set_. destruct ps as [|q ps].
    + unfold remove_transitions.
      assert (H1 : structure_ok (with_sts g (map (remove_loop p) (sts g)))).
      { apply structure_map; [exact H|reflexivity|]. intros l a Ha. apply remove_loop_In in Ha. eauto. }
      repeat destruct (existsb _ _); exact H1.
    + assert (H1 : structure_ok (with_sts g (map (subst_set_state p (q :: ps)) (sts g)))).
      { apply structure_map; [exact H|reflexivity|]. intros l a Ha. apply subst_set_state_tgt in Ha. exact Ha. }
      eapply structure_eq; [|apply prune_after_sts]. destruct (existsb _ _); [|exact H1].
      eapply structure_eq; [exact H1|apply add_pairs_sts].
  - unfold substitute_func in E. destruct (subst_func_states f (sts g)) as [[ls ps]| | |] eqn:E1; try discriminate.
    cbn [rmap] in E. injection E as <-. eapply structure_eq; [|apply add_pairs_sts].
    destruct (subst_func_states_spec _ _ _ _ E1) as (L & A & _). apply structure_sts; [exact H|exact L|].
    intros s a Ha. apply A in Ha. destruct Ha as [[Ha _]|(b & qs & q & Hb & _ & _ & ->)]; [eauto|]. exists b. split; [exact Hb|reflexivity].
  - eapply structure_substitute_graph; eassumption.
  - unfold substitute_submap in E. destruct (existsb _ m); [discriminate|].
    destruct (negb _); [injection E as <-; exact H|]. destruct (negb _); [discriminate|]. injection E as <-.
    apply structure_fold_add; [apply structure_add_substitution|]. eapply structure_eq; [|apply remove_symbols_sts].
    apply structure_map; [exact H|reflexivity|]. intros l a Ha. apply filter_In in Ha. exists a. tauto.
  - eapply structure_insert_freely; eassumption.
  - unfold insert_freely_graph in E. destruct (insert_freely _ 0 g) as [g1| | |] eqn:E1; try discriminate. cbn [rbind] in E.
    destruct (substitute_graph _ h g1) as [g2| | |] eqn:E2; try discriminate. cbn [rmap] in E. injection E as <-.
    apply structure_alpha. eapply structure_substitute_graph; [|exact E2]. eapply structure_insert_freely; eassumption.
  - unfold disjunct in E. destruct (disjunct_path g l 0) as [[g1 s]| | |] eqn:E1; try discriminate. cbn [rmap] in E. injection E as <-.
    assert (L : 0 < length (sts g)) by (destruct H as (H1 & _); destruct (sts g); [congruence|simpl; lia]).
    destruct (structure_disjunct_path _ _ _ _ _ H L E1) as [H1 _].
    destruct (finw g1 s) as [old|]; [destruct (_ <? _)%Z; [exact H1|]|]; apply structure_set_final; exact H1.
  - unfold complete in E. destruct (add_state g) as [g1 fl] eqn:Ea. injection Ea as <- <-.
    destruct (complete_states _ _ _) as [ls| | |] eqn:E1; try discriminate. cbn [rmap] in E. injection E as <-.
    destruct (complete_states_spec _ _ _ _ E1) as [L A]. pose proof (structure_add_state g H) as H1. simpl in H1.
    apply (structure_lengths (with_sts g (sts g ++ [[]]))); [exact H1|simpl in *; lia| |].
    + intros s a Ha. unfold arcs in Ha. cbn [sts with_sts] in *. rewrite L.
      assert (Hs : s < length (sts g ++ [[]])).
      { destruct (Nat.lt_ge_cases s (length (sts g ++ [[]]))); [assumption|]. rewrite nth_overflow in Ha by lia. destruct Ha. }
      specialize (A s Hs). apply complete_state_In in A. destruct A as (mi & Em & _). rewrite Em in Ha.
      apply in_app_iff in Ha. destruct Ha as [Ha|Ha].
      * exact (proj1 (proj2 H1) s a Ha).
      * apply in_map_iff in Ha. destruct Ha as (x & <- & _). simpl. rewrite app_length. simpl. lia.
    + intros s w E. cbn [sts with_sts] in *. rewrite L. exact (proj2 (proj2 H1) s w E).
  - unfold flag_purge. eapply structure_eq; [|apply remove_symbols_sts].
    apply structure_map; [exact H|reflexivity|]. intros l a Ha. apply in_map_iff in Ha. destruct Ha as (b & <- & Hb).
    exists b. split; [exact Hb|]. destruct (_ || _); reflexivity.
  - apply structure_insert_transducer. exact H.
  - unfold swap_state_numbers in E. destruct (negb _) eqn:B; [discriminate|]. apply negb_false_iff, andb_true_iff in B.
    destruct B as [B1 B2]. apply Nat.ltb_lt in B1, B2. destruct (_ && _); [discriminate|]. injection E as <-.
    assert (L : forall x y : list arc, length (upd s2 x (upd s1 y (sts g))) = length (sts g)) by (intros; rewrite !upd_length; reflexivity).
    apply (structure_lengths g); [exact H|cbn [sts]; rewrite map_length, L; lia| |]; cbn [sts fin]; rewrite ?map_length, ?L.
    + intros s a. unfold arcs at 1. cbn [sts]. rewrite nth_map_nil by reflexivity. intros Ha. apply in_map_iff in Ha.
      destruct Ha as (b & <- & Hb). cbn [tgt].
      assert (Hb' : exists t, In b (arcs g t)).
      { destruct (Nat.eq_dec s s2) as [->|N2]; [rewrite nth_upd_same in Hb by (rewrite upd_length; exact B2); eauto|].
        rewrite nth_upd_other in Hb by exact N2. destruct (Nat.eq_dec s s1) as [->|N1].
        - rewrite nth_upd_same in Hb by exact B1. eauto.
        - rewrite nth_upd_other in Hb by exact N1. exists s. exact Hb. }
      destruct Hb' as [t Ht]. apply (proj1 (proj2 H)) in Ht. unfold swap_target. destruct (_ =? _); [exact B1|]. destruct (_ =? _); [exact B2|exact Ht].
    + intros s w E. destruct (Nat.eq_dec s s1) as [->|N1]; [exact B1|]. destruct (Nat.eq_dec s s2) as [->|N2]; [exact B2|].
      unfold finw in E. cbn [fin] in E. rewrite swap_finals_other in E by assumption. exact (proj2 (proj2 H) s w E).
Qed.
