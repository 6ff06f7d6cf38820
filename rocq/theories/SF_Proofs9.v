(** Repetition; adding a path. *)
From Verif Require Import Base SF_Spec SF_Model SF_Proofs SF_Proofs2 SF_Proofs3 SF_Proofs4 SF_Proofs5 SF_Proofs6.

Lemma single_ok b f : trans_ok (Trans [Node [] [] f] b b []).
Proof.
  assert (G : graph_ok [Node [] [] f]).
  { split; [discriminate|]. cbn [length]. intros n Hn. assert (n = 0) by lia. subst. cbn. split; intros; auto. destruct H. }
  assert (R : forall n, reachable [Node [] [] f] 0 n -> n = 0).
  { intros n H. inversion H as [|n' l m k Hi R]; subst; [reflexivity|destruct Hi]. }
  assert (D : deterministic [Node [] [] f]).
  { intros n H. apply R in H. subst. cbn. split; [reflexivity|constructor]. }
  split; [exact G|]. split; [intros _; exact D|]. split; [|intros []].
  intros _. split; [exact D|]. split; [intros n m Hn Hm _; apply R in Hn, Hm; congruence|]. intros n l t Hn Hi. apply R in Hn. subst. destruct Hi.
Qed.
Lemma single_lang b f w : lang (Trans [Node [] [] f] b b []) w <-> f = true /\ w = [].
Proof.
  unfold lang. cbn [nodes]. split.
  - inversion 1 as [n F|n l t w' Hi R]; subst; [cbn in F; auto|destruct Hi].
  - intros [-> ->]. constructor. reflexivity.
Qed.
Lemma repeat_plus_correct t : trans_ok t -> exists r, repeat_plus t = Ok r /\ trans_ok r /\
  (forall w, lang r w <-> exists u v, w = u ++ v /\ lang t u /\ star (lang t) v) /\ (forall l, In l (labels r) <-> In l (labels t)).
Proof.
  intros T. unfold repeat_plus. destruct (kleene_star_correct t T) as (s & E & S1 & S2 & S3). rewrite E. cbn [rbind].
  destruct (concatenation_correct t s) as (r & E2 & R1 & R2 & R3 & _); [apply T|apply S1|]. exists r. split; [exact E2|]. split; [exact R1|]. split.
  - intros w. rewrite R2. split; intros (u & v & -> & H1 & H2); exists u, v; (split; [reflexivity|]); split; auto; apply S2; exact H2.
  - intros l. rewrite R3, S3. split; [tauto|]. intros H. split; [auto|]. intros ->. destruct T as (_ & _ & _ & T). exact (T H).
Qed.
Lemma repeat_from_correct t n : trans_ok t -> forall p i, trans_ok p -> (forall w, lang p w <-> power (lang t) i w) ->
  (forall l, In l (labels p) -> In l (labels t)) -> exists r, repeat_from p t n = Ok r /\ trans_ok r /\
  (forall w, lang r w <-> power (lang t) (n + i) w) /\ (forall l, In l (labels r) -> In l (labels t)).
Proof.
  intros T. induction n as [|n IH]; intros p i P L A; cbn [repeat_from].
  - exists p. auto.
  - destruct (concatenation_correct p t) as (r & E2 & R1 & R2 & R3 & _); [apply P|apply T|]. rewrite E2. cbn [rbind].
    destruct (IH r (S i)) as (r' & E' & R1' & R2' & R3'); [exact R1| | |].
    + intros w. rewrite R2. cbn [power]. split; intros (u & v & -> & H1 & H2); exists u, v; (split; [reflexivity|]); split; auto; apply L; exact H1.
    + intros l H. apply R3 in H. destruct H as [[H|H] _]; auto.
    + exists r'. split; [exact E'|]. split; [exact R1'|]. split; [|exact R3']. intros w. rewrite R2', Nat.add_succ_r. reflexivity.
Qed.
Lemma repeat_n_correct t n : trans_ok t -> exists r, repeat_n t n = Ok r /\ trans_ok r /\
  (forall w, lang r w <-> power (lang t) n w) /\ (forall l, In l (labels r) -> In l (labels t)).
Proof.
  intros T. destruct (repeat_from_correct t n T epsilon_transducer 0) as (r & E & R1 & R2 & R3).
  - apply (single_ok false true).
  - intros w. rewrite (single_lang false true). cbn [power]. tauto.
  - intros l [].
  - exists r. split; [exact E|]. split; [exact R1|]. split; [|exact R3]. intros w. rewrite R2, Nat.add_0_r. reflexivity.
Qed.
Lemma repeat_le_n_correct t n : trans_ok t -> exists r, repeat_le_n t n = Ok r /\ trans_ok r /\
  (forall w, lang r w <-> exists k, k <= n /\ power (lang t) k w) /\ (forall l, In l (labels r) -> In l (labels t)).
Proof.
  intros T. unfold repeat_le_n.
  assert (Gen : forall m, exists r, fold_left (fun r i => rbind r (fun result => rbind (repeat_n t i) (fun power => union power result))) (seq 0 m) (Ok empty_transducer) = Ok r /\
     trans_ok r /\ (forall w, lang r w <-> exists k, k < m /\ power (lang t) k w) /\ (forall l, In l (labels r) -> In l (labels t))).
  { induction m as [|m (r & E & R1 & R2 & R3)].
    - exists empty_transducer. split; [reflexivity|]. split; [apply (single_ok false false)|]. split; [|intros l []].
      intros w. rewrite (single_lang false false). split; [intros [C _]; discriminate|intros (k & Hk & _); lia].
    - rewrite seq_S, fold_left_app, E. cbn [fold_left rbind Nat.add].
      destruct (repeat_n_correct t m T) as (p & Ep & P1 & P2 & P3). rewrite Ep. cbn [rbind].
      destruct (union_correct p r P1 R1) as (r' & E' & U1 & U2 & U3). exists r'. split; [exact E'|]. split; [exact U1|]. split.
      + intros w. rewrite U2, P2, R2. split.
        * intros [H|(k & Hk & H)]; [exists m|exists k]; (split; [lia|exact H]).
        * intros (k & Hk & H). destruct (Nat.eq_dec k m) as [->|]; [auto|]. right. exists k. split; [lia|exact H].
      + intros l H. apply U3 in H. destruct H; auto. }
  destruct (Gen (S n)) as (r & E & R1 & R2 & R3). exists r. split; [exact E|]. split; [exact R1|]. split; [|exact R3].
  intros w. rewrite R2. split; intros (k & Hk & H); exists k; (split; [lia|exact H]).
Qed.
Lemma optionalize_correct t : trans_ok t -> exists r, optionalize t = Ok r /\ trans_ok r /\
  (forall w, lang r w <-> lang t w \/ w = []) /\ (forall l, In l (labels r) <-> In l (labels t)).
Proof.
  intros T. unfold optionalize. destruct (union_correct t epsilon_transducer T (single_ok false true)) as (r & E & R1 & R2 & R3).
  exists r. split; [exact E|]. split; [exact R1|]. split.
  - intros w. rewrite R2, (single_lang false true). tauto.
  - intros l. rewrite R3. cbn [labels epsilon_transducer In]. tauto.
Qed.

(** Adding a path to a tree. *)
Lemma way_unique h u v n : is_tree h -> way h 0 u n -> way h 0 v n -> u = v.
Proof.
  intros [T0 T1] H. revert v. induction H as [|u y l z H IH Hi]; intros v H'.
  - inversion H' as [|v' y' l' z' H1 H2]; subst; [reflexivity|]. exfalso. exact (T0 _ _ H2).
  - inversion H' as [|v' y' l' z' H1 H2]; subst; [exfalso; exact (T0 _ _ Hi)|].
    destruct (T1 _ _ _ _ _ Hi H2) as [<- <-]. rewrite (IH _ H1). reflexivity.
Qed.
Lemma reads_iff_way h x w : reads h x w <-> exists z, final (node_at h z) = true /\ way h x w z.
Proof.
  split.
  - intros R. destruct (reads_way _ _ _ R) as (z & F & H). exists z. split; [exact F|]. exact (H x [] (way_here h x)).
  - intros (z & F & H). rewrite <- (app_nil_r w). apply (way_reads h x w z); [exact H|]. constructor. exact F.
Qed.
Lemma set_final_reads h n x w : n < length h -> reads (set_final n true h) x w <-> reads h x w \/ way h x w n.
Proof.
  intros Hn.
  assert (O : forall i, out (node_at (set_final n true h) i) = out (node_at h i)).
  { intros i. rewrite node_at_set_final by exact Hn. destruct (Nat.eqb_spec i n) as [->|]; reflexivity. }
  assert (W : forall u z, way (set_final n true h) x u z <-> way h x u z).
  { intros u z. split; intros H; induction H as [|u y l z H IH Hi]; [constructor|econstructor; [exact IH|]|constructor|econstructor; [exact IH|]].
    - rewrite O in Hi. exact Hi.
    - rewrite O. exact Hi. }
  rewrite !reads_iff_way. split.
  - intros (z & F & H). apply W in H. rewrite node_at_set_final in F by exact Hn. destruct (Nat.eqb_spec z n) as [Ez|Nz]; [subst z; right; exact H|].
    left. exists z. auto.
  - intros [(z & F & H)|H].
    + exists z. split; [|apply W, H]. rewrite node_at_set_final by exact Hn. destruct (Nat.eqb_spec z n) as [->|]; [reflexivity|exact F].
    + exists n. split; [|apply W, H]. rewrite node_at_set_final, Nat.eqb_refl by exact Hn. reflexivity.
Qed.
Section Grow.
  Variables (h : list node) (n : nat) (l : label).
  Hypothesis (G : graph_ok h) (Hn : n < length h).
  Let h' := add_arc n l (length h) (h ++ [fresh]).
  Lemma grow_node i : node_at h' i = if i =? n then with_arc l (length h) (node_at h n) else node_at h i.
  Proof using Hn.
    unfold h'. rewrite node_at_add_arc by (rewrite app_length; lia).
    destruct (Nat.eqb_spec i n) as [->|]; [rewrite node_at_app by exact Hn; reflexivity|].
    destruct (Nat.lt_ge_cases i (length h)) as [H|H]; [apply node_at_app, H|].
    rewrite (node_at_over h i) by exact H. destruct (Nat.eq_dec i (length h)) as [->|]; [apply node_at_last|].
    apply node_at_over. rewrite app_length. cbn [length]. lia.
  Qed.
  Lemma grow_out i k t : In (k, t) (out (node_at h' i)) <-> In (k, t) (out (node_at h i)) \/ i = n /\ k = l /\ t = length h.
  Proof using Hn.
    rewrite grow_node. destruct (Nat.eqb_spec i n) as [->|N]; [rewrite out_with_arc|split; [auto|intros [H|[H _]]; [exact H|contradiction]]].
    split; [intros [H|H]; [injection H as -> ->; auto|auto]|intros [H|(_ & -> & ->)]; auto].
  Qed.
  Lemma grow_length : length h' = S (length h).
  Proof. unfold h'. rewrite add_arc_length, app_length. cbn [length]. lia. Qed.
  Lemma out_lt i k t : In (k, t) (out (node_at h i)) -> i < length h /\ t < length h.
  Proof using G.
    intros H. destruct (Nat.lt_ge_cases i (length h)) as [Hi|Hi].
    - split; [exact Hi|]. exact (proj1 (proj2 G i Hi) _ _ H).
    - rewrite node_at_over in H by exact Hi. destruct H.
  Qed.
  Lemma grow_graph_ok : graph_ok h'.
  Proof using G Hn.
    split; [intros C; pose proof grow_length as H; rewrite C in H; discriminate|]. rewrite grow_length. intros i Hi. split.
    - intros k t. rewrite grow_out. intros [H|(_ & _ & ->)]; [apply out_lt in H; lia|lia].
    - intros t. rewrite grow_node. assert (N : ~ In ((0, 0), t) (arcs (node_at h i))).
      { destruct (Nat.lt_ge_cases i (length h)) as [H|H]; [apply (proj2 G i H)|]. rewrite node_at_over by exact H. intros []. }
      destruct (Nat.eqb_spec i n) as [->|]; [|exact N]. unfold with_arc. destruct (is_epsilon l) eqn:El; [exact N|]. cbn [arcs].
      intros [C|C]; [|exact (N C)]. injection C as C _. subst l. discriminate.
  Qed.
  Lemma grow_tree : is_tree h -> is_tree h'.
  Proof using G Hn.
    intros [T0 T1]. split.
    - intros i k. rewrite grow_out. intros [H|(_ & _ & C)]; [exact (T0 _ _ H)|]. pose proof (graph_root _ G). lia.
    - intros i k i' k' t. rewrite !grow_out. intros [H|(-> & -> & ->)] [H'|(-> & -> & Ht)].
      + exact (T1 _ _ _ _ _ H H').
      + subst t. apply out_lt in H. lia.
      + apply out_lt in H'. lia.
      + auto.
  Qed.
  Lemma grow_way x u z : way h x u z -> way h' x u z.
  Proof using Hn. induction 1 as [|u y k z H IH Hi]; [constructor|]. econstructor; [exact IH|]. apply grow_out. auto. Qed.
  Lemma grow_reads x w : x < length h -> reads h' x w <-> reads h x w.
  Proof using G Hn.
    intros Hx. split.
    - intros R. revert Hx. induction R as [i F|i k t w Hi R IH]; intros Hx.
      + constructor. rewrite grow_node in F. destruct (Nat.eqb_spec i n) as [Ei|]; [subst i; rewrite final_with_arc in F|]; exact F.
      + apply grow_out in Hi. destruct Hi as [Hi|(-> & -> & ->)].
        * apply reads_step with t; [exact Hi|]. apply IH. apply out_lt in Hi. tauto.
        * exfalso. assert (O : node_at h' (length h) = Node [] [] false).
          { rewrite grow_node. destruct (Nat.eqb_spec (length h) n); [lia|]. apply node_at_over. lia. }
          inversion R as [j F|j k t w' Hi R']; subst; [rewrite O in F; discriminate|rewrite O in Hi; destruct Hi].
    - intros R. apply reads_iff_way in R. destruct R as (z & F & H). apply reads_iff_way. exists z. split; [|apply grow_way, H].
      rewrite grow_node. destruct (Nat.eqb_spec z n) as [Ez|]; [subst z; rewrite final_with_arc|]; exact F.
  Qed.
End Grow.
Lemma target_In d l y : target_node d l = Some y -> In (l, y) (out d).
Proof.
  unfold target_node. destruct (find _ (arcs d)) as [[l' y']|] eqn:E; [|discriminate]. cbn [option_map snd].
  intros H. injection H as ->. apply find_some in E. cbn [fst] in E. destruct E as [E1 E2]. apply label_eqb_eq in E2. subst.
  apply in_app_iff. right. exact E1.
Qed.
(** The labels of a path that leave a trace. *)
Definition heard (path : list label) : list label := filter (fun l => negb (is_epsilon l)) path.
Lemma heard_app a b : heard (a ++ b) = heard a ++ heard b. Proof. apply filter_app. Qed.
Lemma heard_one l : heard [l] = emit l [].
Proof. unfold heard. cbn [filter]. rewrite emit_eq. destruct (is_epsilon l); reflexivity. Qed.
Lemma path_steps t path : graph_ok (nodes t) -> is_tree (nodes t) ->
  exists r n, fold_left (fun s l => path_step l s) path (t, 0) = (r, n) /\ n < length (nodes r) /\
    graph_ok (nodes r) /\ is_tree (nodes r) /\ way (nodes r) 0 (heard path) n /\
    (forall w, reads (nodes r) 0 w <-> reads (nodes t) 0 w) /\ det r = det t /\ mini r = mini t /\
    (forall l, In l (labels r) <-> In l (labels t) \/ In l (heard path)).
Proof.
  intros G T. induction path as [|l path (r & n & E & Hn & Gr & Tr & W & L & D & M & A)] using rev_ind.
  - exists t, 0. split; [reflexivity|]. split; [apply graph_root, G|]. split; [exact G|]. split; [exact T|]. split; [constructor|].
    split; [reflexivity|]. split; [reflexivity|]. split; [reflexivity|]. intros l. cbn. tauto.
  - rewrite fold_left_app, E. cbn [fold_left]. unfold path_step.
    assert (Lb : forall k, In k (insert_label l (labels r)) <-> In k (labels t) \/ In k (heard (path ++ [l]))).
    { intros k. rewrite In_insert_label, A, heard_app, in_app_iff, heard_one, emit_eq. destruct (is_epsilon l) eqn:El.
      - apply is_epsilon_eq in El. subst l. cbn [In]. intuition congruence.
      - assert (l <> (0, 0)) by (intros C; subst; discriminate). cbn [In]. intuition congruence. }
    destruct (target_node (node_at (nodes r) n) l) as [n'|] eqn:Et.
    + eexists _, _. split; [reflexivity|]. cbn [nodes det mini labels].
      apply target_In in Et. split; [exact (proj1 (proj2 Gr n Hn) _ _ Et)|]. split; [exact Gr|]. split; [exact Tr|].
      split; [rewrite heard_app, heard_one; econstructor; eauto|]. auto.
    + eexists _, _. split; [reflexivity|]. cbn [nodes det mini labels]. pose proof (graph_root _ Gr) as L0.
      split; [rewrite grow_length; lia|]. split; [apply grow_graph_ok; assumption|]. split; [apply grow_tree; assumption|].
      split; [rewrite heard_app, heard_one; econstructor; [apply grow_way; [exact Hn|exact W]|apply grow_out; auto]|].
      split; [|auto]. intros w. rewrite grow_reads by assumption. apply L.
Qed.
Lemma disjunct_path_correct t path : graph_ok (nodes t) -> is_tree (nodes t) ->
  graph_ok (nodes (disjunct_path t path)) /\ is_tree (nodes (disjunct_path t path)) /\
  (forall w, lang (disjunct_path t path) w <-> lang t w \/ w = heard path) /\
  (forall l, In l (labels (disjunct_path t path)) <-> In l (labels t) \/ In l (heard path)).
Proof.
  intros G T. unfold disjunct_path. destruct (path_steps t path G T) as (r & n & E & Hn & Gr & Tr & W & L & D & M & A). rewrite E.
  cbn [nodes labels].
  assert (O : forall i, out (node_at (set_final n true (nodes r)) i) = out (node_at (nodes r) i) /\ arcs (node_at (set_final n true (nodes r)) i) = arcs (node_at (nodes r) i)).
  { intros i. rewrite node_at_set_final by exact Hn. destruct (Nat.eqb_spec i n) as [->|]; auto. }
  split; [|split; [|split; [|exact A]]].
  - split; [intros C; apply (f_equal (@length node)) in C; rewrite set_final_length in C; cbn [length] in C; lia|].
    rewrite set_final_length. intros i Hi. destruct (O i) as [-> ->]. apply (proj2 Gr i Hi).
  - destruct Tr as [T0 T1]. split.
    + intros i l. destruct (O i) as [-> _]. apply T0.
    + intros i l i' l' x. destruct (O i) as [-> _]. destruct (O i') as [-> _]. apply T1.
  - intros w. unfold lang at 1. cbn [nodes]. rewrite set_final_reads by exact Hn. rewrite L. split.
    + intros [H|H]; [auto|]. right. exact (way_unique _ _ _ _ Tr H W).
    + intros [H| ->]; auto.
Qed.
