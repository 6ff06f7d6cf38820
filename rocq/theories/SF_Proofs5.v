(** What copies, unions, concatenations and iterations accept. *)
From Verif Require Import Base SF_Spec SF_Model SF_Proofs SF_Proofs2 SF_Proofs3 SF_Proofs4.

Lemma emit_app l u v : emit l u ++ v = emit l (u ++ v).
Proof. destruct l as [[|a] [|b]]; reflexivity. Qed.
Lemma relabel_emit f l w : f (0, 0) = (0, 0) -> relabel f (emit l w) = emit (f l) (relabel f w).
Proof.
  intros H. rewrite (emit_eq l). destruct (is_epsilon l) eqn:E; [|reflexivity].
  apply is_epsilon_eq in E. subst l. rewrite H. reflexivity.
Qed.
Lemma relabel_cons f l w : relabel f (l :: w) = emit (f l) (relabel f w).
Proof. reflexivity. Qed.
Lemma relabel_id w : ~ In (0, 0) w -> relabel (fun l => l) w = w.
Proof.
  induction w as [|l w IH]; [reflexivity|]. intros H. rewrite relabel_cons, IH; [|intros C; apply H; right; exact C].
  rewrite emit_eq. destruct (is_epsilon l) eqn:E; [|reflexivity].
  apply is_epsilon_eq in E. subst l. exfalso. apply H. left. reflexivity.
Qed.
Lemma kreads_no_eps {K} (sc : K -> list (label * K)) fin k w : kreads sc fin k w -> ~ In (0, 0) w.
Proof.
  induction 1 as [|k a w Ha H IH]; [intros []|]. rewrite emit_eq. destruct (is_epsilon (fst a)) eqn:E; [exact IH|].
  intros [C|C]; [|exact (IH C)]. rewrite C in E. discriminate.
Qed.
Lemma kreads_relabel {K} (f : label -> label) (sc : K -> list (label * K)) fin k w : f (0, 0) = (0, 0) ->
  kreads (fun x => map (fun a => (f (fst a), snd a)) (sc x)) fin k w <-> exists u, kreads sc fin k u /\ w = relabel f u.
Proof.
  intros Hf. split.
  - induction 1 as [k F|k a w Ha H IH].
    + exists []. split; [constructor; exact F|reflexivity].
    + apply in_map_iff in Ha. destruct Ha as (b & <- & Hb). destruct IH as (u & Hu & ->). cbn [fst snd] in *.
      exists (emit (fst b) u). split; [constructor; assumption|]. symmetry. apply relabel_emit, Hf.
  - intros (u & H & ->). induction H as [k F|k a w Ha H IH]; [constructor; exact F|].
    rewrite relabel_emit by exact Hf. apply (kreads_step _ _ k (f (fst a), snd a)); [|exact IH].
    apply in_map_iff. exists a. auto.
Qed.
Lemma kreach_reachable h n x : kreach (fun n => out (node_at h n)) n x <-> reachable h n x.
Proof.
  split.
  - induction 1 as [|k [l t] x Ha H IH]; [constructor|]. econstructor; [exact Ha|exact IH].
  - induction 1 as [|n l t k Ha H IH]; [constructor|]. econstructor; [exact Ha|exact IH].
Qed.
Lemma reachable_trans h a b c : reachable h a b -> reachable h b c -> reachable h a c.
Proof. induction 1 as [|n l m k Hi R IH]; [tauto|]. intros H. econstructor; [exact Hi|auto]. Qed.
Lemma reachable_lt h n x : graph_ok h -> n < length h -> reachable h n x -> x < length h.
Proof.
  intros [_ G] Hn R. revert Hn. induction R as [n|n l m k Hi R IH]; intros Hn; [exact Hn|].
  apply IH. destruct (G n Hn) as [G1 _]. exact (G1 _ _ Hi).
Qed.
Lemma graph_root h : graph_ok h -> 0 < length h.
Proof. intros [H _]. destruct h; [congruence|simpl; lia]. Qed.

(** Reading depends only on the nodes that can be reached. *)
Lemma reads_agree g g' (A : nat -> Prop) :
  (forall n l t, A n -> In (l, t) (out (node_at g n)) -> A t) ->
  (forall n, A n -> node_at g n = node_at g' n) ->
  forall n w, A n -> reads g n w <-> reads g' n w.
Proof.
  intros C E n w Hn. rewrite !reads_kreads. apply kreads_ext with (A := A); [|intros k a Hk; rewrite E; tauto|intros k Hk; rewrite E; auto|exact Hn].
  intros k [l t] Hk Ha. exact (C _ _ _ Hk Ha).
Qed.
Lemma reachable_agree g g' (A : nat -> Prop) :
  (forall n l t, A n -> In (l, t) (out (node_at g n)) -> A t) ->
  (forall n, A n -> node_at g n = node_at g' n) ->
  forall n x, A n -> reachable g n x -> reachable g' n x.
Proof.
  intros C E n x Hn R. induction R as [n|n l m k Hi R IH]; [constructor|].
  econstructor; [rewrite <- E; [exact Hi|exact Hn]|apply IH; eauto].
Qed.

(** The label sets. *)
Lemma label_cmp_eq a b : label_cmp a b = Eq <-> a = b.
Proof.
  destruct a as [a1 a2], b as [b1 b2]. unfold label_cmp. cbn [fst snd]. destruct (a1 ?= b1) eqn:E.
  - apply Nat.compare_eq in E. subst. rewrite Nat.compare_eq_iff. split; congruence.
  - split; [discriminate|]. intros H. injection H as -> ->. rewrite Nat.compare_refl in E. discriminate.
  - split; [discriminate|]. intros H. injection H as -> ->. rewrite Nat.compare_refl in E. discriminate.
Qed.
Lemma In_insert_label l x s : In x (insert_label l s) <-> In x s \/ x = l /\ l <> (0, 0).
Proof.
  unfold insert_label. destruct (is_epsilon l) eqn:E.
  - apply is_epsilon_eq in E. subst. intuition congruence.
  - assert (l <> (0, 0)) by (intros C; subst; discriminate). rewrite (In_sadd label_cmp label_cmp_eq). intuition congruence.
Qed.
Lemma In_insert_labels ls : forall s x, In x (insert_labels ls s) <-> In x s \/ In x ls /\ x <> (0, 0).
Proof.
  unfold insert_labels. induction ls as [|l ls IH]; intros s x; cbn [fold_left]; [simpl; tauto|].
  rewrite IH, In_insert_label. cbn [In]. split; [|intuition congruence].
  intros [[H|[-> H]]|[H H']]; auto.
Qed.
Lemma no_eps_insert ls s : ~ In (0, 0) s -> ~ In (0, 0) (insert_labels ls s).
Proof. intros H C. apply In_insert_labels in C. tauto. Qed.

(** A graph built on nothing is in order. *)
Lemma built_graph_ok {K} (keqb : K -> K -> bool) base v fin edge g m k :
  built keqb 0 base v fin edge g m -> find_key keqb k m = Some 0 -> graph_ok g.
Proof.
  intros HB H0. split.
  - apply (b_range _ _ _ _ _ _ _ _ HB) in H0. intros ->. simpl in H0. lia.
  - intros n Hn. split.
    + intros l t Ht. apply (built_targets _ _ _ _ _ _ _ _ HB n l t); [lia|exact Hn|exact Ht].
    + intros t. apply (built_no_eps _ _ _ _ _ _ _ _ HB); [lia|exact Hn].
Qed.

(** copy *)
Definition flip (l : label) : label := (snd l, fst l).
Lemma recode_flip b l : recode_label b l = if b then flip l else l.
Proof. destruct b; reflexivity. Qed.
Lemma recode_invol b l : recode_label b (recode_label b l) = l.
Proof. destruct b, l; reflexivity. Qed.
Lemma recode_eps b : recode_label b (0, 0) = (0, 0).
Proof. destruct b; reflexivity. Qed.
Lemma relabel_recode b w : ~ In (0, 0) w -> relabel (recode_label b) w = map (recode_label b) w.
Proof.
  induction w as [|l w IH]; [reflexivity|]. intros H. rewrite relabel_cons, IH; [|intros C; apply H; right; exact C].
  rewrite emit_eq. destruct (is_epsilon (recode_label b l)) eqn:E; [|reflexivity].
  apply is_epsilon_eq in E. exfalso. apply H. left. rewrite <- (recode_invol b l), E. apply recode_eps.
Qed.
Lemma reads_no_eps h n w : reads h n w -> ~ In (0, 0) w.
Proof. rewrite reads_kreads. apply kreads_no_eps. Qed.
Lemma copied_reads h b base v g m lo k n w :
  built Nat.eqb lo base v (fun x => final (node_at h x)) (fun x => map (recoded b) (out (node_at h x))) g m ->
  forward k m = Some n -> (reads g n w <-> reads h k (map (recode_label b) w)).
Proof.
  intros HB Hn. rewrite (built_reads _ _ _ _ _ _ _ _ HB k n w Hn).
  change (fun x => map (recoded b) (out (node_at h x)))
    with (fun x => map (fun a : label * nat => (recode_label b (fst a), snd a)) (out (node_at h x))).
  rewrite kreads_relabel by apply recode_eps. split.
  - intros (u & Hu & ->). rewrite relabel_recode by exact (kreads_no_eps _ _ _ _ Hu).
    rewrite map_map, (map_ext _ (fun l => l)) by (intros; apply recode_invol). rewrite map_id. apply reads_kreads, Hu.
  - intros H. exists (map (recode_label b) w). split; [apply reads_kreads, H|].
    rewrite relabel_recode by exact (reads_no_eps _ _ _ H).
    rewrite map_map, (map_ext _ (fun l => l)) by (intros; apply recode_invol). rewrite map_id. reflexivity.
Qed.
Lemma kreach_map b h x y : kreach (fun n => map (recoded b) (out (node_at h n))) x y <-> reachable h x y.
Proof.
  split.
  - induction 1 as [|k a x Ha H IH]; [constructor|]. apply in_map_iff in Ha. destruct Ha as ([l t] & <- & Ha).
    econstructor; [exact Ha|exact IH].
  - induction 1 as [|n l t k Ha H IH]; [constructor|].
    apply kr_step with (recoded b (l, t)); [|exact IH]. apply in_map, Ha.
Qed.
Lemma map_recode_inj b (u v : list label) : map (recode_label b) u = map (recode_label b) v -> u = v.
Proof.
  intros H. apply (f_equal (map (recode_label b))) in H. rewrite !map_map in H.
  rewrite !(map_ext (fun x => recode_label b (recode_label b x)) (fun l => l)), !map_id in H by (intros; apply recode_invol). exact H.
Qed.
Lemma map_recode_twice b (u : list label) : map (recode_label b) (map (recode_label b) u) = u.
Proof. rewrite map_map, (map_ext _ (fun l => l)) by (intros; apply recode_invol). apply map_id. Qed.

Lemma copy_correct b t : trans_ok t -> exists r, copy b t = Ok r /\ trans_ok r /\
  (forall w, lang r w <-> lang t (map (recode_label b) w)) /\
  det r = det t /\ mini r = mini t /\ (forall l, In l (labels r) <-> In (recode_label b l) (labels t)).
Proof.
  intros (G & Hd & Hm & Hl). unfold copy.
  destruct (copy_root_built (nodes t) b G) as (v & g & m & E & HB & H0 & Hv).
  destruct (visit _ _ _ _ _ _ _ _ _) as [[vis s]| | |]; try discriminate E. cbn [rbind snd] in E |- *. subst s.
  cbn [rmap]. eexists. split; [reflexivity|].
  assert (RL : forall k n w, forward k m = Some n -> (reads g n w <-> reads (nodes t) k (map (recode_label b) w))).
  { intros k n w. apply (copied_reads (nodes t) b _ v g m 0 k n w HB). }
  assert (RR : forall i, reachable g 0 i -> exists x, forward x m = Some i /\ reachable (nodes t) 0 x).
  { intros i Hi. destruct (built_reach _ _ _ _ _ _ _ _ HB 0 0 i H0 Hi) as (x & Hx & Rx). exists x. split; [exact Hx|].
    apply (kreach_map b). exact Rx. }
  assert (Gg : graph_ok g) by (apply (built_graph_ok _ _ _ _ _ _ _ 0 HB H0)).
  assert (DD : deterministic (nodes t) -> deterministic g).
  { intros D i Hi. destruct (RR i Hi) as (x & Hx & Rx). destruct (D x Rx) as [D1 D2].
    apply (built_det _ _ _ _ _ _ _ _ HB i x Hx).
    - intros l y Hy. apply in_map_iff in Hy. destruct Hy as ([l' y'] & H & Hin). injection H as <- <-.
      unfold out in Hin. rewrite D1 in Hin. cbn [map app] in Hin. cbn [fst].
      intros C. assert (l' = (0, 0)) by (rewrite <- (recode_invol b l'), C; apply recode_eps). subst.
      assert (Lx : x < length (nodes t)) by (apply (reachable_lt (nodes t) 0); [exact G|apply graph_root, G|exact Rx]).
      destruct G as [_ G]. destruct (G x Lx) as [_ G2]. exact (G2 _ Hin).
    - rewrite map_map. unfold out. rewrite D1. cbn [map app].
      change (NoDup (map (fun a : label * nat => recode_label b (@fst label nat a)) (arcs (node_at (nodes t) x)))).
      rewrite <- (map_map (@fst label nat) (recode_label b)). apply FinFun.Injective_map_NoDup; [|exact D2].
      intros x1 x2 Hx12. rewrite <- (recode_invol b x1), Hx12. apply recode_invol. }
  assert (Lb : forall l, In l (insert_labels (map (recode_label b) (labels t)) []) <-> In (recode_label b l) (labels t)).
  { intros l. rewrite In_insert_labels, in_map_iff. split.
    - intros [[]|[(l' & <- & H) _]]. rewrite recode_invol. exact H.
    - intros H. right. split; [exists (recode_label b l); split; [apply recode_invol|exact H]|].
      intros ->. rewrite recode_eps in H. exact (Hl H). }
  split; [|split; [|split; [reflexivity|split; [reflexivity|exact Lb]]]].
  - split; [exact Gg|]. split; [intros H; apply DD, Hd, H|]. split.
    + intros H. destruct (Hm H) as (M1 & M2 & M3). split; [apply DD, M1|]. cbn [nodes]. split.
      * intros n1 n2 Hn1 Hn2 Heq. destruct (RR n1 Hn1) as (x1 & X1 & R1). destruct (RR n2 Hn2) as (x2 & X2 & R2).
        assert (x1 = x2); [|congruence]. apply M2; [assumption..|]. intros w.
        rewrite <- (map_recode_twice b w), <- (RL x1 n1 _ X1), <- (RL x2 n2 _ X2). apply Heq.
      * intros n l' t' Hn Hi. destruct (RR n Hn) as (x & X & Rx). apply (b_out _ _ _ _ _ _ _ _ HB _ _ _ _ X) in Hi.
        destruct Hi as (y & Hy & Yt). apply in_map_iff in Hy. destruct Hy as ([l2 y2] & Ey & Hy). unfold recoded in Ey. cbn [fst snd] in Ey. injection Ey as <- ->.
        destruct (M3 x l2 y Rx Hy) as [w Hw]. exists (map (recode_label b) w). apply (RL y t' _ Yt). rewrite map_recode_twice. exact Hw.
    + cbn [labels]. intros C. apply Lb in C. rewrite recode_eps in C. exact (Hl C).
  - intros w. exact (RL 0 0 w H0).
Qed.

(** Two copies in one heap. *)
Section TwoCopies.
  Variables h1 h2 : list node.
  Hypothesis (G1 : graph_ok h1) (G2 : graph_ok h2).
  (** [g]: the root, a copy of [h1] from [n1] on, and a copy of [h2] from [n2] on. *)
  Record twice (n1 n2 mid : nat) (g : list node) : Prop := {
    tw_lt : 1 <= mid /\ mid <= length g;
    tw_n1 : 1 <= n1 /\ n1 < mid;
    tw_n2 : mid <= n2 /\ n2 < length g;
    tw_t1 : forall n l t, 1 <= n -> n < mid -> In (l, t) (out (node_at g n)) -> 1 <= t /\ t < mid;
    tw_t2 : forall n l t, mid <= n -> n < length g -> In (l, t) (out (node_at g n)) -> mid <= t /\ t < length g;
    tw_e : forall n t, 1 <= n -> n < length g -> ~ In ((0, 0), t) (arcs (node_at g n));
    tw_r1 : forall w, reads g n1 w <-> reads h1 0 w;
    tw_r2 : forall w, reads g n2 w <-> reads h2 0 w }.
  Lemma two_copies : exists g1 n1 g2 n2,
    copy_nodes h1 false 0 [fresh] = Ok (g1, n1) /\
    copy_nodes h2 false 0 (add_arc 0 (0, 0) n1 g1) = Ok (g2, n2) /\
    twice n1 n2 (length g1) g2 /\ node_at g2 0 = Node [n1] [] false.
  Proof using G1 G2.
    destruct (copy_nodes_built h1 false G1 [fresh]) as (v1 & g1 & m1 & n1 & E1 & B1 & F1 & _).
    destruct (copy_nodes_built h2 false G2 (add_arc 0 (0, 0) n1 g1)) as (v2 & g2 & m2 & n2 & E2 & B2 & F2 & _).
    exists g1, n1, g2, n2. split; [exact E1|]. split; [exact E2|].
    pose proof (b_lo _ _ _ _ _ _ _ _ B1) as L1. cbn [length] in L1.
    pose proof (b_lo _ _ _ _ _ _ _ _ B2) as L2. rewrite add_arc_length in L2.
    assert (S1 : forall n, 1 <= n -> n < length g1 -> node_at g2 n = node_at g1 n).
    { intros n H1 H2. rewrite (b_base _ _ _ _ _ _ _ _ B2) by (rewrite add_arc_length; exact H2).
      rewrite node_at_add_arc by lia. destruct (Nat.eqb_spec n 0); [lia|reflexivity]. }
    assert (T1 : forall n l t, 1 <= n -> n < length g1 -> In (l, t) (out (node_at g1 n)) -> 1 <= t /\ t < length g1).
    { intros n l t H1 H2 H. exact (built_targets _ _ _ _ _ _ _ _ B1 n l t H1 H2 H). }
    assert (N1 : 1 <= n1 /\ n1 < length g1) by (apply (b_range _ _ _ _ _ _ _ _ B1 _ _ F1)).
    split.
    - constructor.
      + lia.
      + exact N1.
      + destruct (b_range _ _ _ _ _ _ _ _ B2 _ _ F2) as [_ H]. rewrite add_arc_length in H. exact H.
      + intros n l t H1 H2. rewrite S1 by assumption. apply T1; assumption.
      + intros n l t H1 H2 H. rewrite <- (add_arc_length 0 (0, 0) n1 g1) in H1 |- *.
        exact (built_targets _ _ _ _ _ _ _ _ B2 n l t H1 H2 H).
      + intros n t H1 H2. destruct (Nat.lt_ge_cases n (length g1)) as [H|H].
        * rewrite S1 by assumption. exact (built_no_eps _ _ _ _ _ _ _ _ B1 n t H1 H).
        * rewrite <- (add_arc_length 0 (0, 0) n1 g1) in H. exact (built_no_eps _ _ _ _ _ _ _ _ B2 n t H H2).
      + intros w. transitivity (reads g1 n1 w).
        * apply (reads_agree g2 g1 (fun n => 1 <= n /\ n < length g1)); [|intros n [H1 H2]; auto|exact N1].
          intros n l t [H1 H2]. rewrite S1 by assumption. apply T1; assumption.
        * rewrite (copied_reads h1 false _ _ _ _ _ 0 n1 w B1 F1). cbn [recode_label].
          rewrite map_id. reflexivity.
      + intros w. rewrite (copied_reads h2 false _ _ _ _ _ 0 n2 w B2 F2). cbn [recode_label].
        rewrite map_id. reflexivity.
    - rewrite (b_base _ _ _ _ _ _ _ _ B2) by (rewrite add_arc_length; lia).
      rewrite node_at_add_arc by lia. cbn [Nat.eqb].
      rewrite (b_base _ _ _ _ _ _ _ _ B1) by (cbn; lia). reflexivity.
  Qed.
End TwoCopies.

Lemma reads_root_eps g ts : node_at g 0 = Node ts [] false ->
  forall w, reads g 0 w <-> exists t, In t ts /\ reads g t w.
Proof.
  intros H w. split.
  - inversion 1 as [n F|n l t w' Hi R]; subst; [rewrite H in F; discriminate|].
    rewrite H in Hi. unfold out in Hi. cbn [eps arcs] in Hi. rewrite app_nil_r in Hi.
    apply in_map_iff in Hi. destruct Hi as (t' & E & Ht). injection E as <- <-. exists t'. auto.
  - intros (t & Ht & R). change w with (emit (0, 0) w). apply reads_step with t; [|exact R].
    rewrite H. unfold out. cbn [eps arcs]. rewrite app_nil_r. apply in_map_iff. eauto.
Qed.

Lemma union_correct t u : trans_ok t -> trans_ok u -> exists r, union t u = Ok r /\ trans_ok r /\
  (forall w, lang r w <-> lang t w \/ lang u w) /\
  (forall l, In l (labels r) <-> In l (labels t) \/ In l (labels u)).
Proof.
  intros (G1 & _ & _ & E1) (G2 & _ & _ & E2). unfold union.
  destruct (two_copies (nodes t) (nodes u) G1 G2) as (g1 & n1 & g2 & n2 & C1 & C2 & TW & R0).
  rewrite C1. cbn [rbind]. rewrite C2. cbn [rbind]. eexists. split; [reflexivity|].
  destruct TW as [[T1 T2] N1 N2 T3 T4 T5 T6 T7].
  set (g := add_arc 0 (0, 0) n2 g2).
  assert (N : forall n, 1 <= n -> node_at g n = node_at g2 n).
  { intros n H. unfold g. rewrite node_at_add_arc by lia. destruct (Nat.eqb_spec n 0); [lia|reflexivity]. }
  assert (N0 : node_at g 0 = Node [n2; n1] [] false).
  { unfold g. rewrite node_at_add_arc by lia. cbn [Nat.eqb]. rewrite R0. reflexivity. }
  assert (Lg : length g = length g2) by apply add_arc_length.
  split; [|split].
  - split; [|split; [discriminate|split; [discriminate|]]]; cbn [nodes labels].
    + split; [intros C; unfold g in *; rewrite C in Lg; cbn in Lg; lia|]. rewrite Lg. intros n Hn.
      destruct (Nat.eq_dec n 0) as [->|Hn0].
      * rewrite N0. cbn [out eps arcs map app]. split; [|intros t' []].
        intros l t' [H|[H|[]]]; injection H as <- <-; lia.
      * rewrite N by lia. split; [|intros t'; apply T5; lia].
        intros l t' H. destruct (Nat.lt_ge_cases n (length g1)).
        -- apply T3 in H; lia.
        -- apply T4 in H; lia.
    + apply no_eps_insert, no_eps_insert. intros [].
  - intros w. unfold lang. cbn [nodes]. rewrite (reads_root_eps g _ N0), <- T6, <- T7.
    assert (A1 : reads g n1 w <-> reads g2 n1 w).
    { apply (reads_agree g g2 (fun n => 1 <= n /\ n < length g1)); [|intros n [H1 H2]; apply N; exact H1|exact N1].
      intros n l t' [H1 H2]. rewrite N by exact H1. apply T3; assumption. }
    assert (A2 : reads g n2 w <-> reads g2 n2 w).
    { apply (reads_agree g g2 (fun n => length g1 <= n /\ n < length g2)); [|intros n [H1 H2]; apply N; lia|exact N2].
      intros n l t' [H1 H2]. rewrite N by lia. apply T4; assumption. }
    split.
    + intros (x & [<-|[<-|[]]] & H); tauto.
    + intros [H|H]; [exists n1|exists n2]; (split; [simpl; tauto|tauto]).
  - intros l. cbn [labels]. rewrite !In_insert_labels. cbn [In]. split; [tauto|].
    intros [H|H]; [left; right|right]; (split; [exact H|]); intros ->; tauto.
Qed.

(** rec_cat_nodes *)
Lemma node_at_cat n2 k s n : k < length s ->
  node_at (add_arc k (0, 0) n2 (set_final k false s)) n =
  if n =? k then Node (n2 :: eps (node_at s k)) (arcs (node_at s k)) false else node_at s n.
Proof.
  intros Lk. rewrite node_at_add_arc by (rewrite set_final_length; exact Lk).
  destruct (Nat.eqb_spec n k) as [->|N].
  - rewrite node_at_set_final, Nat.eqb_refl by exact Lk. reflexivity.
  - rewrite node_at_set_final by exact Lk. rewrite (proj2 (Nat.eqb_neq n k) N). reflexivity.
Qed.
Section Cat.
  Variables (h : list node) (n2 : nat).
  Hypothesis G : forall n l t, n < length h -> In (l, t) (out (node_at h n)) -> t < length h.
  Let sc (n : nat) := out (node_at h n).
  Definition catted (n : nat) : node :=
    if final (node_at h n) then Node (n2 :: eps (node_at h n)) (arcs (node_at h n)) false else node_at h n.
  Lemma rec_cat_result r : r < length h -> exists h',
    rec_cat_nodes r n2 h = Ok h' /\ length h' = length h /\
    (forall n, reachable h r n -> node_at h' n = catted n) /\
    (forall n, ~ reachable h r n -> node_at h' n = node_at h n) /\
    (forall n, reachable h r n \/ ~ reachable h r n).
  Proof using G.
    intros Hr. unfold rec_cat_nodes.
    set (P := fun (vis : list nat) (s : list node) => length s = length h /\ forall n, ~ In n vis -> node_at s n = node_at h n).
    assert (PL : forall vis s k, P vis s -> In k vis -> P vis (cat_leave n2 k s)).
    { intros vis s k [P1 P2] Hk. unfold cat_leave. destruct (final (node_at s k)) eqn:F; [|split; assumption].
      assert (Lk : k < length s).
      { destruct (Nat.lt_ge_cases k (length s)) as [|H]; [assumption|]. rewrite node_at_over in F by exact H. discriminate. }
      split; [rewrite add_arc_length, set_final_length; exact P1|]. intros n Hn.
      rewrite node_at_cat by exact Lk.
      destruct (Nat.eqb_spec n k) as [->|]; [contradiction|]. apply P2, Hn. }
    destruct (visit_total Nat.eqb Nat.eqb_eq out_now nothing (cat_leave n2) nothing3 nothing2 sc P) with
      (U := seq 0 (length h)) (fuel := S (length h)) (k := r) (vis := @nil nat) (s := h) as (evs & E & HP & L).
    - intros vis s k [P1 P2] Hk. unfold nothing, out_now. split; [rewrite P2 by exact Hk; reflexivity|].
      split; [exact P1|]. intros n Hn. apply P2. intros C. apply Hn. right. exact C.
    - intros; assumption.
    - intros; assumption.
    - intros; apply PL; assumption.
    - intros k [l t]. rewrite !in_seq. cbn [snd]. intros Hk Ha. assert (k < length h) by lia. pose proof (G k l t H Ha). lia.
    - split; [reflexivity|]. reflexivity.
    - apply in_seq. lia.
    - pose proof (cnt_le_U Nat.eqb (seq 0 (length h)) []) as H. rewrite seq_length in H. lia.
    - rewrite E. cbn [rmap rbind snd]. eexists. split; [reflexivity|]. destruct HP as [P1 P2]. split; [exact P1|].
      assert (Ent : forall n, entered n evs <-> reachable h r n).
      { intros n. rewrite (log_reach Nat.eqb Nat.eqb_eq sc r evs L). apply kreach_reachable. }
      split.
      + intros n Hn. destruct (vl_full _ _ _ _ _ L n) as (_ & _ & Hlv); [apply Ent, Hn|].
        clear - Hlv. revert Hlv.
        assert (Gen : forall s, leaves Nat.eqb n evs = [tt] -> node_at s n = node_at h n ->
                  node_at (acts nothing (cat_leave n2) nothing3 nothing2 evs s) n = catted n).
        { assert (Gen0 : forall es s, leaves Nat.eqb n es = [] -> node_at (acts nothing (cat_leave n2) nothing3 nothing2 es s) n = node_at s n).
          { induction es as [|e es IH]; intros s Hl; [reflexivity|]. cbn [acts fold_left].
            change (node_at (acts nothing (cat_leave n2) nothing3 nothing2 es (act nothing (cat_leave n2) nothing3 nothing2 s e)) n = node_at s n).
            destruct e as [k|k a b|k a|k]; cbn [leaves flat_map app] in Hl; try (apply IH; exact Hl).
            cbn [leaves flat_map] in Hl. destruct (Nat.eqb_spec n k) as [->|Nk]; [discriminate|].
            rewrite IH by exact Hl. cbn [act]. unfold cat_leave. destruct (final (node_at s k)) eqn:F; [|reflexivity].
            assert (Lk : k < length s).
            { destruct (Nat.lt_ge_cases k (length s)) as [|H]; [assumption|]. rewrite node_at_over in F by exact H. discriminate. }
            rewrite node_at_cat by exact Lk.
            rewrite (proj2 (Nat.eqb_neq n k) Nk). reflexivity. }
          induction evs as [|e es IH]; intros s Hl Hs; [discriminate|].
          change (node_at (acts nothing (cat_leave n2) nothing3 nothing2 es (act nothing (cat_leave n2) nothing3 nothing2 s e)) n = catted n).
          destruct e as [k|k a b|k a|k]; cbn [leaves flat_map app] in Hl; try (apply IH; [exact Hl|exact Hs]).
          destruct (Nat.eqb_spec n k) as [->|Nk].
          - cbn [app] in Hl. injection Hl as Hl. rewrite Gen0 by exact Hl. cbn [act]. unfold cat_leave, catted. rewrite Hs.
            destruct (final (node_at h k)) eqn:F; [|exact Hs].
            assert (Lk : k < length s).
            { destruct (Nat.lt_ge_cases k (length s)) as [|H]; [assumption|]. rewrite <- Hs, node_at_over in F by exact H. discriminate. }
            rewrite node_at_cat by exact Lk.
            rewrite Nat.eqb_refl, Hs. reflexivity.
          - apply IH; [exact Hl|]. cbn [act]. unfold cat_leave. destruct (final (node_at s k)) eqn:F; [|exact Hs].
            assert (Lk : k < length s).
            { destruct (Nat.lt_ge_cases k (length s)) as [|H]; [assumption|]. rewrite node_at_over in F by exact H. discriminate. }
            rewrite node_at_cat by exact Lk.
            rewrite (proj2 (Nat.eqb_neq n k) Nk). exact Hs. }
        intros Hlv. apply Gen; [exact Hlv|reflexivity].
      + split.
        * intros n Hn. apply P2. intros C. apply grow_In in C. destruct C as [[]|C]. apply Hn, Ent, C.
        * intros n. destruct (in_dec Nat.eq_dec n (grow [] evs)) as [H|H].
          -- left. apply grow_In in H. destruct H as [[]|H]. apply Ent, H.
          -- right. intros C. apply H, grow_In. right. apply Ent, C.
  Qed.
End Cat.
