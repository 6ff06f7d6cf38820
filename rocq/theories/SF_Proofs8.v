(** Conjunction and composition. *)
From Verif Require Import Base SF_Spec SF_Model SF_Proofs SF_Proofs2 SF_Proofs3 SF_Proofs4 SF_Proofs5 SF_Proofs6 SF_Proofs7.

(** Reading in a deterministic graph. *)
Lemma det_out h n : graph_ok h -> deterministic h -> reachable h 0 n ->
  out (node_at h n) = arcs (node_at h n) /\ (forall t, ~ In ((0, 0), t) (arcs (node_at h n))) /\ NoDup (map fst (arcs (node_at h n))).
Proof.
  intros G D R. destruct (D n R) as [D1 D2]. unfold out. rewrite D1. split; [reflexivity|]. split; [|exact D2].
  apply (proj2 G n). apply (reachable_lt h 0); [exact G|apply graph_root, G|exact R].
Qed.
Lemma det_reads_nil h n : graph_ok h -> deterministic h -> reachable h 0 n -> reads h n [] <-> final (node_at h n) = true.
Proof.
  intros G D R. destruct (det_out h n G D R) as (E & N & _). split; [|intros F; constructor; exact F].
  intros H. remember (@nil label) as w eqn:Ew. destruct H as [n F|n l t w Hi H]; [exact F|].
  rewrite emit_eq in Ew. destruct (is_epsilon l) eqn:El; [|discriminate]. apply is_epsilon_eq in El. subst l.
  rewrite E in Hi. exfalso. exact (N _ Hi).
Qed.
Lemma det_reads_cons h n l w : graph_ok h -> deterministic h -> reachable h 0 n ->
  reads h n (l :: w) <-> exists t, In (l, t) (arcs (node_at h n)) /\ reads h t w.
Proof.
  intros G D R. destruct (det_out h n G D R) as (E & N & _). split.
  - intros H. remember (l :: w) as w' eqn:Ew. destruct H as [n F|n l' t w' Hi H]; [discriminate|].
    rewrite E in Hi. rewrite emit_eq in Ew. destruct (is_epsilon l') eqn:El.
    + apply is_epsilon_eq in El. subst l'. exfalso. exact (N _ Hi).
    + injection Ew as -> ->. exists t. auto.
  - intros (t & Hi & H). assert (El : emit l w = l :: w).
    { rewrite emit_eq. destruct (is_epsilon l) eqn:El; [|reflexivity]. apply is_epsilon_eq in El. subst l. exfalso. exact (N _ Hi). }
    rewrite <- El. apply reads_step with t; [rewrite E; exact Hi|exact H].
Qed.
Lemma reachable_next h n l t : reachable h 0 n -> In (l, t) (out (node_at h n)) -> reachable h 0 t.
Proof. intros Hn Hi. eapply reachable_trans; [exact Hn|]. econstructor; [exact Hi|constructor]. Qed.

Lemma target_node_In d l y : target_node d l = Some y -> In (l, y) (arcs d).
Proof.
  unfold target_node. destruct (find _ (arcs d)) as [[l' y']|] eqn:E; [|discriminate]. cbn [option_map snd].
  intros H. injection H as ->. apply find_some in E. cbn [fst] in E. destruct E as [E1 E2]. apply label_eqb_eq in E2. subst. exact E1.
Qed.
Lemma In_target_node d l y : NoDup (map fst (arcs d)) -> In (l, y) (arcs d) -> target_node d l = Some y.
Proof.
  unfold target_node. induction (arcs d) as [|[l' y'] r IH]; [intros _ []|]. cbn [map fst find]. intros ND [E|Hi].
  - injection E as -> ->. rewrite (proj2 (label_eqb_eq l l) eq_refl). reflexivity.
  - inversion ND as [|? ? N ND']; subst. destruct (label_eqb l' l) eqn:El.
    + apply label_eqb_eq in El. subst l'. exfalso. apply N. apply (in_map (@fst label nat)) in Hi. exact Hi.
    + apply IH; assumption.
Qed.
Lemma In_conjoin h1 h2 p l x y : In (l, (x, y)) (conjoin_succ h1 h2 p) <->
  In (l, x) (out (node_at h1 (fst p))) /\ target_node (node_at h2 (snd p)) l = Some y.
Proof.
  unfold conjoin_succ. rewrite in_flat_map. split.
  - intros ([l' x'] & Hi & H). cbn [fst snd] in H. destruct (target_node _ l') as [t2|] eqn:E; [|destruct H].
    destruct H as [H|[]]. injection H as -> -> ->. auto.
  - intros [H1 H2]. exists (l, x). split; [exact H1|]. cbn [fst snd]. rewrite H2. left. reflexivity.
Qed.
Lemma pairs_closed (h1 h2 : list node) (sc : nat * nat -> list (label * (nat * nat))) :
  (forall p a, fst p < length h1 -> snd p < length h2 -> In a (sc p) -> fst (snd a) < length h1 /\ snd (snd a) < length h2) ->
  forall k, In k (list_prod (seq 0 (length h1)) (seq 0 (length h2))) -> exists l, Ok (sc k) = Ok l /\
    forall a, In a l -> In (snd a) (list_prod (seq 0 (length h1)) (seq 0 (length h2))).
Proof.
  intros C [i j] Hk. exists (sc (i, j)). split; [reflexivity|]. intros [l [x y]] Ha. cbn [snd].
  apply in_prod_iff in Hk. rewrite !in_seq in Hk. destruct (C (i, j) _ ltac:(cbn; lia) ltac:(cbn; lia) Ha) as [C1 C2].
  apply in_prod_iff. rewrite !in_seq. cbn [fst snd] in C1, C2. lia.
Qed.
Lemma pair_explore h1 h2 (sc : nat * nat -> list (label * (nat * nat))) fin : graph_ok h1 -> graph_ok h2 ->
  (forall p a, fst p < length h1 -> snd p < length h2 -> In a (sc p) -> fst (snd a) < length h1 /\ snd (snd a) < length h2) ->
  exists v g m, explore pair_eqb (fun p => Ok (sc p)) fin (S (length h1 * length h2)) (0, 0) = Ok g /\
    built pair_eqb 0 (node_at []) v fin sc g m /\ find_key pair_eqb (0, 0) m = Some 0.
Proof.
  intros G1 G2 C.
  destruct (explore_built pair_eqb pair_eqb_eq (fun p => Ok (sc p)) fin (0, 0) (list_prod (seq 0 (length h1)) (seq 0 (length h2))))
    with (fuel := S (length h1 * length h2)) as (v & g & m & E & HB & H0 & _).
  - apply in_prod_iff. rewrite !in_seq. pose proof (graph_root _ G1). pose proof (graph_root _ G2). lia.
  - apply pairs_closed, C.
  - rewrite prod_length, !seq_length. lia.
  - exists v, g, m. split; [exact E|]. split; [exact HB|exact H0].
Qed.
Lemma conjoin_explore h1 h2 : graph_ok h1 -> graph_ok h2 -> deterministic h1 -> deterministic h2 -> exists g,
  explore pair_eqb (fun p => Ok (conjoin_succ h1 h2 p)) (both_final h1 h2) (S (length h1 * length h2)) (0, 0) = Ok g /\
  graph_ok g /\ deterministic g /\ forall w, reads g 0 w <-> reads h1 0 w /\ reads h2 0 w.
Proof.
  intros G1 G2 D1 D2.
  destruct (pair_explore h1 h2 (conjoin_succ h1 h2) (both_final h1 h2) G1 G2) as (v & g & m & E & HB & H0).
  { intros [i j] [l [x y]] Hi Hj Ha. cbn [fst snd] in *. apply In_conjoin in Ha. destruct Ha as [H1 H2]. cbn [fst snd] in *.
    split; [exact (proj1 (proj2 G1 i Hi) _ _ H1)|]. apply target_node_In in H2.
    apply (proj1 (proj2 G2 j Hj) l). apply in_app_iff. right. exact H2. }
  exists g. split; [exact E|]. split; [exact (built_graph_ok _ _ _ _ _ _ _ _ HB H0)|].
  assert (Out : forall i j l x y, reachable h1 0 i -> In (l, (x, y)) (conjoin_succ h1 h2 (i, j)) ->
            l <> (0, 0) /\ In (l, x) (out (node_at h1 i)) /\ In (l, y) (arcs (node_at h2 j))).
  { intros i j l x y Ri Ha. apply In_conjoin in Ha. cbn [fst snd] in Ha. destruct Ha as [H1 H2].
    destruct (det_out h1 i G1 D1 Ri) as (E1 & N1 & _). split; [|split; [exact H1|apply target_node_In, H2]].
    rewrite E1 in H1. intros ->. exact (N1 _ H1). }
  assert (KR : forall p q, kreach (conjoin_succ h1 h2) p q -> reachable h1 0 (fst p) -> reachable h2 0 (snd p) ->
            reachable h1 0 (fst q) /\ reachable h2 0 (snd q)).
  { induction 1 as [p|[i j] [l [x y]] q Ha R IH]; intros R1 R2; [auto|]. cbn [fst snd] in *.
    destruct (Out i j l x y R1 Ha) as (_ & H1 & H2). apply IH; [exact (reachable_next _ _ _ _ R1 H1)|].
    apply (reachable_next h2 j l); [exact R2|]. apply in_app_iff. right. exact H2. }
  split.
  - intros n Hn. destruct (built_reach _ _ _ _ _ _ _ _ HB _ 0 n H0 Hn) as ([i j] & Hk & Rk).
    destruct (KR _ _ Rk) as [Ri Rj]; [constructor..|]. cbn [fst snd] in Ri, Rj.
    apply (built_det _ _ _ _ _ _ _ _ HB n (i, j) Hk).
    + intros l [x y] Hy. exact (proj1 (Out i j l x y Ri Hy)).
    + destruct (det_out h1 i G1 D1 Ri) as (E1 & _ & ND). unfold conjoin_succ. cbn [fst snd]. rewrite E1. clear -ND.
      induction (arcs (node_at h1 i)) as [|[l t] r IH]; [constructor|]. cbn [map fst flat_map snd] in *. inversion ND as [|? ? N ND']; subst.
      destruct (target_node (node_at h2 j) l); [|exact (IH ND')]. cbn [app map fst]. constructor; [|exact (IH ND')].
      intros C. apply N. apply in_map_iff in C. destruct C as ([l' p] & Ep & Hp). cbn [fst] in Ep. subst l'.
      apply in_flat_map in Hp. destruct Hp as ([l' t'] & Ht' & Hp). cbn [fst snd] in Hp.
      destruct (target_node (node_at h2 j) l'); [|destruct Hp]. destruct Hp as [Hp|[]]. injection Hp as -> _.
      apply in_map_iff. exists (l, t'). auto.
  - intros w. rewrite (built_reads _ _ _ _ _ _ _ _ HB (0, 0) 0 w H0).
    assert (Gen : forall w i j, reachable h1 0 i -> reachable h2 0 j ->
              kreads (conjoin_succ h1 h2) (both_final h1 h2) (i, j) w <-> reads h1 i w /\ reads h2 j w).
    { clear w. intros w i j Ri Rj. split.
      - intros H. remember (i, j) as p eqn:Ep. revert i j Ri Rj Ep. induction H as [p F|p [l [x y]] w Ha H IH]; intros i j Ri Rj ->.
        + unfold both_final in F. cbn [fst snd] in F. apply Bool.andb_true_iff in F. split; constructor; apply F.
        + destruct (Out i j l x y Ri Ha) as (Nl & H1 & H2). cbn [fst snd] in *.
          assert (H2' : In (l, y) (out (node_at h2 j))) by (apply in_app_iff; right; exact H2).
          destruct (IH x y (reachable_next _ _ _ _ Ri H1) (reachable_next _ _ _ _ Rj H2') eq_refl) as [I1 I2].
          split; econstructor; eauto.
      - revert i j Ri Rj. induction w as [|l w IH]; intros i j Ri Rj [H1 H2].
        + constructor. unfold both_final. cbn [fst snd]. apply (det_reads_nil _ _ G1 D1 Ri) in H1. apply (det_reads_nil _ _ G2 D2 Rj) in H2.
          rewrite H1, H2. reflexivity.
        + apply (det_reads_cons _ _ _ _ G1 D1 Ri) in H1. apply (det_reads_cons _ _ _ _ G2 D2 Rj) in H2.
          destruct H1 as (x & X1 & X2), H2 as (y & Y1 & Y2).
          destruct (det_out h1 i G1 D1 Ri) as (E1 & N1 & _). destruct (det_out h2 j G2 D2 Rj) as (E2 & _ & ND2).
          assert (El : emit l w = l :: w).
          { rewrite emit_eq. destruct (is_epsilon l) eqn:El; [|reflexivity]. apply is_epsilon_eq in El. subst l. exfalso. exact (N1 _ X1). }
          rewrite <- El. apply (kreads_step _ _ (i, j) (l, (x, y))).
          * apply In_conjoin. cbn [fst snd]. rewrite E1. split; [exact X1|]. apply In_target_node; assumption.
          * cbn [snd]. apply IH; [| |split; assumption].
            -- apply (reachable_next h1 i l); [exact Ri|rewrite E1; exact X1].
            -- apply (reachable_next h2 j l); [exact Rj|rewrite E2; exact Y1]. }
    apply Gen; constructor.
Qed.

Lemma conjunction_correct t u : trans_ok t -> trans_ok u -> exists r, conjunction t u = Ok r /\ trans_ok r /\
  det r = true /\ (forall w, lang r w <-> lang t w /\ lang u w) /\
  (forall l, In l (labels r) <-> In l (labels t) \/ In l (labels u)).
Proof.
  intros T U. unfold conjunction.
  assert (Get : forall x, trans_ok x -> exists d, (if det x then Ok x else determinise true x) = Ok d /\ graph_ok (nodes d) /\ deterministic (nodes d) /\
            forall w, reads (nodes d) 0 w <-> lang x w).
  { intros x X. destruct (det x) eqn:Dx.
    - exists x. split; [reflexivity|]. split; [apply X|]. split; [exact (proj1 (proj2 X) Dx)|]. reflexivity.
    - destruct (determinise_correct true x X) as (r & E & R & D & _ & L & _). exists r. split; [exact E|]. split; [apply R|]. split; [exact D|]. exact L. }
  destruct (Get t T) as (d1 & E1 & G1 & D1 & L1). destruct (Get u U) as (d2 & E2 & G2 & D2 & L2). rewrite E1. cbn [rbind]. rewrite E2. cbn [rbind].
  destruct (conjoin_explore (nodes d1) (nodes d2) G1 G2 D1 D2) as (g & E & Gg & Dg & Lg). rewrite E. cbn [rmap]. eexists. split; [reflexivity|].
  destruct T as (_ & _ & _ & T), U as (_ & _ & _ & U).
  split; [|split; [reflexivity|split]].
  - split; [exact Gg|]. split; [intros _; exact Dg|]. split; [discriminate|]. cbn [labels]. apply no_eps_insert, no_eps_insert. intros [].
  - intros w. unfold lang at 1. cbn [nodes]. rewrite Lg, L1, L2. reflexivity.
  - intros l. cbn [labels]. rewrite !In_insert_labels. cbn [In]. split; [tauto|].
    intros [H|H]; [left; right|right]; (split; [exact H|]); intros ->; tauto.
Qed.

(** Composition. *)
Lemma In_arcs_with f c d l t : In (l, t) (arcs_with f c d) <-> In (l, t) (out d) /\ f l = c.
Proof. unfold arcs_with. rewrite filter_In. cbn [fst]. rewrite Nat.eqb_eq. reflexivity. Qed.
Lemma In_compose h1 h2 p l q : In (l, q) (compose_succ h1 h2 p) <->
  (exists t, In (l, t) (out (node_at h1 (fst p))) /\ snd l = 0 /\ q = (t, snd p)) \/
  (exists t, In (l, t) (out (node_at h2 (snd p))) /\ fst l = 0 /\ q = (fst p, t)) \/
  (exists l1 l2 t1 t2, In (l1, t1) (out (node_at h1 (fst p))) /\ In (l2, t2) (out (node_at h2 (snd p))) /\
     snd l1 = fst l2 /\ snd l1 <> 0 /\ l = (fst l1, snd l2) /\ q = (t1, t2)).
Proof.
  unfold compose_succ. destruct (symbols_on _ _ <=? symbols_on _ _); rewrite in_app_iff, in_flat_map, in_map_iff; split.
  - intros [([l1 t1] & H1 & H)|([l2 t2] & E & H)]; cbn [fst snd] in *.
    + destruct (Nat.eqb_spec (snd l1) 0) as [Z|NZ].
      * destruct H as [H|[]]. injection H as -> <-. left. exists t1. auto.
      * apply in_map_iff in H. destruct H as ([l2 t2] & E & H). cbn [fst snd] in E. injection E as <- <-.
        apply In_arcs_with in H. destruct H as [H2 H3]. right. right. exists l1, l2, t1, t2. auto 8.
    + injection E as -> <-. apply In_arcs_with in H. destruct H as [H H3]. right. left. exists t2. auto.
  - intros [(t & H & Z & ->)|[(t & H & Z & ->)|(l1 & l2 & t1 & t2 & H1 & H2 & E & NZ & -> & ->)]].
    + left. exists (l, t). split; [exact H|]. cbn [fst snd]. rewrite Z, Nat.eqb_refl. left. reflexivity.
    + right. exists (l, t). split; [reflexivity|]. apply In_arcs_with. auto.
    + left. exists (l1, t1). split; [exact H1|]. cbn [fst snd]. rewrite (proj2 (Nat.eqb_neq _ _) NZ).
      apply in_map_iff. exists (l2, t2). split; [reflexivity|]. apply In_arcs_with. auto.
  - intros [([l2 t2] & H2 & H)|([l1 t1] & E & H)]; cbn [fst snd] in *.
    + destruct (Nat.eqb_spec (fst l2) 0) as [Z|NZ].
      * destruct H as [H|[]]. injection H as -> <-. right. left. exists t2. auto.
      * apply in_map_iff in H. destruct H as ([l1 t1] & E & H). cbn [fst snd] in E. injection E as <- <-.
        apply In_arcs_with in H. destruct H as [H1 H3]. right. right. exists l1, l2, t1, t2. rewrite H3. auto 8.
    + injection E as -> <-. apply In_arcs_with in H. destruct H as [H H3]. left. exists t1. auto.
  - intros [(t & H & Z & ->)|[(t & H & Z & ->)|(l1 & l2 & t1 & t2 & H1 & H2 & E & NZ & -> & ->)]].
    + right. exists (l, t). split; [reflexivity|]. apply In_arcs_with. auto.
    + left. exists (l, t). split; [exact H|]. cbn [fst snd]. rewrite Z, Nat.eqb_refl. left. reflexivity.
    + left. exists (l2, t2). split; [exact H2|]. cbn [fst snd]. rewrite (proj2 (Nat.eqb_neq (fst l2) 0)) by congruence.
      apply in_map_iff. exists (l1, t1). split; [reflexivity|]. apply In_arcs_with. auto.
Qed.
Definition sym (x : nat) : list nat := if x =? 0 then [] else [x].
Lemma side_emit (f : label -> nat) l w : f (0, 0) = 0 -> side f (emit l w) = sym (f l) ++ side f w.
Proof.
  intros Hf. rewrite emit_eq. destruct (is_epsilon l) eqn:El.
  - apply is_epsilon_eq in El. subst l. rewrite Hf. reflexivity.
  - unfold side, sym. cbn [map filter]. destruct (f l =? 0); reflexivity.
Qed.
Section Compose.
  Variables h1 h2 : list node.
  Notation cr := (kreads (compose_succ h1 h2) (both_final h1 h2)).
  Lemma compose_sound p w : cr p w -> exists w1 w2, reads h1 (fst p) w1 /\ reads h2 (snd p) w2 /\
    side snd w1 = side fst w2 /\ side fst w = side fst w1 /\ side snd w = side snd w2.
  Proof.
    induction 1 as [p F|p [l q] w Ha H IH].
    - unfold both_final in F. apply Bool.andb_true_iff in F. exists [], []. split; [constructor; apply F|]. split; [constructor; apply F|]. auto.
    - destruct IH as (w1 & w2 & R1 & R2 & M & S1 & S2). apply In_compose in Ha. cbn [fst snd] in *.
      destruct Ha as [(t & Hi & Z & ->)|[(t & Hi & Z & ->)|(l1 & l2 & t1 & t2 & H1 & H2 & E & NZ & -> & ->)]]; cbn [fst snd] in *.
      + exists (emit l w1), w2. split; [econstructor; eauto|]. split; [exact R2|].
        rewrite !side_emit by reflexivity. rewrite S1, S2, M, Z. auto.
      + exists w1, (emit l w2). split; [exact R1|]. split; [econstructor; eauto|].
        rewrite !side_emit by reflexivity. rewrite S1, S2, M, Z. auto.
      + exists (emit l1 w1), (emit l2 w2). split; [econstructor; eauto|]. split; [econstructor; eauto|].
        rewrite !side_emit by reflexivity. cbn [fst snd]. rewrite S1, S2, M, E. auto.
  Qed.
  Lemma compose_complete i w1 : reads h1 i w1 -> forall j w2, reads h2 j w2 -> side snd w1 = side fst w2 ->
    exists w, cr (i, j) w /\ side fst w = side fst w1 /\ side snd w = side snd w2.
  Proof.
    induction 1 as [i F1|i l1 t1 w1 H1 R1 IH1].
    - intros j w2 R2. induction R2 as [j F2|j l2 t2 w2 H2 R2 IH2]; intros M.
      + exists []. split; [constructor; unfold both_final; cbn [fst snd]; rewrite F1, F2; reflexivity|auto].
      + rewrite side_emit in M by reflexivity. unfold sym in M. destruct (Nat.eqb_spec (fst l2) 0) as [Z|NZ]; [|discriminate].
        destruct (IH2 M) as (w & W & S1 & S2). exists (emit l2 w).
        split; [apply (kreads_step _ _ (i, j) (l2, (i, t2))); [apply In_compose; right; left; exists t2; auto|exact W]|].
        rewrite !side_emit by reflexivity. rewrite S1, S2, Z. auto.
    - intros j w2 R2 M. rewrite side_emit in M by reflexivity. unfold sym in M.
      destruct (Nat.eqb_spec (snd l1) 0) as [Z|NZ].
      + destruct (IH1 j w2 R2 M) as (w & W & S1 & S2). exists (emit l1 w).
        split; [apply (kreads_step _ _ (i, j) (l1, (t1, j))); [apply In_compose; left; exists t1; auto|exact W]|].
        rewrite !side_emit by reflexivity. rewrite S1, S2, Z. auto.
      + cbn [app] in M. induction R2 as [j F2|j l2 t2 w2 H2 R2 IH2]; [discriminate|].
        rewrite side_emit in M by reflexivity. unfold sym in M. destruct (Nat.eqb_spec (fst l2) 0) as [Z2|NZ2].
        * destruct (IH2 M) as (w & W & S1 & S2). exists (emit l2 w).
          split; [apply (kreads_step _ _ (i, j) (l2, (i, t2))); [apply In_compose; right; left; exists t2; auto|exact W]|].
          rewrite !side_emit by reflexivity. rewrite S1, S2, Z2, side_emit by reflexivity. auto.
        * cbn [app] in M. injection M as E M. destruct (IH1 t2 w2 R2 M) as (w & W & S1 & S2).
          exists (emit (fst l1, snd l2) w). split.
          -- apply (kreads_step _ _ (i, j) ((fst l1, snd l2), (t1, t2))); [|exact W].
             apply In_compose. right. right. exists l1, l2, t1, t2. auto 8.
          -- rewrite !side_emit by reflexivity. cbn [fst snd]. rewrite S1, S2. auto.
  Qed.
End Compose.
Lemma compose_correct t u : graph_ok (nodes t) -> graph_ok (nodes u) -> exists r, compose t u = Ok r /\ trans_ok r /\
  (forall x z, relates r x z <-> exists y, relates t x y /\ relates u y z) /\
  (forall l, In l (labels r) <-> l <> (0, 0) /\
     ((In l (labels t) /\ snd l = 0) \/ (In l (labels u) /\ fst l = 0) \/
      exists a b, In a (labels t) /\ In b (labels u) /\ snd a = fst b /\ snd a <> 0 /\ l = (fst a, snd b))).
Proof.
  intros G1 G2. unfold compose.
  destruct (pair_explore (nodes t) (nodes u) (compose_succ (nodes t) (nodes u)) (both_final (nodes t) (nodes u)) G1 G2) as (v & g & m & E & HB & H0).
  { intros [i j] [l q] Hi Hj Ha. cbn [fst snd] in *. apply In_compose in Ha. cbn [fst snd] in Ha.
    destruct Ha as [(x & H & _ & ->)|[(x & H & _ & ->)|(l1 & l2 & t1 & t2 & H1 & H2 & _ & _ & _ & ->)]]; cbn [fst snd].
    - split; [exact (proj1 (proj2 G1 i Hi) _ _ H)|exact Hj].
    - split; [exact Hi|exact (proj1 (proj2 G2 j Hj) _ _ H)].
    - split; [exact (proj1 (proj2 G1 i Hi) _ _ H1)|exact (proj1 (proj2 G2 j Hj) _ _ H2)]. }
  rewrite E. cbn [rmap]. eexists. split; [reflexivity|].
  assert (LB : forall l, In l (compose_labels (labels t) (labels u)) <-> l <> (0, 0) /\
     ((In l (labels t) /\ snd l = 0) \/ (In l (labels u) /\ fst l = 0) \/
      exists a b, In a (labels t) /\ In b (labels u) /\ snd a = fst b /\ snd a <> 0 /\ l = (fst a, snd b))).
  { intros l. unfold compose_labels. rewrite !In_insert_labels, filter_In, in_flat_map, Nat.eqb_eq. cbn [In]. split.
    - intros [[[]|[H N]]|[(a & Ha & H) N]]; [tauto|]. split; [exact N|]. destruct (Nat.eqb_spec (snd a) 0) as [Z|NZ].
      + destruct H as [<-|[]]. auto.
      + apply in_map_iff in H. destruct H as (b & <- & Hb). apply filter_In in Hb. destruct Hb as [Hb Eb]. apply Nat.eqb_eq in Eb.
        right. right. exists a, b. auto.
    - intros [N [[H Z]|[[H Z]|(a & b & Ha & Hb & Eab & NZ & ->)]]].
      + right. split; [|exact N]. exists l. split; [exact H|]. rewrite Z, Nat.eqb_refl. left. reflexivity.
      + auto.
      + right. split; [|exact N]. exists a. split; [exact Ha|]. rewrite (proj2 (Nat.eqb_neq _ _) NZ). apply in_map_iff. exists b. split; [reflexivity|].
        apply filter_In. split; [exact Hb|]. apply Nat.eqb_eq. auto. }
  split; [|split; [|exact LB]].
  - split; [exact (built_graph_ok _ _ _ _ _ _ _ _ HB H0)|]. split; [discriminate|]. split; [discriminate|]. cbn [labels]. intros C. apply LB in C. tauto.
  - intros x z. unfold relates, lang. cbn [nodes]. split.
    + intros (w & R & -> & ->). apply (built_reads _ _ _ _ _ _ _ _ HB (0, 0) 0 w H0) in R.
      destruct (compose_sound _ _ _ _ R) as (w1 & w2 & R1 & R2 & M & S1 & S2). exists (side snd w1). split; [exists w1; auto|].
      exists w2. auto.
    + intros (y & (w1 & R1 & -> & ->) & (w2 & R2 & M & ->)).
      destruct (compose_complete _ _ 0 w1 R1 0 w2 R2 M) as (w & W & S1 & S2). exists w. rewrite S1, S2. split; [|auto].
      apply (built_reads _ _ _ _ _ _ _ _ HB (0, 0) 0 w H0). exact W.
Qed.
