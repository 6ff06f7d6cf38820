(** Reversing and determinising; minimisation by either algorithm. *)
From Verif Require Import Base SF_Spec SF_Model SF_Proofs SF_Proofs2 SF_Proofs3 SF_Proofs5 SF_Proofs6 SF_Proofs7 SF_Proofs8 SM_Model SM_Proofs SM_Proofs2 SM_Proofs3 SM_Proofs4 SM_Proofs5.

Lemma reachable_way h x : reachable h 0 x -> exists u, way h 0 u x.
Proof.
  assert (Gen : forall a b, reachable h a b -> forall u, way h 0 u a -> exists v, way h 0 v b).
  { induction 1 as [a|a l m b Hi R IH]; intros u W; [eauto|]. exact (IH _ (way_step h 0 u a l m W Hi)). }
  intros R. exact (Gen 0 x R [] (way_here h 0)).
Qed.
Lemma way_det h : graph_ok h -> deterministic h -> forall u q, way h 0 u q -> forall q', way h 0 u q' -> q = q'.
Proof.
  intros G D.
  assert (Lb : forall y l z, reachable h 0 y -> In (l, z) (out (node_at h y)) -> emit l [] = [l]).
  { intros y l z Ry Hi. destruct (det_out h y G D Ry) as (E & N & _). rewrite E in Hi. rewrite emit_eq. destruct (is_epsilon l) eqn:El; [|reflexivity].
    apply is_epsilon_eq in El. subst. destruct (N _ Hi). }
  induction 1 as [|u y l z W IH Hi]; intros q' W'.
  - inversion W' as [|u y l z W Hi Ev]; [reflexivity|]. rewrite (Lb y l q' (way_reachable _ _ _ _ W) Hi) in Ev. destruct u; discriminate.
  - rewrite (Lb y l z (way_reachable _ _ _ _ W) Hi) in W'. inversion W' as [Ev|u' y' l' z' W2 Hi' Ev]; [destruct u; discriminate|]. subst z'.
    rewrite (Lb y' l' q' (way_reachable _ _ _ _ W2) Hi') in Ev. apply app_inj_tail in Ev. destruct Ev as [-> ->]. specialize (IH y' W2). subst y'.
    destruct (det_out h y G D (way_reachable _ _ _ _ W)) as (E & _ & ND). rewrite E in Hi, Hi'. apply (In_target_node _ _ _ ND) in Hi, Hi'. congruence.
Qed.

Lemma eclosed_final g s : graph_ok g -> eclosed g s -> forall y w, reads g y w -> w = [] -> In y s ->
  existsb (fun n => final (node_at g n)) s = true.
Proof.
  intros Gr Cs. induction 1 as [n F1|n l k w Hi Ry IH]; intros Ew Hy; [apply existsb_exists; exists n; auto|].
  rewrite emit_eq in Ew. destruct (is_epsilon l) eqn:El; [|discriminate]. apply is_epsilon_eq in El. subst l. apply (IH Ew).
  unfold out in Hi. apply in_app_iff in Hi. destruct Hi as [Hi|Hi].
  - apply in_map_iff in Hi. destruct Hi as (k' & Ek & Hk). injection Ek as ->. exact (Cs n k Hy Hk).
  - exfalso. destruct (Nat.lt_ge_cases n (length g)) as [Ln|Ln]; [exact (proj2 (proj2 Gr n Ln) k Hi)|]. rewrite (node_at_over g n Ln) in Hi. destruct Hi.
Qed.
Lemma det_rev b b' t : graph_ok (nodes t) -> exists r d, reverse b t = Ok r /\ determinise b' r = Ok d /\
  trans_ok r /\ trans_ok d /\ det d = true /\ deterministic (nodes d) /\ accessible (nodes d) /\ trim (nodes d) /\
  (deterministic (nodes t) -> minimal (nodes d)) /\ (forall w, lang d w <-> lang t (rev w)) /\
  (forall l, In l (labels d) <-> b = true /\ b' = true /\ In l (labels t) /\ l <> (0, 0)).
Proof.
  intros G. destruct (reverse_full b t G) as (r & fwd & Er & (Tr & Dr) & (Lr & R1 & R2 & R3 & R4 & R5 & R6 & R7) & Ar).
  exists r. destruct Tr as (Gr & Tr'). pose proof (conj Gr Tr') as Tr. destruct (determinise_correct b' r Tr) as (d & Ed & Td & Dd & Fd & Ld & Ad). exists d.
  split; [exact Er|]. split; [exact Ed|]. split; [exact Tr|]. split; [exact Td|]. split; [exact Fd|]. split; [exact Dd|].
  set (h := nodes t) in *. set (g := nodes r) in *.
  assert (Pos : forall x, 0 < x -> x < length g -> exists q u, fwd q = Some x /\ way h 0 u q /\ reads g x (rev u)).
  { intros x H1 H2. destruct (R6 x H1 H2) as [q Hq]. destruct (R5 q x Hq) as (Rq & _ & _ & W). destruct (reachable_way h q Rq) as [u Hu].
    exists q, u. split; [exact Hq|]. split; [exact Hu|]. apply W. rewrite rev_involutive. exact Hu. }
  unfold determinise in Ed. rewrite Dr in Ed. fold g in Ed. destruct (root_closure g Gr) as (s0 & Es & S1 & S2 & S3 & S4). rewrite Es in Ed. cbn [rbind] in Ed.
  destruct (determinise_full g Gr s0 S2 S3) as (gd & F & Eg & Gg & Dg & F0 & _ & Fg & Fa). rewrite Eg in Ed. cbn [rmap] in Ed.
  assert (End : nodes d = gd) by (injection Ed as <-; reflexivity). rewrite End in *.
  assert (NotRoot : forall s x w, eclosed g s -> In x s -> reads g x w -> exists y, In y s /\ 0 < y /\ reads g y w).
  { intros s x w Cs Hx Rx. destruct x as [|x]; [|exists (S x); split; [exact Hx|]; split; [lia|exact Rx]].
    inversion Rx as [? Fx|? l y w' Hi Ry]; subst; [congruence|]. pose proof Hi as Hi'. unfold out in Hi. rewrite R1, app_nil_r in Hi. apply in_map_iff in Hi.
    destruct Hi as (y' & Ey & Hy). injection Ey as <- ->. cbn [emit]. exists y. split; [exact (Cs 0 y Hx Hy)|]. split; [|exact Ry].
    destruct y; [destruct (R4 _ _ Hi')|lia]. }
  split; [intros n Hn; apply (Fg n Hn)|].
  assert (Rlt : forall n, reachable gd 0 n -> n < length gd) by (intros n Hn; exact (reachable_lt gd 0 n Gg (graph_root gd Gg) Hn)).
  assert (Tg : trim gd).
  { intros n l k Hn Hi. destruct (Fa n l k (Rlt n Hn) Hi) as (s & m & y & Rs & Hy & Hs & Rd).
    assert (Ny : 0 < y) by (destruct y; [exfalso; apply (R4 m l); unfold out; apply in_app_iff; right; exact Hy|lia]).
    destruct (Pos y Ny (Rs y Hs)) as (q & u & _ & _ & Ru). exists (rev u). apply Rd. exists y. auto. }
  split; [exact Tg|]. split; [|split].
  - intros Dt. split; [exact Dg|]. split; [|exact Tg].
    assert (Half : forall s s' x, in_range g s -> in_range g s' -> eclosed g s' -> (forall w, (exists x, In x s /\ reads g x w) -> exists x, In x s' /\ reads g x w) ->
              In x s -> arcs (node_at g x) <> [] -> In x s').
    { intros s s' x Rs Rs' Cs' Q Hx Ax. assert (Px : 0 < x) by (destruct x; [exfalso; apply Ax, R1|lia]).
      destruct (Pos x Px (Rs x Hx)) as (q & u & Hq & Hu & Ru). destruct (Q (rev u) (ex_intro _ x (conj Hx Ru))) as (y & Hy & Ry).
      destruct (NotRoot s' y (rev u) Cs' Hy Ry) as (z & Hz & Pz & Rz). destruct (R6 z Pz (Rs' z Hz)) as [q' Hq'].
      destruct (R5 q' z Hq') as (_ & _ & _ & W). apply W in Rz. rewrite rev_involutive in Rz.
      assert (q = q') by exact (way_det h G Dt u q Hu q' Rz). subst q'. rewrite Hq in Hq'. injection Hq' as ->. exact Hz. }
    assert (Flag : forall s s', eclosed g s' -> (forall w, (exists x, In x s /\ reads g x w) -> exists x, In x s' /\ reads g x w) ->
              existsb (fun n => final (node_at g n)) s = true -> existsb (fun n => final (node_at g n)) s' = true).
    { intros s s' Cs' Q Fs. apply existsb_exists in Fs. destruct Fs as (x & Hx & Fx). destruct (Q []) as (y & Hy & Ry); [exists x; split; [exact Hx|constructor; exact Fx]|].
      exact (eclosed_final g s' Gr Cs' y [] Ry eq_refl Hy). }
    intros n m Hn Hm Q. destruct (Fg n (Rlt n Hn)) as (_ & s & Fs & Rs & Cs & Rd). destruct (Fg m (Rlt m Hm)) as (_ & s' & Fs' & Rs' & Cs' & Rd').
    assert (Q1 : forall w, (exists x, In x s /\ reads g x w) -> exists x, In x s' /\ reads g x w) by (intros w; rewrite <- Rd, <- Rd'; apply Q).
    assert (Q2 : forall w, (exists x, In x s' /\ reads g x w) -> exists x, In x s /\ reads g x w) by (intros w; rewrite <- Rd, <- Rd'; apply Q).
    assert (Ea : node_array g s = node_array g s').
    { unfold node_array. f_equal.
      - apply filter_ext_in. intros x _. destruct (arcs (node_at g x)) eqn:Ax; [rewrite !Bool.andb_false_r; reflexivity|]. rewrite !Bool.andb_true_r.
        assert (Ax' : arcs (node_at g x) <> []) by (rewrite Ax; discriminate). fold (inb x s) (inb x s').
        destruct (inb x s) eqn:I1; destruct (inb x s') eqn:I2; try reflexivity; exfalso.
        + apply inb_In in I1. apply inb_not in I2. apply I2. exact (Half s s' x Rs Rs' Cs' Q1 I1 Ax').
        + apply inb_In in I2. apply inb_not in I1. apply I1. exact (Half s' s x Rs' Rs Cs Q2 I2 Ax').
      - destruct (existsb _ s) eqn:F1; destruct (existsb _ s') eqn:F2; try reflexivity; exfalso.
        + pose proof (Flag s s' Cs' Q1 F1). congruence.
        + pose proof (Flag s' s Cs Q2 F2). congruence. }
    rewrite Ea in Fs. rewrite Fs in Fs'. injection Fs' as ->. reflexivity.
  - intros w. rewrite Ld. apply Lr.
  - intros l. destruct b'; [rewrite (Ad eq_refl), Ar; tauto|]. injection Ed as <-. cbn [labels]. split; [intros []|]. intros (_ & C & _). discriminate.
Qed.

(** Any deterministic transducer accepting the same has at least as many nodes. *)
Fixpoint follow (h : list node) (a : nat) (v : list label) (m : nat) : Prop :=
  match v with
  | [] => a = m
  | l :: v' => exists t, In (l, t) (arcs (node_at h a)) /\ follow h t v' m
  end.
Lemma follow_reads h : graph_ok h -> deterministic h -> forall v a w, reachable h 0 a ->
  (reads h a (v ++ w) <-> exists m, follow h a v m /\ reads h m w).
Proof.
  intros G D. induction v as [|l v IH]; intros a w Ra; cbn [app follow].
  - split; [intros R; exists a; auto|]. intros (m & <- & R). exact R.
  - rewrite (det_reads_cons h a l (v ++ w) G D Ra).
    assert (Rt : forall t, In (l, t) (arcs (node_at h a)) -> reachable h 0 t) by (intros t Hi; apply (reachable_next h a l t Ra); unfold out; apply in_app_iff; auto).
    split.
    + intros (t & Hi & R). apply (IH t w (Rt t Hi)) in R. destruct R as (m & F & R). exists m. split; [exists t; auto|exact R].
    + intros (m & (t & Hi & F) & R). exists t. split; [exact Hi|]. apply (IH t w (Rt t Hi)). eauto.
Qed.
Lemma follow_fun h : deterministic h -> forall v a m m', reachable h 0 a -> follow h a v m -> follow h a v m' -> m = m'.
Proof.
  intros D. induction v as [|l v IH]; intros a m m' Ra; cbn [follow]; [congruence|]. intros (t & Hi & F) (t' & Hi' & F').
  destruct (D a Ra) as [_ ND]. assert (t = t') by (pose proof (In_target_node _ _ _ ND Hi); pose proof (In_target_node _ _ _ ND Hi'); congruence). subst t'.
  apply (IH t m m'); [|assumption..]. apply (reachable_next h a l t Ra). unfold out. apply in_app_iff. auto.
Qed.
Lemma follow_lt h : graph_ok h -> forall v a m, a < length h -> follow h a v m -> m < length h.
Proof.
  intros G. induction v as [|l v IH]; intros a m Ha; cbn [follow]; [congruence|]. intros (t & Hi & F). apply (IH t m); [|exact F].
  apply (proj1 (proj2 G a Ha) l). unfold out. apply in_app_iff. auto.
Qed.
Lemma reachable_follow h : graph_ok h -> deterministic h -> forall a n, reachable h a n -> reachable h 0 a -> exists v, follow h a v n.
Proof.
  intros G D. induction 1 as [a|a l t n Hi R IH]; intros Ra; [exists []; reflexivity|].
  destruct (IH (reachable_next h a l t Ra Hi)) as [v F]. exists (l :: v). exists t. split; [|exact F].
  destruct (det_out h a G D Ra) as (E & _). rewrite E in Hi. exact Hi.
Qed.
Lemma residual h : graph_ok h -> deterministic h -> forall v m, follow h 0 v m -> forall w, reads h 0 (v ++ w) <-> reads h m w.
Proof.
  intros G D v m F w. rewrite (follow_reads h G D v 0 w (reach_here h 0)). split.
  - intros (m' & F' & R). rewrite (follow_fun h D v 0 m m' (reach_here h 0) F F'). exact R.
  - intros R. eauto.
Qed.
Lemma smallest g u : graph_ok g -> minimal g -> accessible g -> graph_ok u -> deterministic u ->
  (forall w, reads g 0 w <-> reads u 0 w) -> length g <= length u.
Proof.
  intros G (D & M2 & M3) A Gu Du L.
  assert (Image : forall n, n < length g -> exists m, m < length u /\ forall w, reads g n w <-> reads u m w).
  { intros n Hn. destruct (Nat.eq_dec n 0) as [->|Nn]; [exists 0; split; [exact (graph_root u Gu)|exact L]|].
    assert (NE : exists w, reads g n w).
    { pose proof (A n Hn) as R. clear - R Nn M3. assert (Gen : forall a b, reachable g a b -> reachable g 0 a -> a = b \/ exists w, reads g b w).
      { induction 1 as [a|a l t b Hi R' IH]; intros Ra; [auto|]. destruct (IH (reachable_next g a l t Ra Hi)) as [->|C]; [|auto]. right. exact (M3 a l b Ra Hi). }
      destruct (Gen 0 n R (reach_here g 0)) as [C|C]; [congruence|exact C]. }
    destruct NE as [w0 Hw]. destruct (reachable_follow g G D 0 n (A n Hn) (reach_here g 0)) as [v F].
    pose proof (proj2 (residual g G D v n F w0) Hw) as Rv. apply L, (follow_reads u Gu Du v 0 w0 (reach_here u 0)) in Rv. destruct Rv as (m & Fm & _).
    exists m. split; [exact (follow_lt u Gu v 0 m (graph_root u Gu) Fm)|]. intros w. rewrite <- (residual g G D v n F w), <- (residual u Gu Du v m Fm w). apply L. }
  assert (List : forall k, k <= length g -> exists l, length l = k /\ forall i, i < k -> nth i l 0 < length u /\ forall w, reads g i w <-> reads u (nth i l 0) w).
  { induction k as [|k IH]; intros Hk; [exists []; split; [reflexivity|intros; lia]|]. destruct (IH ltac:(lia)) as (l & El & Hl).
    destruct (Image k ltac:(lia)) as (m & Hm & Rm). exists (l ++ [m]). split; [rewrite app_length; cbn; lia|]. intros i Hi.
    destruct (Nat.eq_dec i k) as [->|Ni].
    - rewrite app_nth2 by lia. rewrite El, Nat.sub_diag. cbn. auto.
    - rewrite app_nth1 by lia. apply Hl. lia. }
  destruct (List (length g) (Nat.le_refl _)) as (l & El & Hl). rewrite <- El, <- (seq_length (length u) 0). apply NoDup_incl_length.
  - apply (NoDup_nth l 0). intros i j Hi Hj E. rewrite El in Hi, Hj. apply M2; [apply A, Hi|apply A, Hj|]. intros w.
    rewrite (proj2 (Hl i Hi)), (proj2 (Hl j Hj)), E. reflexivity.
  - intros x Hx. destruct (In_nth l x 0 Hx) as (i & Hi & <-). apply in_seq. rewrite El in Hi. destruct (Hl i Hi). lia.
Qed.

(** The labels of the transitions. *)
Lemma arc_labels_result h ls : graph_ok h -> exists r, arc_labels h ls = Ok r /\
  forall l, In l r <-> In l ls \/ l <> (0, 0) /\ exists n t, reachable h 0 n /\ In (l, t) (out (node_at h n)).
Proof.
  intros G. unfold arc_labels.
  destruct (copy_visit h G nothing nothing label_before nothing2 ls) as (evs & E & L). rewrite E. cbn [rmap snd]. eexists. split; [reflexivity|].
  assert (Gen : forall evs s l, In l (acts nothing nothing label_before nothing2 evs s) <-> In l s \/ l <> (0, 0) /\ exists n t b, In (Before n (l, t) b) evs).
  { clear. induction evs as [|e evs IH]; intros s l; cbn [acts fold_left].
    - split; [auto|]. intros [H|(_ & n & t & b & [])]. exact H.
    - fold (acts nothing nothing label_before nothing2 evs (act nothing nothing label_before nothing2 s e)). rewrite IH.
      assert (Oth : (forall n t b, e <> Before n (l, t) b) ->
                (In l s \/ l <> (0, 0) /\ (exists n t b, In (Before n (l, t) b) evs) <-> In l s \/ l <> (0, 0) /\ (exists n t b, In (Before n (l, t) b) (e :: evs)))).
      { intros N. split.
        - intros [H|(H & n & t & b & Hi)]; [auto|]. right. split; [exact H|]. exists n, t, b. right. exact Hi.
        - intros [H|(H & n & t & b & [Hi|Hi])]; [auto|destruct (N n t b Hi)|]. right. split; [exact H|]. exists n, t, b. exact Hi. }
      destruct e as [k|k [l' t'] b'|k a|k]; cbn [act]; unfold nothing, nothing2; try (apply Oth; discriminate).
      unfold label_before. cbn [fst]. rewrite In_insert_label. split.
      + intros [[H|[-> H]]|(H & n & t & b & Hi)]; [auto| |].
        * right. split; [exact H|]. exists k, t', b'. left. reflexivity.
        * right. split; [exact H|]. exists n, t, b. right. exact Hi.
      + intros [H|(H & n & t & b & [Hi|Hi])]; [auto| |].
        * injection Hi as <- <- <- <-. left. right. auto.
        * right. split; [exact H|]. exists n, t, b. exact Hi. }
  intros l. rewrite Gen. apply or_iff_compat_l. split; intros [H Q]; (split; [exact H|]).
  - destruct Q as (n & t & b & Hi). exists n, t.
    assert (Hb : In (l, t) (befores Nat.eqb n evs)) by (unfold befores; apply in_flat_map; exists (Before n (l, t) b); split; [exact Hi|]; rewrite Nat.eqb_refl; left; reflexivity).
    destruct (in_dec Nat.eq_dec n (grow [] evs)) as [C|C].
    + apply grow_In in C. destruct C as [[]|C]. destruct (vl_full _ _ _ _ _ L n C) as (Eb & _). rewrite Eb in Hb.
      split; [apply kreach_reachable, (log_reach Nat.eqb Nat.eqb_eq _ 0 evs L), C|exact Hb].
    + destruct (vl_none _ _ _ _ _ L n) as (Eb & _); [intros C'; apply C, grow_In; auto|]. rewrite Eb in Hb. destruct Hb.
  - destruct Q as (n & t & Rn & Hi).
    apply kreach_reachable, (log_reach Nat.eqb Nat.eqb_eq _ 0 evs L) in Rn. destruct (vl_full _ _ _ _ _ L n Rn) as (Eb & _).
    assert (Hb : In (l, t) (befores Nat.eqb n evs)) by (rewrite Eb; exact Hi). clear Hi. rename Hb into Hi. unfold befores in Hi. apply in_flat_map in Hi. destruct Hi as (e & He & Hi).
    destruct e as [k|k a b|k a|k]; try (destruct Hi; fail). destruct (Nat.eqb_spec n k) as [<-|]; [|destruct Hi]. destruct Hi as [->|[]]. exists n, t, b. exact He.
Qed.

(** What minimisation brings about. *)
Definition label_used (t : trans) (l : label) : Prop := exists w, lang t w /\ In l w.
Lemma used_labels h : graph_ok h -> minimal h -> forall l,
  (exists w, reads h 0 w /\ In l w) <-> l <> (0, 0) /\ exists n t, reachable h 0 n /\ In (l, t) (out (node_at h n)).
Proof.
  intros G (D & _ & M3) l. split.
  - intros (w & R & Hi). split; [intros ->; exact (reads_no_eps _ _ _ R Hi)|]. destruct (reads_labels _ _ _ R l Hi) as (x & t & Rx & Hx). eauto.
  - intros (Nl & n & t & Rn & Hi). destruct (M3 n l t Rn Hi) as [w Hw]. destruct (reachable_follow h G D 0 n Rn (reach_here h 0)) as [v F].
    exists (v ++ l :: w). split; [|apply in_app_iff; right; left; reflexivity]. apply (residual h G D v n F).
    apply (det_reads_cons h n l w G D Rn). exists t. split; [|exact Hw]. destruct (det_out h n G D Rn) as (E & _). rewrite E in Hi. exact Hi.
Qed.
Lemma minimise_correct hop t : trans_ok t -> exists r, minimise hop t = Ok r /\ trans_ok r /\ mini r = true /\ (mini t = false -> det r = true) /\
  accessible (nodes r) /\ same_lang r t /\
  (mini t = true -> det r = det t /\ forall l, In l (labels r) <-> In l (labels t)) /\ (mini t = false -> forall l, In l (labels r) <-> label_used t l).
Proof.
  intros T.
  assert (Mini : mini t = true -> exists r, copy false t = Ok r /\ trans_ok r /\ mini r = true /\ (mini t = false -> det r = true) /\ accessible (nodes r) /\ same_lang r t /\
            (mini t = true -> det r = det t /\ forall l, In l (labels r) <-> In l (labels t)) /\ (mini t = false -> forall l, In l (labels r) <-> label_used t l)).
  { intros Mt. destruct (copy_correct false t T) as (r & E & Tr & L & Dr & Mr & Ar). destruct (copy_full false t T) as (r' & E' & Ac). rewrite E in E'. injection E' as <-.
    exists r. split; [exact E|]. split; [exact Tr|]. split; [congruence|]. split; [congruence|]. split; [exact Ac|].
    split; [intros w; rewrite L; cbn [recode_label]; rewrite map_id; reflexivity|]. split; [intros _; split; [exact Dr|exact Ar]|]. congruence. }
  assert (Fin : forall r ls, graph_ok (nodes r) -> minimal (nodes r) -> accessible (nodes r) -> det r = true -> same_lang r t -> arc_labels (nodes r) [] = Ok ls ->
            (forall l, In l ls <-> In l [] \/ l <> (0, 0) /\ exists n k, reachable (nodes r) 0 n /\ In (l, k) (out (node_at (nodes r) n))) -> mini t = false ->
            let r' := Trans (nodes r) (det r) true ls in
            trans_ok r' /\ mini r' = true /\ (mini t = false -> det r' = true) /\ accessible (nodes r') /\ same_lang r' t /\
            (mini t = true -> det r' = det t /\ forall l, In l (labels r') <-> In l (labels t)) /\ (mini t = false -> forall l, In l (labels r') <-> label_used t l)).
  { intros r ls G M A Dr L El Hl Mt. cbv zeta. cbn [nodes det mini labels]. split; [|split; [reflexivity|split; [intros _; exact Dr|split; [exact A|split; [exact L|split; [congruence|]]]]]].
    - split; [exact G|]. split; [intros _; apply M|]. split; [intros _; exact M|]. cbn [labels]. rewrite Hl. intros [[]|[C _]]. apply C. reflexivity.
    - intros _ l. rewrite Hl. cbn [In]. unfold label_used. pose proof (used_labels (nodes r) G M l) as U. split.
      + intros [[]|H]. apply U in H. destruct H as (w & R & Hi). exists w. split; [apply L, R|exact Hi].
      + intros (w & R & Hi). right. apply U. exists w. split; [apply L, R|exact Hi]. }
  unfold minimise. destruct hop.
  - unfold hopcroft_minimise. destruct (mini t) eqn:Mt; [exact (Mini eq_refl)|].
    destruct (reverse_correct false t (proj1 T)) as (a1 & E1 & T1 & L1 & _). rewrite E1. cbn [rbind].
    destruct (det_rev false false a1 (proj1 T1)) as (a2 & d & E2 & E3 & T2 & Td & Fd & Dd & Ad & Trd & _ & Ld & Lab). rewrite E2. cbn [rbind]. rewrite E3. cbn [rbind].
    destruct (minimiser_ok d (proj1 Td) Dd Trd) as (r & Er & Gr & Mr & Ar & Dr & Lr); [apply Td|exact Fd|]. rewrite Er. cbn [rbind].
    destruct (arc_labels_result (nodes r) [] Gr) as (ls & El & Hl). rewrite El. cbn [rmap]. eexists. split; [reflexivity|].
    apply Fin; auto. intros w. rewrite (Lr w), Ld, L1, rev_involutive. reflexivity.
  - unfold rev_det_minimise. destruct (mini t) eqn:Mt; [exact (Mini eq_refl)|].
    destruct (det_rev true true t (proj1 T)) as (a1 & d1 & E1 & E2 & T1 & Td1 & Fd1 & Dd1 & Ad1 & Tr1 & _ & Ld1 & _). rewrite E1. cbn [rbind]. rewrite E2. cbn [rbind].
    destruct (det_rev true true d1 (proj1 Td1)) as (a2 & d2 & E3 & E4 & T2 & Td2 & Fd2 & Dd2 & Ad2 & Tr2 & M2 & Ld2 & _). rewrite E3. cbn [rbind]. rewrite E4. cbn [rbind].
    destruct (arc_labels_result (nodes d2) [] (proj1 Td2)) as (ls & El & Hl). rewrite El. cbn [rmap]. eexists. split; [reflexivity|].
    apply Fin; auto; [apply Td2|]. intros w. rewrite Ld2, Ld1, rev_involutive. reflexivity.
Qed.
