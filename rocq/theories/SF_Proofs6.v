(** What concatenations, iterations, reversals and relabellings accept. *)
From Verif Require Import Base SF_Spec SF_Model SF_Proofs SF_Proofs2 SF_Proofs3 SF_Proofs4 SF_Proofs5.

Lemma catted_reads h h' n2 r x w :
  (forall n, reachable h r n -> node_at h' n = catted h n2 n) -> reachable h r x ->
  (reads h' x w <-> exists u v, w = u ++ v /\ reads h x u /\ reads h' n2 v).
Proof.
  intros HC Hx. split.
  - intros R. revert Hx. induction R as [n F|n l t w Hi R IH]; intros Hx.
    + rewrite HC in F by exact Hx. unfold catted in F. destruct (final (node_at h n)) eqn:E; [discriminate|congruence].
    + rewrite HC in Hi by exact Hx. unfold catted in Hi.
      assert (Hi' : In (l, t) (out (node_at h n)) \/ final (node_at h n) = true /\ l = (0, 0) /\ t = n2).
      { destruct (final (node_at h n)); [|auto]. destruct Hi as [Hi|Hi]; [injection Hi as <- <-; auto|left; exact Hi]. }
      destruct Hi' as [Hi'|(F & -> & ->)].
      * destruct IH as (u & v & -> & Hu & Hv); [eapply reachable_trans; [exact Hx|]; econstructor; [exact Hi'|constructor]|].
        exists (emit l u), v. rewrite emit_app. split; [reflexivity|]. split; [econstructor; eauto|exact Hv].
      * exists [], w. split; [reflexivity|]. split; [constructor; exact F|exact R].
  - intros (u & v & -> & Hu & Hv). revert Hx. induction Hu as [n F|n l t u Hi R IH]; intros Hx.
    + change ([] ++ v) with (emit (0, 0) v). apply reads_step with n2; [|exact Hv].
      rewrite HC by exact Hx. unfold catted. rewrite F. left. reflexivity.
    + rewrite emit_app. apply reads_step with t.
      * rewrite HC by exact Hx. unfold catted. destruct (final (node_at h n)); [right; exact Hi|exact Hi].
      * apply IH. eapply reachable_trans; [exact Hx|]. econstructor; [exact Hi|constructor].
Qed.

Lemma twice_reach h1 h2 n1 n2 mid g x : twice h1 h2 n1 n2 mid g -> node_at g 0 = Node [n1] [] false ->
  reachable g 0 x -> x = 0 \/ 1 <= x /\ x < mid.
Proof.
  intros TW R0 R.
  assert (Gen : forall a b, reachable g a b -> 1 <= a /\ a < mid -> 1 <= b /\ b < mid).
  { induction 1 as [n|n l m k Hi R' IH]; intros Ha; [exact Ha|]. apply IH. apply (tw_t1 _ _ _ _ _ _ TW n l m); tauto. }
  inversion R as [n|n l m k Hi R']; subst; [auto|]. right. rewrite R0 in Hi. destruct Hi as [Hi|[]]. injection Hi as <- <-.
  apply (Gen n1); [exact R'|]. exact (tw_n1 _ _ _ _ _ _ TW).
Qed.

Lemma concatenation_correct t u : graph_ok (nodes t) -> graph_ok (nodes u) -> exists r, concatenation t u = Ok r /\ trans_ok r /\
  (forall w, lang r w <-> exists w1 w2, w = w1 ++ w2 /\ lang t w1 /\ lang u w2) /\
  (forall l, In l (labels r) <-> (In l (labels t) \/ In l (labels u)) /\ l <> (0, 0)) /\
  final (node_at (nodes r) 0) = false /\ (forall n l, n < length (nodes r) -> ~ In (l, 0) (out (node_at (nodes r) n))).
Proof.
  intros G1 G2. unfold concatenation.
  destruct (two_copies (nodes t) (nodes u) G1 G2) as (g1 & n1 & g2 & n2 & C1 & C2 & TW & R0).
  rewrite C1. cbn [rbind]. rewrite C2. cbn [rbind].
  pose proof TW as [[T1 T2] N1 N2 T3 T4 T5 T6 T7].
  assert (Tg : forall n l t', n < length g2 -> In (l, t') (out (node_at g2 n)) -> 1 <= t' /\ t' < length g2).
  { intros n l t' Hn Hi. destruct (Nat.eq_dec n 0) as [->|Hn0].
    - rewrite R0 in Hi. destruct Hi as [Hi|[]]. injection Hi as <- <-. lia.
    - destruct (Nat.lt_ge_cases n (length g1)); [apply T3 in Hi; lia|apply T4 in Hi; lia]. }
  destruct (rec_cat_result g2 n2 (fun n l t' H1 H2 => proj2 (Tg n l t' H1 H2)) 0) as (g3 & E & L3 & Ca & Cb & Cd); [lia|].
  rewrite E. cbn [rmap]. eexists. split; [reflexivity|].
  assert (Rg : forall x, reachable g2 0 x -> x = 0 \/ 1 <= x /\ x < length g1).
  { intros x. apply (twice_reach (nodes t) (nodes u) n1 n2); assumption. }
  assert (A2 : forall w, reads g3 n2 w <-> reads g2 n2 w).
  { intros w. assert (Hsame : forall n, length g1 <= n /\ n < length g2 -> node_at g3 n = node_at g2 n).
    { intros n Hn. apply Cb. intros C. apply Rg in C. lia. }
    apply (reads_agree g3 g2 (fun n => length g1 <= n /\ n < length g2)); [|exact Hsame|exact N2].
    intros n l t' Hn. rewrite Hsame by exact Hn. apply T4; tauto. }
  assert (Tc : forall n l t', n < length g3 -> In (l, t') (out (node_at g3 n)) -> 1 <= t' /\ t' < length g3).
  { intros n l t' Hn Hi. rewrite L3 in *.
    assert (D : node_at g3 n = catted g2 n2 n \/ node_at g3 n = node_at g2 n).
    { destruct (Cd n) as [H|H]; [left; apply Ca, H|right; apply Cb, H]. }
    destruct D as [D|D]; rewrite D in Hi; [|apply (Tg n l t'); assumption].
    unfold catted in Hi. destruct (final (node_at g2 n)); [|apply (Tg n l t'); assumption].
    destruct Hi as [Hi|Hi]; [injection Hi as <- <-; lia|apply (Tg n l t'); assumption]. }
  assert (Te : forall n t', n < length g3 -> ~ In ((0, 0), t') (arcs (node_at g3 n))).
  { intros n t' Hn. rewrite L3 in Hn.
    assert (D : arcs (node_at g3 n) = arcs (node_at g2 n)).
    { destruct (Cd n) as [H|H]; [rewrite Ca by exact H; unfold catted; destruct (final (node_at g2 n)); reflexivity|rewrite Cb by exact H; reflexivity]. }
    rewrite D. destruct (Nat.eq_dec n 0) as [->|Hn0]; [rewrite R0; intros []|]. apply T5; lia. }
  cbn [nodes labels]. split; [|split; [|split; [|split]]].
  - split; [|split; [discriminate|split; [discriminate|]]]; cbn [nodes labels].
    + split; [intros C; rewrite C in L3; cbn in L3; lia|]. intros n Hn. split; [|intros t'; apply Te, Hn].
      intros l t' Hi. apply (Tc n l t'); assumption.
    + apply no_eps_insert, no_eps_insert. intros [].
  - intros w. unfold lang. cbn [nodes]. rewrite (catted_reads g2 g3 n2 0 0 w Ca) by constructor.
    split; intros (w1 & w2 & -> & H1 & H2); exists w1, w2; (split; [reflexivity|]).
    + rewrite (reads_root_eps g2 _ R0) in H1. destruct H1 as (x & [<-|[]] & H1). rewrite <- T6, <- T7, <- A2. auto.
    + rewrite (reads_root_eps g2 _ R0), A2, T7. split; [|exact H2]. exists n1. split; [left; reflexivity|]. apply T6, H1.
  - intros l. rewrite !In_insert_labels. cbn [In]. tauto.
  - rewrite Ca by constructor. unfold catted. rewrite R0. reflexivity.
  - intros n l Hn Hi. apply Tc in Hi; [lia|exact Hn].
Qed.

Lemma star_reads h h' x w : (forall n, reachable h 0 n -> node_at h' n = catted h 0 n) ->
  final (node_at h 0) = false -> (forall n l, reachable h 0 n -> ~ In (l, 0) (out (node_at h n))) ->
  0 < length h' -> reachable h 0 x ->
  (reads (set_final 0 true h') x w <->
   x = 0 /\ w = [] \/ exists u v, w = u ++ v /\ reads h x u /\ star (reads h 0) v).
Proof.
  intros HC F0 N0 Lh Hx. set (h2 := set_final 0 true h').
  assert (H2 : forall n, node_at h2 n = if n =? 0 then Node (eps (node_at h' 0)) (arcs (node_at h' 0)) true else node_at h' n).
  { intros n. unfold h2. apply node_at_set_final, Lh. }
  assert (O2 : forall n l t, reachable h 0 n -> (In (l, t) (out (node_at h2 n)) <->
            In (l, t) (out (node_at h n)) \/ final (node_at h n) = true /\ l = (0, 0) /\ t = 0)).
  { intros n l t Hn. assert (E : out (node_at h2 n) = out (node_at h' n)).
    { rewrite H2. destruct (Nat.eqb_spec n 0) as [->|]; reflexivity. }
    rewrite E, HC by exact Hn. unfold catted. destruct (final (node_at h n)).
    - unfold out. cbn [eps arcs map app In]. split.
      + intros [H|H]; [injection H as <- <-; auto|auto].
      + intros [H|(_ & -> & ->)]; auto.
    - split; [auto|]. intros [H|[H _]]; [exact H|discriminate]. }
  assert (F2 : forall n, reachable h 0 n -> final (node_at h2 n) = (n =? 0)).
  { intros n Hn. rewrite H2. destruct (Nat.eqb_spec n 0) as [->|]; [reflexivity|]. rewrite HC by exact Hn. unfold catted.
    destruct (final (node_at h n)) eqn:E; [reflexivity|exact E]. }
  assert (Next : forall n l t, reachable h 0 n -> In (l, t) (out (node_at h n)) -> reachable h 0 t).
  { intros n l t Hn Hi. eapply reachable_trans; [exact Hn|]. econstructor; [exact Hi|constructor]. }
  split.
  - intros R. revert Hx. induction R as [n F|n l t w Hi R IH]; intros Hx.
    + rewrite F2 in F by exact Hx. apply Nat.eqb_eq in F. auto.
    + right. apply O2 in Hi; [|exact Hx]. destruct Hi as [Hi|(F & -> & ->)].
      * destruct (IH (Next _ _ _ Hx Hi)) as [[-> _]|(u & v & -> & Hu & Hv)]; [exfalso; exact (N0 _ _ Hx Hi)|].
        exists (emit l u), v. rewrite emit_app. split; [reflexivity|]. split; [econstructor; eauto|exact Hv].
      * exists [], w. split; [reflexivity|]. split; [constructor; exact F|]. cbn [emit].
        destruct IH as [[_ ->]|(u & v & -> & Hu & Hv)]; [constructor|constructor|apply star_app; assumption].
  - assert (Once : forall n u v, reachable h 0 n -> reads h n u -> reads h2 0 v -> reads h2 n (u ++ v)).
    { intros n u v Hn Hu Hv. induction Hu as [n F|n l t u Hi Hu IH].
      - change ([] ++ v) with (emit (0, 0) v). apply reads_step with 0; [|exact Hv]. apply O2; auto.
      - rewrite emit_app. apply reads_step with t; [apply O2; auto|]. apply IH. exact (Next _ _ _ Hn Hi). }
    assert (Many : forall v, star (reads h 0) v -> reads h2 0 v).
    { induction 1 as [|u v Hu Hv IH]; [constructor; apply F2; constructor|]. apply Once; [constructor|exact Hu|exact IH]. }
    intros [[-> ->]|(u & v & -> & Hu & Hv)]; [constructor; apply F2; constructor|].
    apply Once; [exact Hx|exact Hu|exact (Many _ Hv)].
Qed.
Lemma star_ext (A B : list label -> Prop) w : (forall w, A w -> B w) -> star A w -> star B w.
Proof. intros H. induction 1; constructor; auto. Qed.

Lemma kleene_star_correct t : trans_ok t -> exists r, kleene_star t = Ok r /\ trans_ok r /\
  (forall w, lang r w <-> star (lang t) w) /\ (forall l, In l (labels r) <-> In l (labels t)).
Proof.
  intros T. unfold kleene_star.
  destruct (copy_correct false t T) as (c & E1 & Tc & Lc & _ & _ & Ac). rewrite E1. cbn [rbind].
  destruct (concatenation_correct (Trans [Node [] [] true] false false []) c) as (e & E2 & Te & Le & Ae & F0 & N0).
  { split; [discriminate|]. cbn [nodes length]. intros n Hn. assert (n = 0) by lia. subst. cbn. split; intros; auto. destruct H. }
  { apply Tc. }
  rewrite E2. cbn [rbind].
  assert (Ge : graph_ok (nodes e)) by apply Te.
  destruct (rec_cat_result (nodes e) 0) with (r := 0) as (h' & E3 & L3 & Ca & Cb & Cd).
  { intros n l t' Hn. apply (proj1 (proj2 Ge n Hn)). }
  { apply graph_root, Ge. }
  rewrite E3. cbn [rmap]. eexists. split; [reflexivity|].
  assert (Lh : 0 < length h') by (rewrite L3; apply graph_root, Ge).
  assert (N0' : forall n l, reachable (nodes e) 0 n -> ~ In (l, 0) (out (node_at (nodes e) n))).
  { intros n l Hn. apply N0. apply (reachable_lt _ 0); [exact Ge|apply graph_root, Ge|exact Hn]. }
  assert (LL : forall w, lang e w <-> lang t w).
  { intros w. rewrite Le. split.
    - intros (w1 & w2 & -> & H1 & H2). unfold lang in H1. cbn [nodes] in H1.
      inversion H1 as [n F|n l t' w' Hi R]; subst; [|cbn in Hi; destruct Hi]. cbn [app].
      apply Lc in H2. cbn [recode_label] in H2. rewrite map_id in H2. exact H2.
    - intros H. exists [], w. split; [reflexivity|]. split; [constructor; reflexivity|]. apply Lc. cbn [recode_label]. rewrite map_id. exact H. }
  cbn [nodes labels]. split; [|split].
  - split; [|split; [discriminate|split; [discriminate|]]]; cbn [nodes labels]; [|apply Te].
    split; [intros C; apply (f_equal (@length node)) in C; rewrite set_final_length in C; simpl in C; lia|].
    rewrite set_final_length. intros n Hn.
    assert (D : out (node_at (set_final 0 true h') n) = out (node_at h' n) /\ arcs (node_at (set_final 0 true h') n) = arcs (node_at h' n)).
    { rewrite node_at_set_final by exact Lh. destruct (Nat.eqb_spec n 0) as [->|]; auto. }
    destruct D as [-> ->]. rewrite L3 in *. destruct (proj2 Ge n Hn) as [G1 G2].
    destruct (Cd n) as [H|H]; [rewrite Ca by exact H|rewrite Cb by exact H; split; assumption].
    unfold catted. destruct (final (node_at (nodes e) n)); [|split; assumption]. split; [|exact G2].
    intros l t' [Hi|Hi]; [injection Hi as <- <-; lia|exact (G1 _ _ Hi)].
  - intros w. unfold lang at 1. cbn [nodes]. rewrite (star_reads (nodes e) h' 0 w Ca F0 N0' Lh) by constructor. split.
    + intros [[_ ->]|(u & v & -> & Hu & Hv)]; [constructor|]. apply star_app; [apply LL, Hu|].
      apply (star_ext (reads (nodes e) 0)); [|exact Hv]. intros w0. apply LL.
    + intros [|u v Hu Hv]; [auto|]. right. exists u, v. split; [reflexivity|]. split; [apply LL, Hu|].
      apply (star_ext (lang t)); [|exact Hv]. intros w0. apply LL.
  - intros l. rewrite Ae, Ac. cbn [labels In recode_label]. split; [tauto|]. intros H. split; [auto|].
    intros ->. destruct T as (_ & _ & _ & T). exact (T H).
Qed.

(** reverse *)
Inductive way (h : list node) (x : nat) : list label -> nat -> Prop :=
| way_here : way h x [] x
| way_step u y l z : way h x u y -> In (l, z) (out (node_at h y)) -> way h x (u ++ emit l []) z.
Lemma emit_nil l w : emit l [] ++ w = emit l w.
Proof. destruct l as [[|a] [|b]]; reflexivity. Qed.
Lemma rev_emit l w : rev (emit l w) = rev w ++ emit l [].
Proof. destruct l as [[|a] [|b]]; cbn; try reflexivity. symmetry. apply app_nil_r. Qed.
Lemma way_reads h x u y w : way h x u y -> reads h y w -> reads h x (u ++ w).
Proof.
  intros H. revert w. induction H as [|u y l z H IH Hi]; intros w R; [exact R|].
  rewrite <- app_assoc, emit_nil. apply IH. econstructor; eauto.
Qed.
Lemma reads_way h y w : reads h y w -> exists z, final (node_at h z) = true /\ forall x u, way h x u y -> way h x (u ++ w) z.
Proof.
  induction 1 as [n F|n l t w Hi R IH].
  - exists n. split; [exact F|]. intros x u H. rewrite app_nil_r. exact H.
  - destruct IH as (z & F & Hz). exists z. split; [exact F|]. intros x u H.
    rewrite <- (emit_nil l w), app_assoc. apply Hz. econstructor; eauto.
Qed.
Lemma way_reachable h x u y : way h x u y -> reachable h x y.
Proof.
  induction 1 as [|u y l z H IH Hi]; [constructor|]. eapply reachable_trans; [exact IH|]. econstructor; [exact Hi|constructor].
Qed.

Lemma reverse_full b t : graph_ok (nodes t) -> exists r (fwd : nat -> option nat), reverse b t = Ok r /\ (trans_ok r /\ det r = false) /\
  ((forall w, lang r w <-> lang t (rev w)) /\
   arcs (node_at (nodes r) 0) = [] /\ final (node_at (nodes r) 0) = false /\
   (forall x, In x (eps (node_at (nodes r) 0)) <-> exists q, reachable (nodes t) 0 q /\ final (node_at (nodes t) q) = true /\ fwd q = Some x) /\
   (forall n l, ~ In (l, 0) (out (node_at (nodes r) n))) /\
   (forall q n, fwd q = Some n -> reachable (nodes t) 0 q /\ 0 < n /\ n < length (nodes r) /\ forall w, reads (nodes r) n w <-> way (nodes t) 0 (rev w) q) /\
   (forall n, 0 < n -> n < length (nodes r) -> exists q, fwd q = Some n) /\
   (forall q, reachable (nodes t) 0 q -> exists n, fwd q = Some n)) /\
  (forall l, In l (labels r) <-> b = true /\ In l (labels t) /\ l <> (0, 0)).
Proof.
  intros G. unfold reverse. set (h := nodes t) in *.
  destruct (copy_visit h G (reverse_enter h) nothing nothing3 reverse_after (Ok ([fresh], []))) as (evs & E & L).
  rewrite E. cbn [rbind].
  destruct (reverse_acts h G evs (vl_legal _ _ _ _ _ L)) as (g & m & E2 & HB & R1 & R2 & R3). rewrite E2. cbn [rbind].
  assert (Ent : forall x, entered x evs <-> reachable h 0 x).
  { intros x. rewrite (log_reach Nat.eqb Nat.eqb_eq _ 0 evs L). apply kreach_reachable. }
  assert (Inv : forall x, In x (grow [] evs) <-> reachable h 0 x).
  { intros x. rewrite grow_In, Ent. simpl. tauto. }
  destruct (b_fwd _ _ _ _ _ _ _ _ HB 0) as [r Hr]; [apply Inv; constructor|].
  unfold forward at 1. rewrite Hr. eexists _, (fun q => forward q m). split; [reflexivity|].
  destruct (b_range _ _ _ _ _ _ _ _ HB _ _ Hr) as (_ & Lr1 & Lr2).
  set (g' := set_final r true g).
  assert (Ng : forall n, node_at g' n = if n =? r then Node (eps (node_at g r)) (arcs (node_at g r)) true else node_at g n).
  { intros n. apply node_at_set_final, Lr2. }
  assert (Og : forall n, out (node_at g' n) = out (node_at g n) /\ arcs (node_at g' n) = arcs (node_at g n)).
  { intros n. rewrite Ng. destruct (Nat.eqb_spec n r) as [->|]; auto. }
  assert (N0 : node_at g' 0 = Node (eps (node_at g 0)) [] false).
  { rewrite Ng. destruct (Nat.eqb_spec 0 r); [lia|]. destruct (node_at g 0) as [e a f]. cbn in R1, R2. subst. reflexivity. }
  assert (Raf : forall x l y, reachable h 0 x -> (In (l, y) (rafters x evs) <-> reachable h 0 y /\ In (l, x) (out (node_at h y)))).
  { intros x l y Hx. rewrite rafters_In. rewrite <- afters_In. split.
    - intros H. assert (Hy : entered y evs).
      { destruct (in_dec Nat.eq_dec y (grow [] evs)) as [C|C]; [apply grow_In in C; destruct C as [[]|C]; exact C|].
        destruct (vl_none _ _ _ _ _ L y) as (_ & Ea & _); [intros C'; apply C, grow_In; auto|]. rewrite Ea in H. destruct H. }
      destruct (vl_full _ _ _ _ _ L y Hy) as (_ & Ea & _). rewrite Ea in H. split; [apply Ent, Hy|exact H].
    - intros [Hy H]. destruct (vl_full _ _ _ _ _ L y) as (_ & Ea & _); [apply Ent, Hy|]. rewrite Ea. exact H. }
  assert (Fg : forall x n, forward x m = Some n -> final (node_at g' n) = (x =? 0)).
  { intros x n Hx. rewrite Ng. destruct (Nat.eqb_spec n r) as [->|Nr].
    - cbn [final]. assert (x = 0) by (apply (b_inj _ _ _ _ _ _ _ _ HB _ _ _ Hx Hr)). subst. reflexivity.
    - rewrite (b_fin _ _ _ _ _ _ _ _ HB _ _ Hx). symmetry. apply Nat.eqb_neq. intros ->. unfold forward in Hx. congruence. }
  assert (RW : forall x n w, forward x m = Some n -> reads g' n w <-> way h 0 (rev w) x).
  { intros x n w Hx. split.
    - intros R. revert x Hx. induction R as [n F|n l t' w Hi R IH]; intros x Hx.
      + rewrite (Fg x n Hx) in F. apply Nat.eqb_eq in F. subst. constructor.
      + destruct (Og n) as [Eo _]. rewrite Eo in Hi. apply (b_out _ _ _ _ _ _ _ _ HB _ _ _ _ Hx) in Hi. destruct Hi as (y & Hy & Hyt).
        apply Raf in Hy; [|apply Inv, (b_range _ _ _ _ _ _ _ _ HB _ _ Hx)]. rewrite rev_emit. econstructor; [apply IH, Hyt|apply Hy].
    - intros H. remember (rev w) as u eqn:Eu. revert n w Hx Eu. induction H as [|u y l z H IH Hi]; intros n w Hx Eu.
      + assert (w = []) by (apply (f_equal (@rev label)) in Eu; rewrite rev_involutive in Eu; symmetry; exact Eu). subst.
        constructor. rewrite (Fg 0 n Hx). reflexivity.
      + pose proof (way_reachable _ _ _ _ H) as Ry.
        destruct (b_fwd _ _ _ _ _ _ _ _ HB y) as [n' Hn']; [apply Inv, Ry|].
        assert (w = emit l (rev u)).
        { apply (f_equal (@rev label)) in Eu. rewrite rev_involutive, rev_app_distr, rev_emit in Eu. cbn [rev app] in Eu.
          rewrite emit_nil in Eu. symmetry. exact Eu. }
        subst w. apply reads_step with n'.
        * destruct (Og n) as [-> _]. apply (b_out _ _ _ _ _ _ _ _ HB _ _ _ _ Hx). exists y. split; [|exact Hn'].
          apply Raf; [apply Inv, (b_range _ _ _ _ _ _ _ _ HB _ _ Hx)|]. auto.
        * apply IH; [exact Hn'|]. symmetry. apply rev_involutive. }
  assert (Lg' : length g' = length g) by apply set_final_length.
  cbn [nodes labels]. split; [|split].
  - split; [|reflexivity]. split; [|split; [discriminate|split; [discriminate|]]]; cbn [nodes labels].
    + split; [intros C; rewrite C in Lg'; cbn in Lg'; lia|]. rewrite Lg'. intros n Hn. destruct (Og n) as [-> ->].
      destruct (Nat.eq_dec n 0) as [->|Hn0].
      * rewrite R1. split; [|intros t' []]. intros l t' Hi. unfold out in Hi. rewrite R1, app_nil_r in Hi.
        apply in_map_iff in Hi. destruct Hi as (t2 & Et & Ht). injection Et as <- <-. apply R3 in Ht.
        destruct Ht as (x & _ & _ & Hx). apply (b_range _ _ _ _ _ _ _ _ HB _ _ Hx).
      * split.
        -- intros l t' Hi. apply (built_targets _ _ _ _ _ _ _ _ HB n l t'); [lia|assumption..].
        -- intros t'. apply (built_no_eps _ _ _ _ _ _ _ _ HB); [lia|assumption].
    + destruct b; [apply no_eps_insert|]; intros [].
  - split; [intros w; unfold lang; cbn [nodes]; rewrite (reads_root_eps g' _ N0); split|].
    + intros (n & Hn & R). apply R3 in Hn. destruct Hn as (x & Hx & Fx & Hfx). apply (RW x n w Hfx) in R.
      rewrite <- (app_nil_r (rev w)). apply (way_reads h 0 (rev w) x); [exact R|]. constructor. exact Fx.
    + intros R. destruct (reads_way _ _ _ R) as (z & Fz & Hz). specialize (Hz 0 [] (way_here h 0)). cbn [app] in Hz.
      pose proof (way_reachable _ _ _ _ Hz) as Rz. destruct (b_fwd _ _ _ _ _ _ _ _ HB z) as [n Hn]; [apply Inv, Rz|].
      exists n. split; [apply R3; exists z; split; [apply Ent, Rz|auto]|]. apply (RW z n w Hn). exact Hz.
    + rewrite N0. cbn [arcs final eps]. split; [reflexivity|]. split; [reflexivity|]. split.
      { intros x. rewrite R3. split; intros (q & H1 & H2 & H3); exists q; (split; [apply Ent, H1|]); auto. }
      split; [|split; [|split]].
      * intros n l Hi. destruct (Og n) as [Eo _]. rewrite Eo in Hi. destruct (Nat.eq_dec n 0) as [->|Hn0].
        -- unfold out in Hi. rewrite R1, app_nil_r in Hi. apply in_map_iff in Hi. destruct Hi as (t2 & Et & Ht). injection Et as <- ->.
           apply R3 in Ht. destruct Ht as (x & _ & _ & Hx). destruct (b_range _ _ _ _ _ _ _ _ HB _ _ Hx) as (_ & C & _). lia.
        -- destruct (Nat.lt_ge_cases n (length g)) as [Ln|Ln].
           ++ destruct (built_targets _ _ _ _ _ _ _ _ HB n l 0) as [C _]; [lia|exact Ln|exact Hi|lia].
           ++ rewrite (node_at_over g n Ln) in Hi. destruct Hi.
      * intros q n Hq. destruct (b_range _ _ _ _ _ _ _ _ HB _ _ Hq) as (V1 & V2 & V3). split; [apply Inv, V1|].
        split; [lia|]. split; [lia|]. intros w. exact (RW q n w Hq).
      * intros n H1 H2. apply (b_surj _ _ _ _ _ _ _ _ HB); [exact H1|lia].
      * intros q Hq. apply (b_fwd _ _ _ _ _ _ _ _ HB), Inv, Hq.
  - intros l. destruct b; cbn [In]; [|split; [intros []|intros [C _]; discriminate]].
    rewrite In_insert_labels. cbn [In]. tauto.
Qed.
Lemma reverse_correct b t : graph_ok (nodes t) -> exists r, reverse b t = Ok r /\ trans_ok r /\
  (forall w, lang r w <-> lang t (rev w)) /\
  (forall l, In l (labels r) <-> b = true /\ In l (labels t) /\ l <> (0, 0)).
Proof. intros G. destruct (reverse_full b t G) as (r & f & E & (T & _) & (L & _) & A). exists r. auto. Qed.

(** Operations that explore the graph they are given. *)
Lemma explore_relabelled (f : label -> label) h : graph_ok h -> f (0, 0) = (0, 0) -> exists g,
  explore Nat.eqb (fun n => Ok (map (fun a => (f (fst a), snd a)) (out (node_at h n))))
          (fun n => final (node_at h n)) (S (length h)) 0 = Ok g /\ graph_ok g /\
  forall w, reads g 0 w <-> exists u, reads h 0 u /\ w = relabel f u.
Proof.
  intros G Hf.
  destruct (explore_built Nat.eqb Nat.eqb_eq (fun n => Ok (map (fun a => (f (fst a), snd a)) (out (node_at h n))))
             (fun n => final (node_at h n)) 0 (seq 0 (length h))) with (fuel := S (length h)) as (v & g & m & E & HB & H0 & _).
  - apply in_seq. pose proof (graph_root h G). lia.
  - intros k Hk. eexists. split; [reflexivity|]. intros a Ha. apply in_map_iff in Ha. destruct Ha as ([l t] & <- & Ha). cbn [snd].
    apply in_seq in Hk. apply in_seq. destruct (proj2 G k) as [G1 _]; [lia|]. specialize (G1 _ _ Ha). lia.
  - rewrite seq_length. lia.
  - exists g. split; [exact E|]. split; [exact (built_graph_ok _ _ _ _ _ _ _ 0 HB H0)|].
    intros w. rewrite (built_reads _ _ _ _ _ _ _ _ HB 0 0 w H0). unfold steps.
    rewrite kreads_relabel by exact Hf. split; intros (u & Hu & ->); exists u; (split; [|reflexivity]); apply reads_kreads; exact Hu.
Qed.
Lemma In_fold_insert (f : label -> label) ls : forall s l,
  In l (fold_left (fun s l => insert_label (f l) s) ls s) <-> In l s \/ l <> (0, 0) /\ exists k, In k ls /\ l = f k.
Proof.
  induction ls as [|k ls IH]; intros s l; cbn [fold_left].
  - cbn [In]. split; [auto|]. intros [H|[_ (k & [] & _)]]. exact H.
  - rewrite IH, In_insert_label. cbn [In]. split.
    + intros [[H|[-> H]]|[H (k' & H1 & H2)]]; [auto|right; split; [exact H|exists k; auto]|right; split; [exact H|exists k'; auto]].
    + intros [H|[H (k' & [->|H1] & H2)]]; [auto|subst; auto|right; split; [exact H|exists k'; auto]].
Qed.
Lemma level_correct input t : graph_ok (nodes t) -> exists r, level input t = Ok r /\ trans_ok r /\
  (let c l := let s := if input then fst l else snd l in (s, s) : label in
   (forall w, lang r w <-> exists u, lang t u /\ w = relabel c u) /\
   (forall l, In l (labels r) <-> l <> (0, 0) /\ exists k, In k (labels t) /\ l = c k)).
Proof.
  intros G. unfold level. cbv zeta beta.
  destruct (explore_relabelled (fun l => (if input then fst l else snd l, if input then fst l else snd l)) (nodes t) G) as (g & E & Gg & Lg).
  { destruct input; reflexivity. }
  eexists. split; [exact (f_equal (rmap _) E)|]. split; [split; [exact Gg|split; [discriminate|split; [discriminate|]]]|].
  - cbn [labels]. rewrite In_fold_insert. intros [[]|[C _]]. apply C. reflexivity.
  - cbn zeta. split; [exact Lg|]. intros l. cbn [labels]. rewrite In_fold_insert. cbn [In]. tauto.
Qed.
Lemma replace_char_correct c nc t : graph_ok (nodes t) -> c <> 0 -> exists r, replace_char c nc t = Ok r /\ trans_ok r /\
  (forall w, lang r w <-> exists u, lang t u /\ w = relabel (replace_in_label c nc) u) /\
  (forall l, In l (labels r) <-> l <> (0, 0) /\ exists k, In k (labels t) /\ l = replace_in_label c nc k).
Proof.
  intros G Hc. unfold replace_char.
  destruct (explore_relabelled (replace_in_label c nc) (nodes t) G) as (g & E & Gg & Lg).
  { unfold replace_in_label. cbn [fst snd]. destruct (Nat.eqb_spec 0 c); [congruence|reflexivity]. }
  rewrite E. cbn [rmap]. eexists. split; [reflexivity|]. split; [split; [exact Gg|split; [discriminate|split; [discriminate|]]]|].
  - cbn [labels]. rewrite In_fold_insert. intros [[]|[C _]]. apply C. reflexivity.
  - split; [exact Lg|]. intros l. cbn [labels]. rewrite In_fold_insert. cbn [In]. tauto.
Qed.
