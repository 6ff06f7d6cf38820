(** Proofs about the replace rules: one rule and parallel rules. *)
From Verif Require Import Base Xr_Model Xr_Spec Xr_Proofs1 Xr_Proofs2.

Lemma bracketed_iff l r P q : bracketed l r P q <-> exists p, P p /\ q = e2 l :: p ++ [e2 r].
Proof.
  unfold bracketed, cat, same, one. split.
  - intros (a & b & -> & -> & c & d & -> & Hc & ->). eauto.
  - intros (p & Hp & ->). exists [e2 l], (p ++ [e2 r]). split; auto. split; auto. exists p, [e2 r]. auto.
Qed.
Lemma mapping_iff mk r p : usual r -> is_mark mk ->
  (mapping_or_identity mk r p <-> exists x y, maps r x y /\ p = pad (txt x) (txt y ++ mk)).
Proof.
  intros Hu Hmk.
  assert (Hm : forall p, mapping mk r p <-> exists x y, maps r x y /\ p = pad (txt x) (txt y ++ mk)).
  { clear p. intros p. destruct Hu as (Hab & _). unfold mapping, sub, cross, maps. split.
    - intros (A & B & Hin & (x & y & Hx & (y' & Hy & ->) & ->) & _).
      destruct (Hab A B Hin) as (UA & UB & _). destruct (UA _ Hx) as (x0 & ->). destruct (UB _ Hy) as (y0 & ->).
      exists x0, y0. split; auto. exists A, B; auto.
    - intros (x & y & (A & B & Hin & Hx & Hy) & ->). exists A, B. split; auto. split; [eauto 8|].
      intros (w & Hw & E). assert (w = txt x) by (rewrite <- (up_idw w), <- E, up_pad; auto). subst w.
      destruct (txt_plain _ _ Hw); discriminate. }
  unfold mapping_or_identity. split.
  - intros [H|(N & _)]; [apply Hm; auto|]. exfalso. destruct Hu as (_ & (x & y & Hxy) & _).
    apply (N (pad (txt x) (txt y ++ mk))). apply Hm. eauto.
  - intros H. left. apply Hm; auto.
Qed.

Definition fmap (optional : bool) (g : rule -> ctxt -> ctxt) (mr : word * rule) : pset * list ctxt * rtype :=
  (alt (bracketed LM RM (mapping_or_identity (fst mr) (snd mr)))
       (if optional then none else bracketed LM2 RM2 (aut (fun x => exists y, mapping_or_identity (fst mr) (snd mr) y /\ x = up y))),
   map (g (snd mr)) (r_ctx (snd mr)), r_type (snd mr)).
Lemma fmap_p1 optional g mk r q : usual r -> is_mark mk -> (fst (fst (fmap optional g (mk, r))) q <->
  (exists x y, maps r x y /\ q = fl1 (C (pad (txt x) (txt y ++ mk)))) \/
  (optional = false /\ exists x y, maps r x y /\ q = fl1 (V (txt x)))).
Proof.
  intros Hu Hmk. simpl. unfold alt. rewrite bracketed_iff. split.
  - intros [(p & Hp & ->)|H].
    + apply mapping_iff in Hp; auto. destruct Hp as (x & y & Hm & ->). left; eauto.
    + destruct optional; [destruct H|]. apply bracketed_iff in H. destruct H as (p & (w & (y & Hy & ->) & ->) & ->).
      apply mapping_iff in Hy; auto. destruct Hy as (x & y' & Hm & ->). rewrite up_pad. right. split; eauto.
  - intros [(x & y & Hm & ->)|(-> & x & y & Hm & ->)].
    + left. eexists; split; [|reflexivity]. apply mapping_iff; eauto.
    + right. apply bracketed_iff. exists (idw (txt x)). split; auto.
      exists (txt x). split; auto. exists (pad (txt x) (txt y ++ mk)). rewrite up_pad. split; auto. apply mapping_iff; eauto.
Qed.

Lemma filter_split {A} (p : A -> bool) W u v : filter p W = u ++ v -> exists u' v', W = u' ++ v' /\ filter p u' = u /\ filter p v' = v.
Proof.
  revert u; induction W as [|a W IH]; intros u E; simpl in E.
  - symmetry in E. apply app_eq_nil in E. destruct E; subst. exists [], []; auto.
  - destruct (p a) eqn:Ep.
    + destruct u as [|b u]; simpl in E.
      * exists [], (a :: W). simpl. rewrite Ep. auto.
      * injection E as <- E. destruct (IH u E) as (u' & v' & -> & E1 & E2). exists (a :: u'), v'. simpl. rewrite Ep, E1. auto.
    + destruct (IH u E) as (u' & v' & -> & E1 & E2). exists (a :: u'), v'. simpl. rewrite Ep. auto.
Qed.

Lemma no_context_actx r l rr : no_context r -> actx r l rr.
Proof.
  intros (c & E & H1 & H2). exists c. split; [rewrite E; left; auto|]. split.
  - eexists _, []. split; [symmetry; apply app_nil_r|]. apply H1; auto.
  - exists []. eexists. split; [reflexivity|]. apply H2; auto.
Qed.
Lemma dec_no_context r : usual r -> no_context r \/ ~ no_context r.
Proof.
  intros (_ & _ & Hc). unfold no_context. destruct (r_ctx r) as [|c [|d l]].
  - right; intros (c & E & _); discriminate.
  - destruct (Hc c (or_introl eq_refl)) as (_ & _ & _ & _ & D1 & D2).
    destruct D1 as [D1|D1]; [|right; intros (c' & E & H & _); inversion E; subst; auto].
    destruct D2 as [D2|D2]; [|right; intros (c' & E & _ & H); inversion E; subst; auto].
    left; exists c; auto.
  - right; intros (c' & E & _); discriminate.
Qed.
Lemma dec_one_context r : usual r -> has_one_context r \/ ~ has_one_context r.
Proof.
  intros (_ & _ & Hc). unfold has_one_context. destruct (r_ctx r) as [|c [|d l]].
  - right; intros (c & E & _); discriminate.
  - destruct (Hc c (or_introl eq_refl)) as (_ & _ & _ & _ & D1 & D2).
    destruct D1 as [D1|D1]; [|left; exists c; split; auto; tauto].
    destruct D2 as [D2|D2]; [|left; exists c; split; auto; tauto].
    right. intros (c' & E & H). inversion E; subst. tauto.
  - right; intros (c' & E & _); discriminate.
Qed.
Lemma ctx_bd r c : usual r -> In c (r_ctx r) ->
  (c_left_bd c = false -> forall w, c_left c w -> ~ In Bd w) /\ (c_right_bd c = false -> forall w, c_right c w -> ~ In Bd w).
Proof.
  intros (_ & _ & Hc) Hin. destruct (Hc c Hin) as (U1 & U2 & _). split; intros E w Hw Hb.
  - destruct (U1 w Bd Hw Hb) as [(a & F)|(F & _)]; congruence.
  - destruct (U2 w Bd Hw Hb) as [(a & F)|(F & _)]; congruence.
Qed.

(** One rule. *)
Lemma left_sides_iff r x : usual r -> (left_sides r x <-> exists y, mapping_or_identity [] r y /\ x = up y).
Proof.
  intros Hu. split.
  - intros (A & B & Hin & Ha). destruct Hu as (Hab & Hu). destruct (Hab A B Hin) as (UA & UB & _ & _ & y & Hy).
    destruct (UA _ Ha) as (x0 & ->). destruct (UB _ Hy) as (y0 & ->).
    exists (pad (txt x0) (txt y0 ++ [])). rewrite up_pad. split; auto. apply mapping_iff; [split; auto | left; auto|].
    exists x0, y0. split; auto. exists A, B; auto.
  - intros (p & Hp & ->). apply mapping_iff in Hp; auto; [|left; auto].
    destruct Hp as (x0 & y0 & (A & B & Hin & Ha & Hb) & ->). rewrite up_pad. exists A, B; auto.
Qed.
Definition gid (r : rule) (c : ctxt) : ctxt := c.
Lemma knows_brackets o : knows o (brackets o).
Proof. destruct o; simpl; repeat split; simpl; auto; discriminate. Qed.
Lemma brackets_pl o a : ~ In (Pl a) (brackets o).
Proof. destruct o; simpl; intros H; repeat (destruct H as [H|H]; [discriminate|]); auto. Qed.
Lemma brackets_bd o : ~ In Bd (brackets o).
Proof. destruct o; simpl; intros H; repeat (destruct H as [H|H]; [discriminate|]); auto. Qed.

Section Single.
Variable r : rule.
Hypothesis Hu : usual r.
Variable optional : bool.
Let ml := [([] : word, r)].
Let f := fun mr : word * rule => (alt (bracketed LM RM (mapping_or_identity [] (snd mr)))
               (if optional then none else bracketed LM2 RM2 (aut (left_sides (snd mr)))), r_ctx (snd mr), r_type (snd mr)).
Lemma s_mark mk r' : In (mk, r') ml -> is_mark mk.
Proof. intros [E|[]]; inversion E; subst. left; auto. Qed.
Lemma s_usual mk r' : In (mk, r') ml -> usual r'.
Proof using Hu. intros [E|[]]; inversion E; subst; auto. Qed.
Lemma s_p1 mk r' q : In (mk, r') ml -> (fst (fst (f (mk, r'))) q <->
  (exists x y, maps r' x y /\ q = fl1 (C (pad (txt x) (txt y ++ mk)))) \/
  (optional = false /\ exists x y, maps r' x y /\ q = fl1 (V (txt x)))).
Proof using Hu.
  intros [E|[]]; inversion E; subst. rewrite <- (fmap_p1 optional gid); auto; [|left; auto].
  simpl. unfold alt. assert (H : forall A B C : Prop, (B <-> C) -> (A \/ B <-> A \/ C)) by tauto. apply H.
  destruct optional; [tauto|]. rewrite !bracketed_iff. split; intros (p & (w & Hw & ->) & ->); exists (idw w); split; auto; exists w; split; auto;
    apply (left_sides_iff r' w Hu); auto.
Qed.
Lemma s_p2 mk r' : In (mk, r') ml -> snd (fst (f (mk, r'))) = map (gid r') (r_ctx r') /\ snd (f (mk, r')) = r_type r'.
Proof. intros _. simpl. unfold gid. rewrite map_id. auto. Qed.
Lemma s_p3 mk r' c : In (mk, r') ml -> In c (r_ctx r') ->
  (c_left_bd (gid r' c) = false -> forall w, c_left (gid r' c) w -> ~ In Bd w) /\
  (c_right_bd (gid r' c) = false -> forall w, c_right (gid r' c) w -> ~ In Bd w).
Proof using Hu. intros Hin Hc. apply (ctx_bd r' c); auto. eapply s_usual; eauto. Qed.
Lemma s_p4 mk r' c W : In (mk, r') ml -> In c (r_ctx r') ->
  (r_type r' = REPL_UP \/ (forall mk' r', In (mk', r') ml -> mk' = []) -> filter not_mark W = W) ->
  (forall i, In (Mk i) W -> exists mk' r', In (mk', r') ml /\ mk' = [Mk i]) ->
  ((exists u v, W = u ++ v /\ c_left (gid r' c) v) <-> (exists u v, filter not_mark W = u ++ v /\ c_left c v)) /\
  ((exists u v, W = u ++ v /\ c_right (gid r' c) u) <-> (exists u v, filter not_mark W = u ++ v /\ c_right c u)).
Proof.
  intros _ _ HW _. rewrite HW; [split; reflexivity|]. right. intros mk' r'' [E|[]]; inversion E; auto.
Qed.
Lemma single_wrapped x X X0 Y : X = Bd :: X0 ++ [Bd] -> filt (brackets optional) X = Bd :: txt x ++ [Bd] ->
  (rel_of (bracketed_replace r optional) X Y <->
   exists as_, good optional [r] as_ /\ X = Bd :: ub as_ ++ [Bd] /\ Y = Bd :: lb as_ ++ [Bd]).
Proof using Hu.
  intros EB EX. change [r] with (map snd ml).
  pose proof (cond_wrapped optional ml f gid (brackets optional) (knows_brackets _) (brackets_pl _) (brackets_bd _)
    s_mark s_usual s_p1 s_p2 s_p3 s_p4 x X X0 Y EB EX) as Hc.
  pose proof (plain_wrapped optional ml f gid (brackets optional) (knows_brackets _) (brackets_pl _) (brackets_bd _)
    s_mark s_usual s_p1 s_p2 s_p3 s_p4 x X X0 Y EB EX) as Hp.
  change (map f ml) with [(alt (bracketed LM RM (mapping_or_identity [] r))
               (if optional then none else bracketed LM2 RM2 (aut (left_sides r))), r_ctx r, r_type r)] in Hc, Hp.
  assert (Hnm : forall p, identity_expanded (brackets optional) (map f ml) p -> X = up p -> filter not_mark (down p) = down p).
  { intros p Hie ->.
    pose proof (any_text optional ml f (brackets optional) (knows_brackets _) s_mark s_p1 p Hie) as Ha.
    destruct Ha as (qs & -> & Hqs).
    { intros s Hs. rewrite EX in Hs. destruct Hs as [<-|Hs]; auto. apply in_app_or in Hs.
      destruct Hs as [Hs|[<-|[]]]; auto. right. apply txt_plain in Hs; auto. }
    clear Hc Hp EX EB Hie.
    induction qs as [|q qs IH]; simpl; auto. rewrite down_app, filter_app, IH.
    - f_equal. destruct (Hqs q (or_introl eq_refl)) as [->|(a & Ha)]; auto.
      assert (H2 : Forall2 (rp optional ml) [q] [a]) by (constructor; auto).
      apply (no_mark_down optional ml) in H2.
      + simpl in H2. rewrite app_nil_r in H2. auto.
      + intros mk' r' [E|[]]; inversion E; auto.
    - intros p0 Hp0. apply Hqs. right; auto. }
  destruct (dec_no_context r Hu) as [N|N].
  - rewrite <- Hp by (intros mk r' l rr [E|[]]; inversion E; subst; apply no_context_actx; auto).
    unfold rel_of, bracketed_replace. split.
    + intros (p & [(_ & H)|(H & _)] & E1 & E2); [|tauto]. exists p. split; auto. split; auto.
      rewrite Hnm; auto.
    + intros (p & E1 & E2 & H). exists p. split; [left; auto|]. split; auto. rewrite E2; symmetry; apply Hnm; auto.
  - rewrite <- Hc. unfold rel_of, bracketed_replace. split.
    + intros (p & [(H & _)|(_ & H)] & E1 & E2); [tauto|]. exists p. split; auto. split; auto.
      rewrite Hnm; auto. apply H.
    + intros (p & E1 & E2 & H). exists p. split; [right; auto|]. split; auto. rewrite E2. symmetry. apply Hnm; auto. apply H.
Qed.
End Single.

(** Texts in general: pieces and boundaries. *)
Definition ubo (o : option ap) : word := match o with None => [Bd] | Some a => ub1 a end.
Definition lbo (o : option ap) : word := match o with None => [Bd] | Some a => lb1 a end.
Definition okap (optional : bool) (rs : list rule) (a : ap) : Prop :=
  match a with
  | AK _ => True
  | AC x y => exists ru, In ru rs /\ maps ru x y
  | AL x => optional = false /\ exists ru y, In ru rs /\ maps ru x y
  end.
Lemma rp_okap optional ml q a : rp optional ml q a -> okap optional (map snd ml) a.
Proof.
  intros H. destruct H as [a|x y mk r Hml Hp|x y mk r O Hml Hp]; simpl; auto.
  - exists r. split; auto. apply in_map_iff. exists (mk, r); auto.
  - split; auto. exists r, y. split; auto. apply in_map_iff. exists (mk, r); auto.
Qed.
Lemma pieces_os optional ml (qs : list pc) : (forall mk r, In (mk, r) ml -> is_mark mk) ->
  (forall q, In q qs -> q = K Bd \/ exists a, rp optional ml q a) ->
  exists os, up (fl qs) = flat_map ubo os /\ filter not_mark (down (fl qs)) = flat_map lbo os /\
    forall a, In (Some a) os -> okap optional (map snd ml) a.
Proof.
  intros Hm. induction qs as [|q qs IH]; intros Hq.
  - exists []. simpl. repeat split; auto. tauto.
  - destruct IH as (os & E1 & E2 & Hos); [intros; apply Hq; right; auto|].
    simpl. rewrite up_app, down_app, filter_app, E1, E2.
    destruct (Hq q (or_introl eq_refl)) as [->|(a & Ha)].
    + exists (None :: os). repeat split; auto. intros a [E|H]; [discriminate|auto].
    + exists (Some a :: os). simpl. rewrite (up_fl1 _ _ _ _ Ha), (down_fl1 _ _ Hm _ _ Ha). repeat split; auto.
      intros b [E|H]; auto. inversion E; subst. eapply rp_okap; eauto.
Qed.

(** Parallel rules. *)
Section Parallel.
Variable rs : list rule.
Hypothesis Hu : forall r, In r rs -> usual r.
Variable optional : bool.
Let n := List.length rs.
Let ml := map (fun ir => ([Mk (fst ir)] : word, snd ir)) (combine (seq 1 n) rs).
Let g := fun r : rule => marked n (r_type r).
Let f := fmap optional g.
Let known := [LM; RM; LM2; RM2] ++ map Mk (seq 1 n).
Lemma p_ml mk r : In (mk, r) ml -> exists i, mk = [Mk i] /\ In i (seq 1 n) /\ In r rs.
Proof using.
  unfold ml. rewrite in_map_iff. intros ((i & r') & E & H). simpl in E. inversion E; subst.
  exists i. split; auto. split; [eapply in_combine_l; eauto | eapply in_combine_r; eauto].
Qed.
Lemma p_snd : map snd ml = rs.
Proof using.
  unfold ml. rewrite map_map. simpl. assert (E : List.length (seq 1 n) = List.length rs) by (rewrite seq_length; auto).
  clearbody n. revert E. generalize (seq 1 n). clear. induction rs as [|r l IH]; intros [|i s] E; simpl in *; try discriminate; auto.
  f_equal. apply IH. auto.
Qed.
Lemma p_maps : map f ml = map (parallel_map n optional) (combine (seq 1 n) rs).
Proof using. unfold ml. rewrite map_map. apply map_ext. intros (i & r). reflexivity. Qed.
Lemma p_kn : knows optional known.
Proof using. repeat split; simpl; auto. Qed.
Lemma p_pl a : ~ In (Pl a) known.
Proof using.
  unfold known. rewrite in_app_iff, in_map_iff. intros [H|(i & E & _)]; [|discriminate].
  simpl in H. repeat (destruct H as [H|H]; [discriminate|]); auto.
Qed.
Lemma p_bd : ~ In Bd known.
Proof using.
  unfold known. rewrite in_app_iff, in_map_iff. intros [H|(i & E & _)]; [|discriminate].
  simpl in H. repeat (destruct H as [H|H]; [discriminate|]); auto.
Qed.
Lemma p_mark mk r' : In (mk, r') ml -> is_mark mk.
Proof using. intros H. destruct (p_ml _ _ H) as (i & -> & _). right; eauto. Qed.
Lemma p_usual mk r' : In (mk, r') ml -> usual r'.
Proof using Hu. intros H. destruct (p_ml _ _ H) as (i & _ & _ & H'). auto. Qed.
Lemma p_p1 mk r' q : In (mk, r') ml -> (fst (fst (f (mk, r'))) q <->
  (exists x y, maps r' x y /\ q = fl1 (C (pad (txt x) (txt y ++ mk)))) \/
  (optional = false /\ exists x y, maps r' x y /\ q = fl1 (V (txt x)))).
Proof using Hu. intros H. apply fmap_p1; [eapply p_usual | eapply p_mark]; eauto. Qed.
Lemma p_p2 mk r' : In (mk, r') ml -> snd (fst (f (mk, r'))) = map (g r') (r_ctx r') /\ snd (f (mk, r')) = r_type r'.
Proof using. intros _. simpl. auto. Qed.
Lemma freely_bd (L : lang) w : freely (map Mk (seq 1 n)) L w -> (forall v, L v -> ~ In Bd v) -> ~ In Bd w.
Proof using.
  intros H Hl Hin. apply (Hl _ H). apply filter_In. split; auto.
  destruct (in_dec sym_eq_dec Bd (map Mk (seq 1 n))) as [E|E]; auto. apply in_map_iff in E. destruct E as (i & E & _); discriminate.
Qed.
Lemma p_p3 mk r' c : In (mk, r') ml -> In c (r_ctx r') ->
  (c_left_bd (g r' c) = false -> forall w, c_left (g r' c) w -> ~ In Bd w) /\
  (c_right_bd (g r' c) = false -> forall w, c_right (g r' c) w -> ~ In Bd w).
Proof using Hu.
  intros Hin Hc. destruct (ctx_bd r' c) as (H1 & H2); auto. { eapply p_usual; eauto. }
  unfold g, marked. destruct (r_type r'); simpl; auto; split; intros E w Hw; eapply freely_bd; eauto.
Qed.
Lemma filt_marks W : (forall i, In (Mk i) W -> In i (seq 1 n)) ->
  filter (fun s => if in_dec sym_eq_dec s (map Mk (seq 1 n)) then false else true) W = filter not_mark W.
Proof using.
  intros H. apply filter_ext_in. intros s Hs. destruct (in_dec sym_eq_dec s (map Mk (seq 1 n))) as [E|E].
  - apply in_map_iff in E. destruct E as (i & <- & _). reflexivity.
  - destruct s; auto. exfalso. apply E. apply in_map; auto.
Qed.
Lemma p_p4 mk r' c W : In (mk, r') ml -> In c (r_ctx r') ->
  (r_type r' = REPL_UP \/ (forall mk' r', In (mk', r') ml -> mk' = []) -> filter not_mark W = W) ->
  (forall i, In (Mk i) W -> exists mk' r', In (mk', r') ml /\ mk' = [Mk i]) ->
  ((exists u v, W = u ++ v /\ c_left (g r' c) v) <-> (exists u v, filter not_mark W = u ++ v /\ c_left c v)) /\
  ((exists u v, W = u ++ v /\ c_right (g r' c) u) <-> (exists u v, filter not_mark W = u ++ v /\ c_right c u)).
Proof using.
  intros _ _ HW Hi.
  assert (HM : forall i, In (Mk i) W -> In i (seq 1 n)).
  { intros i H. destruct (Hi i H) as (mk' & r'' & Hm & ->). destruct (p_ml _ _ Hm) as (j & E & Hj & _). inversion E; subst; auto. }
  assert (G : forall L : lang, ((exists u v, W = u ++ v /\ freely (map Mk (seq 1 n)) L v) <-> (exists u v, filter not_mark W = u ++ v /\ L v)) /\
     ((exists u v, W = u ++ v /\ freely (map Mk (seq 1 n)) L u) <-> (exists u v, filter not_mark W = u ++ v /\ L u))).
  { intros L. unfold freely. split; split.
    - intros (u & v & E & H). exists (filter not_mark u), (filter not_mark v). rewrite E, filter_app. split; auto.
      rewrite filt_marks in H; auto. intros i Hin. apply HM. rewrite E. apply in_or_app; auto.
    - intros (u & v & E & H). apply filter_split in E. destruct E as (u' & v' & E & <- & <-). exists u', v'. split; auto.
      rewrite filt_marks; auto. intros i Hin. apply HM. rewrite E. apply in_or_app; auto.
    - intros (u & v & E & H). exists (filter not_mark u), (filter not_mark v). rewrite E, filter_app. split; auto.
      rewrite filt_marks in H; auto. intros i Hin. apply HM. rewrite E. apply in_or_app; auto.
    - intros (u & v & E & H). apply filter_split in E. destruct E as (u' & v' & E & <- & <-). exists u', v'. split; auto.
      rewrite filt_marks; auto. intros i Hin. apply HM. rewrite E. apply in_or_app; auto. }
  unfold g, marked. destruct (r_type r') eqn:ET.
  - rewrite HW by auto. split; reflexivity.
  - simpl. split; apply G.
  - simpl. split; apply G.
  - simpl. split; apply G.
Qed.
Lemma parallel_wrapped x X X0 Y : X = Bd :: X0 ++ [Bd] -> filt (brackets optional) X = Bd :: txt x ++ [Bd] ->
  ((forall r, In r rs -> no_context r) \/ exists r, In r rs /\ has_one_context r) ->
  (parallel_bracketed_replace rs optional X Y <->
   exists as_, good optional rs as_ /\ X = Bd :: ub as_ ++ [Bd] /\ Y = Bd :: lb as_ ++ [Bd]).
Proof using Hu.
  intros EB EX HC.
  pose proof (cond_wrapped optional ml f g known p_kn p_pl p_bd p_mark p_usual p_p1 p_p2 p_p3 p_p4 x X X0 Y EB EX) as Hc.
  pose proof (plain_wrapped optional ml f g known p_kn p_pl p_bd p_mark p_usual p_p1 p_p2 p_p3 p_p4 x X X0 Y EB EX) as Hp.
  rewrite p_snd in Hc, Hp. rewrite p_maps in Hc, Hp. unfold parallel_bracketed_replace. fold n. fold known.
  destruct HC as [HN|HO].
  - rewrite <- Hp by (intros mk r l rr H; apply no_context_actx; apply HN; destruct (p_ml _ _ H) as (i & _ & _ & H'); auto).
    assert (HN' : forall r, In r rs -> ~ has_one_context r).
    { intros r Hr (c & E & H). destruct (HN r Hr) as (c' & E' & H'). rewrite E in E'. inversion E'; subst. auto. }
    split.
    + intros (p & E1 & E2 & [(_ & H)|((r & Hr & H) & _)]); [eauto|]. destruct (HN' r Hr H).
    + intros (p & E1 & E2 & H). exists p. split; auto.
  - rewrite <- Hc. split.
    + intros (p & E1 & E2 & [(H & _)|(_ & H)]); [|eauto]. destruct HO as (r & Hr & HO). destruct (H r Hr HO).
    + intros (p & E1 & E2 & H). exists p. split; auto.
Qed.
Lemma parallel_any X Y : parallel_bracketed_replace rs optional X Y ->
  (forall s, In s (filt (brackets optional) X) -> s = Bd \/ exists a, s = Pl a) ->
  exists os, X = flat_map ubo os /\ Y = flat_map lbo os /\ forall a, In (Some a) os -> okap optional rs a.
Proof using Hu.
  intros (p & -> & -> & H) Hs. fold n in H. fold known in H. rewrite <- p_maps in H.
  assert (Hie : identity_expanded known (map f ml) p) by (destruct H as [(_ & H)|(_ & H)]; [auto|apply H]).
  destruct (any_text optional ml f known p_kn p_mark p_p1 p Hie Hs) as (qs & -> & Hqs).
  destruct (pieces_os optional ml qs p_mark Hqs) as (os & E1 & E2 & E3). rewrite p_snd in E3. eauto.
Qed.
End Parallel.

Lemma single_any r optional X Y : usual r -> rel_of (bracketed_replace r optional) X Y ->
  (forall s, In s (filt (brackets optional) X) -> s = Bd \/ exists a, s = Pl a) ->
  exists os, X = flat_map ubo os /\ Y = flat_map lbo os /\ forall a, In (Some a) os -> okap optional [r] a.
Proof.
  intros Hu (p & H & <- & <-) Hs.
  set (ml := [([] : word, r)]).
  set (f := fun mr : word * rule => (alt (bracketed LM RM (mapping_or_identity [] (snd mr)))
               (if optional then none else bracketed LM2 RM2 (aut (left_sides (snd mr)))), r_ctx (snd mr), r_type (snd mr))).
  assert (Hie : identity_expanded (brackets optional) (map f ml) p) by (destruct H as [(_ & H)|(_ & H)]; [apply H|apply H]).
  destruct (any_text optional ml f (brackets optional) (knows_brackets _) (s_mark r Hu) (s_p1 r Hu optional) p Hie Hs) as (qs & -> & Hqs).
  destruct (pieces_os optional ml qs (s_mark r Hu) Hqs) as (os & E1 & E2 & E3). exists os. split; auto. split; auto.
  rewrite <- E2. clear - Hqs.
  induction qs as [|q qs IH]; simpl; auto. rewrite down_app, filter_app, <- IH.
  - f_equal. destruct (Hqs q (or_introl eq_refl)) as [->|(a & Ha)]; auto.
    assert (H2 : Forall2 (rp optional ml) [q] [a]) by (constructor; auto).
    apply (no_mark_down optional ml) in H2.
    + simpl in H2. rewrite app_nil_r in H2. auto.
    + intros mk' r' [E|[]]; inversion E; auto.
  - intros p0 Hp0. apply Hqs. right; auto.
Qed.

(** Both. *)
Theorem rules_wrapped rs optional x X X0 Y : (forall r, In r rs -> usual r) -> contexts_seen rs ->
  X = Bd :: X0 ++ [Bd] -> filt (brackets optional) X = Bd :: txt x ++ [Bd] ->
  (bracketed_rules rs optional X Y <->
   exists as_, good optional rs as_ /\ X = Bd :: ub as_ ++ [Bd] /\ Y = Bd :: lb as_ ++ [Bd]).
Proof.
  intros Hu Hc EB EX. destruct rs as [|r [|r2 rs]].
  - exfalso. destruct Hc as [(r & E)|(E & _)]; [discriminate|auto].
  - eapply single_wrapped; eauto. apply Hu; left; auto.
  - eapply parallel_wrapped; eauto. destruct Hc as [(r' & E)|(_ & H)]; [discriminate|auto].
Qed.
Theorem rules_any rs optional X Y : (forall r, In r rs -> usual r) -> bracketed_rules rs optional X Y ->
  (forall s, In s (filt (brackets optional) X) -> s = Bd \/ exists a, s = Pl a) ->
  exists os, X = flat_map ubo os /\ Y = flat_map lbo os /\ forall a, In (Some a) os -> okap optional rs a.
Proof.
  intros Hu H Hs. destruct rs as [|r [|r2 rs]].
  - eapply (parallel_any [] Hu); eauto.
  - eapply single_any; eauto. apply Hu; left; auto.
  - eapply (parallel_any (r :: r2 :: rs) Hu); eauto.
Qed.
