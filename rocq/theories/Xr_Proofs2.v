(** Proofs about the replace rules: the bracketed replacement and ways to change a text. *)
From Verif Require Import Base Xr_Model Xr_Spec Xr_Proofs1.

Inductive ap := AK (a : nat) | AC (x y : text) | AL (x : text).
Definition ar1 (c : ap) : text := match c with AK a => [a] | AC x _ => x | AL x => x end.
Definition aw1 (c : ap) : text := match c with AK a => [a] | AC _ y => y | AL x => x end.
Definition aread (ps : list ap) : text := flat_map ar1 ps.
Definition awritten (ps : list ap) : text := flat_map aw1 ps.
Definition ub1 (c : ap) : word :=
  match c with AK a => [Pl a] | AC x _ => LM :: txt x ++ [RM] | AL x => LM2 :: txt x ++ [RM2] end.
Definition lb1 (c : ap) : word :=
  match c with AK a => [Pl a] | AC _ y => LM :: txt y ++ [RM] | AL x => LM2 :: txt x ++ [RM2] end.
Definition ub (ps : list ap) : word := flat_map ub1 ps.
Definition lb (ps : list ap) : word := flat_map lb1 ps.

Definition actx (r : rule) (before after : list ap) : Prop :=
  exists c, In c (r_ctx r) /\
    ends_in (c_left c) (match r_type r with REPL_UP | REPL_LEFT => aread before | _ => awritten before end) /\
    starts_with (c_right c) (match r_type r with REPL_UP | REPL_RIGHT => aread after | _ => awritten after end).
Definition goodpos (optional : bool) (rs : list rule) (l : list ap) (c : ap) (r : list ap) : Prop :=
  match c with
  | AK _ => True
  | AC x y => exists ru, In ru rs /\ maps ru x y /\ actx ru l r
  | AL x => optional = false /\ exists ru y, In ru rs /\ maps ru x y /\ actx ru l r
  end.
Definition good (optional : bool) (rs : list rule) (ps : list ap) : Prop :=
  forall l c r, ps = l ++ c :: r -> goodpos optional rs l c r.

Lemma txt_app x y : txt (x ++ y) = txt x ++ txt y.
Proof. apply map_app. Qed.
Lemma txt_inj x y : txt x = txt y -> x = y.
Proof. revert y; induction x; intros [|b y] E; simpl in *; try discriminate; auto. inversion E; subst; f_equal; auto. Qed.
Lemma txt_plain x : plain (txt x).
Proof. intros s. unfold txt. rewrite in_map_iff. intros (a & <- & _). eauto. Qed.
Lemma plain_txt w : plain w -> exists x, w = txt x.
Proof.
  induction w as [|s w IH]; intros H.
  - exists []; auto.
  - destruct (H s) as (a & ->); [left; auto|]. destruct IH as (x & ->); [intros t Ht; apply H; right; auto|].
    exists (a :: x); auto.
Qed.
Lemma filt_txt o x : filt (brackets o) (txt x) = txt x.
Proof.
  apply filt_id. intros s Hs. destruct (txt_plain x s Hs) as (a & ->).
  destruct o; simpl; intros H; repeat (destruct H as [H|H]; [discriminate|]); auto.
Qed.
Lemma filt_lm o w : filt (brackets o) (LM :: w) = filt (brackets o) w.
Proof. destruct o; reflexivity. Qed.
Lemma filt_rm o w : filt (brackets o) (RM :: w) = filt (brackets o) w.
Proof. destruct o; reflexivity. Qed.
Lemma mark_txt x : filter not_mark (txt x) = txt x.
Proof. induction x; simpl; congruence. Qed.
Lemma aread_app p q : aread (p ++ q) = aread p ++ aread q.
Proof. apply flat_map_app. Qed.
Lemma awritten_app p q : awritten (p ++ q) = awritten p ++ awritten q.
Proof. apply flat_map_app. Qed.
Lemma ub_app p q : ub (p ++ q) = ub p ++ ub q.
Proof. apply flat_map_app. Qed.
Lemma lb_app p q : lb (p ++ q) = lb p ++ lb q.
Proof. apply flat_map_app. Qed.

Definition is_mark (mk : word) : Prop := mk = [] \/ exists i, mk = [Mk i].
Lemma marks_eq y mk y' mk' : is_mark mk -> is_mark mk' -> txt y ++ mk = txt y' ++ mk' -> y = y' /\ mk = mk'.
Proof.
  intros H H' E.
  assert (forall z i w, txt z = txt w ++ [Mk i] -> False).
  { intros z i w F. assert (Hin : In (Mk i) (txt z)) by (rewrite F; apply in_or_app; right; left; auto).
    destruct (txt_plain z _ Hin) as (a & Ha); discriminate. }
  destruct H as [->|(i & ->)], H' as [->|(i' & ->)]; rewrite ?app_nil_r in E.
  - apply txt_inj in E; auto.
  - exfalso; eauto.
  - exfalso; symmetry in E; eauto.
  - apply app_inj_tail in E. destruct E as (E & Em). apply txt_inj in E. inversion Em; auto.
Qed.

Lemma f2_length {X Y} (R : X -> Y -> Prop) l l' : Forall2 R l l' -> List.length l = List.length l'.
Proof. induction 1; simpl; congruence. Qed.
Lemma f2_flip {X Y} (R : X -> Y -> Prop) l l' : Forall2 (fun y x => R x y) l' l -> Forall2 R l l'.
Proof. induction 1; constructor; auto. Qed.
(** Decisions. *)
Lemma dec_list {A} (P : A -> Prop) l : (forall a, In a l -> P a \/ ~ P a) -> (exists a, In a l /\ P a) \/ ~ exists a, In a l /\ P a.
Proof.
  induction l as [|a l IH]; intros H.
  - right; intros (a & [] & _).
  - destruct (H a (or_introl eq_refl)) as [Ha|Ha]; [left; exists a; simpl; auto|].
    destruct IH as [(b & Hb & Pb)|N]; [intros; apply H; right; auto | left; exists b; simpl; auto | right].
    intros (b & [<-|Hb] & Pb); auto. apply N; eauto.
Qed.
Lemma dec_suffix {A} (L : list A -> Prop) W : (forall w, L w \/ ~ L w) -> (exists u v, W = u ++ v /\ L v) \/ ~ exists u v, W = u ++ v /\ L v.
Proof.
  intros D. induction W as [|a W IH].
  - destruct (D []) as [H|H]; [left; exists [], []; auto | right].
    intros (u & v & E & Hv). symmetry in E; apply app_eq_nil in E; destruct E; subst; auto.
  - destruct (D (a :: W)) as [H|H]; [left; exists [], (a :: W); auto|].
    destruct IH as [(u & v & -> & Hv)|N]; [left; exists (a :: u), v; auto | right].
    intros (u & v & E & Hv). destruct u as [|b u]; simpl in E; [subst; auto|]. inversion E; subst. apply N; eauto.
Qed.
Lemma dec_prefix {A} (L : list A -> Prop) W : (forall w, L w \/ ~ L w) -> (exists u v, W = u ++ v /\ L u) \/ ~ exists u v, W = u ++ v /\ L u.
Proof.
  intros D. revert L D. induction W as [|a W IH]; intros L D.
  - destruct (D []) as [H|H]; [left; exists [], []; auto | right].
    intros (u & v & E & Hv). symmetry in E; apply app_eq_nil in E; destruct E; subst; auto.
  - destruct (D []) as [H|H]; [left; exists [], (a :: W); auto|].
    destruct (IH (fun w => L (a :: w)) (fun w => D (a :: w))) as [(u & v & -> & Hv)|N]; [left; exists (a :: u), v; auto | right].
    intros (u & v & E & Hv). destruct u as [|b u]; simpl in E; [subst; auto|]. inversion E; subst. apply N; eauto.
Qed.
Lemma dec_and P Q : P \/ ~ P -> Q \/ ~ Q -> (P /\ Q) \/ ~ (P /\ Q).
Proof. tauto. Qed.
Lemma dec_maps r x y : usual r -> maps r x y \/ ~ maps r x y.
Proof.
  intros (Hm & _ & _). unfold maps.
  destruct (dec_list (fun ab => fst ab (txt x) /\ snd ab (txt y)) (r_map r)) as [((A & B) & Hin & H)|N].
  - intros (A & B) Hin. destruct (Hm A B Hin) as (_ & _ & DA & DB & _). apply dec_and; simpl; auto.
  - left; exists A, B; auto.
  - right. intros (A & B & Hin & H). apply N. exists (A, B); auto.
Qed.
Lemma dec_ends c u : usual_ctx c -> ends_in (c_left c) u \/ ~ ends_in (c_left c) u.
Proof. intros (_ & _ & D & _). apply dec_suffix; auto. Qed.
Lemma dec_starts c u : usual_ctx c -> starts_with (c_right c) u \/ ~ starts_with (c_right c) u.
Proof. intros (_ & _ & _ & D & _). apply dec_prefix; auto. Qed.
Lemma dec_actx r l rr : usual r -> actx r l rr \/ ~ actx r l rr.
Proof.
  intros (_ & _ & Hc). apply dec_list. intros c Hin.
  apply dec_and; [apply dec_ends | apply dec_starts]; auto.
Qed.

(** The rules with their marks. *)
Section Rules.
Variable optional : bool.
Variable ml : list (word * rule).
Variable f : word * rule -> pset * list ctxt * rtype.
Variable g : rule -> ctxt -> ctxt.
Variable known : list sym.
Hypothesis Kn : knows optional known.
Hypothesis known_pl : forall a, ~ In (Pl a) known.
Hypothesis known_bd : ~ In Bd known.
Hypothesis Hmark : forall mk r, In (mk, r) ml -> is_mark mk.
Hypothesis Husual : forall mk r, In (mk, r) ml -> usual r.
Hypothesis P1 : forall mk r q, In (mk, r) ml -> (fst (fst (f (mk, r))) q <->
  (exists x y, maps r x y /\ q = fl1 (C (pad (txt x) (txt y ++ mk)))) \/
  (optional = false /\ exists x y, maps r x y /\ q = fl1 (V (txt x)))).
Hypothesis P2 : forall mk r, In (mk, r) ml -> snd (fst (f (mk, r))) = map (g r) (r_ctx r) /\ snd (f (mk, r)) = r_type r.
Hypothesis P3 : forall mk r c, In (mk, r) ml -> In c (r_ctx r) ->
  (c_left_bd (g r c) = false -> forall w, c_left (g r c) w -> ~ In Bd w) /\
  (c_right_bd (g r c) = false -> forall w, c_right (g r c) w -> ~ In Bd w).
Hypothesis P4 : forall mk r c W, In (mk, r) ml -> In c (r_ctx r) ->
  (r_type r = REPL_UP \/ (forall mk' r', In (mk', r') ml -> mk' = []) -> filter not_mark W = W) ->
  (forall i, In (Mk i) W -> exists mk' r', In (mk', r') ml /\ mk' = [Mk i]) ->
  ((exists u v, W = u ++ v /\ c_left (g r c) v) <-> (exists u v, filter not_mark W = u ++ v /\ c_left c v)) /\
  ((exists u v, W = u ++ v /\ c_right (g r c) u) <-> (exists u v, filter not_mark W = u ++ v /\ c_right c u)).

Let ms := map f ml.
Let rs := map snd ml.

Lemma ms_shape m q : In m ms -> fst (fst m) q ->
  (exists p, q = fl1 (C p) /\ inner p) \/ (optional = false /\ exists a, q = fl1 (V a) /\ plain a).
Proof using P1 Hmark.
  unfold ms. rewrite in_map_iff. intros ((mk & r) & <- & Hin) Hq.
  apply (P1 mk r) in Hq; auto. destruct Hq as [(x & y & Hm & ->)|(O & x & y & Hm & ->)].
  - left. eexists; split; [reflexivity|]. intros e He. apply in_pad in He. destruct He as (H1 & H2). split; intros s Es.
    + apply H1 in Es. apply txt_plain in Es. auto.
    + apply H2 in Es. apply in_app_or in Es. destruct Es as [Es|Es]; [left; apply txt_plain in Es; auto|].
      right. destruct (Hmark mk r Hin) as [->|(i & ->)]; [destruct Es | destruct Es as [<-|[]]; eauto].
  - right. split; auto. eexists; split; [reflexivity|]. apply txt_plain.
Qed.

(** Pieces of pair strings and of changes. *)
Inductive rp : pc -> ap -> Prop :=
| rp_k a : rp (K (Pl a)) (AK a)
| rp_c x y mk r : In (mk, r) ml -> maps r x y -> rp (C (pad (txt x) (txt y ++ mk))) (AC x y)
| rp_v x y mk r : optional = false -> In (mk, r) ml -> maps r x y -> rp (V (txt x)) (AL x).

Lemma rp_okc k q a : (forall b, ~ In (Pl b) k) -> rp q a -> okc optional ms k q.
Proof using P1 Hmark.
  intros Hk H. destruct H as [a|x y mk r Hin Hm|x y mk r O Hin Hm]; simpl; auto.
  - assert (Hq : fst (fst (f (mk, r))) (fl1 (C (pad (txt x) (txt y ++ mk))))).
    { apply P1; auto. left; eauto. }
    assert (Hi : In (f (mk, r)) ms) by (apply in_map; auto).
    split; [|exists (f (mk, r)); split; auto].
    destruct (ms_shape _ _ Hi Hq) as [(p & E & Hp)|(_ & b & E & _)]; [|discriminate E].
    simpl in E. injection E as E. apply app_inj_tail in E. destruct E as (-> & _). auto.
  - split; auto. split; [apply txt_plain|]. exists (f (mk, r)). split; [apply in_map; auto|].
    apply P1; auto. right. split; eauto.
Qed.
Lemma okc_rp k q : okc optional ms k q -> (forall s, q = K s -> exists a, s = Pl a) -> exists a, rp q a.
Proof using P1 Hmark.
  destruct q as [s|p|b]; simpl; intros H Hs.
  - destruct (Hs s eq_refl) as (a & ->). exists (AK a). constructor.
  - destruct H as (_ & m & Hm & Hq). unfold ms in Hm. apply in_map_iff in Hm. destruct Hm as ((mk & r) & <- & Hin).
    apply (P1 mk r) in Hq; auto. destruct Hq as [(x & y & Hm & E)|(O & x & y & Hm & E)]; [|discriminate E].
    simpl in E. injection E as E. apply app_inj_tail in E. destruct E as (-> & _).
    exists (AC x y). econstructor; eauto.
  - destruct H as (O & _ & m & Hm & Hq). unfold ms in Hm. apply in_map_iff in Hm. destruct Hm as ((mk & r) & <- & Hin).
    apply (P1 mk r) in Hq; auto. destruct Hq as [(x & y & Hm & E)|(_ & x & y & Hm & E)]; [discriminate E|].
    simpl in E. injection E as E. apply app_inj_tail in E. destruct E as (E & _). apply idw_inj in E. subst b.
    exists (AL x). econstructor; eauto.
Qed.

Lemma up_fl1 q a : rp q a -> up (fl1 q) = ub1 a.
Proof.
  intros H; destruct H; simpl; auto; rewrite up_app; simpl; rewrite ?up_pad, ?up_idw; reflexivity.
Qed.
Lemma mark_filter mk : is_mark mk -> filter not_mark mk = [].
Proof. intros [->|(i & ->)]; reflexivity. Qed.
Lemma down_fl1 q a : rp q a -> filter not_mark (down (fl1 q)) = lb1 a.
Proof using Hmark.
  intros H; destruct H as [a|x y mk r Hin Hm|x y mk r O Hin Hm]; simpl; auto; rewrite down_app; simpl;
    rewrite ?down_pad, ?down_idw, !filter_app, mark_txt; simpl; auto.
  rewrite (mark_filter mk), app_nil_r; eauto.
Qed.
Lemma up_fl qs as_ : Forall2 rp qs as_ -> up (fl qs) = ub as_.
Proof. induction 1; simpl; auto. rewrite up_app, IHForall2, (up_fl1 _ _ H). reflexivity. Qed.
Lemma down_fl qs as_ : Forall2 rp qs as_ -> filter not_mark (down (fl qs)) = lb as_.
Proof using Hmark. induction 1; simpl; auto. rewrite down_app, filter_app, IHForall2, (down_fl1 _ _ H). reflexivity. Qed.
Lemma filt_ub1 a : (forall x, a = AL x -> optional = false) -> filt (brackets optional) (ub1 a) = txt (ar1 a).
Proof using.
  destruct a as [a|x y|x]; intros H; cbn [ub1 ar1].
  - apply (filt_txt optional [a]).
  - rewrite filt_lm, filt_app, filt_txt, filt_rm. apply app_nil_r.
  - change (LM2 :: txt x ++ [RM2]) with ([LM2] ++ txt x ++ [RM2]). rewrite !filt_app, filt_txt.
    rewrite (H x) by auto. simpl. rewrite app_nil_r. reflexivity.
Qed.
Lemma filt_lb1 a : (forall x, a = AL x -> optional = false) -> filt (brackets optional) (lb1 a) = txt (aw1 a).
Proof using.
  destruct a as [a|x y|x]; intros H.
  - apply (filt_ub1 (AK a)); auto.
  - apply (filt_ub1 (AC y y)); discriminate.
  - apply (filt_ub1 (AL x)); auto.
Qed.
Definition fits (as_ : list ap) : Prop := forall x, In (AL x) as_ -> optional = false.
Lemma filt_ub as_ : fits as_ -> filt (brackets optional) (ub as_) = txt (aread as_).
Proof using.
  induction as_ as [|a l IH]; intros H; simpl; auto.
  rewrite filt_app, txt_app, IH, filt_ub1; auto.
  - intros x ->. apply (H x); left; auto.
  - intros x Hx. apply (H x); right; auto.
Qed.
Lemma filt_lb as_ : fits as_ -> filt (brackets optional) (lb as_) = txt (awritten as_).
Proof using.
  induction as_ as [|a l IH]; intros H; simpl; auto.
  rewrite filt_app, txt_app, IH, filt_lb1; auto.
  - intros x ->. apply (H x); left; auto.
  - intros x Hx. apply (H x); right; auto.
Qed.
Lemma rp_fits qs as_ : Forall2 rp qs as_ -> fits as_.
Proof.
  induction 1 as [|q a qs l H _ IH]; intros x; simpl; [tauto|]. intros [->|Hx]; [|apply (IH x); auto].
  inversion H; auto.
Qed.
Lemma filter_comm {A} (p q : A -> bool) l : filter p (filter q l) = filter q (filter p l).
Proof.
  induction l as [|a l IH]; simpl; auto. destruct (q a) eqn:Eq, (p a) eqn:Ep; simpl; rewrite ?Eq, ?Ep, IH; auto.
Qed.
Lemma no_bd_up qs as_ : Forall2 rp qs as_ -> ~ In Bd (up (fl qs)).
Proof.
  intros H. rewrite (up_fl _ _ H). unfold ub. rewrite in_flat_map. intros (a & _ & Ha).
  destruct a; simpl in Ha; repeat (destruct Ha as [Ha|Ha]; [discriminate|]); auto;
  apply in_app_or in Ha; destruct Ha as [Ha|[Ha|[]]]; try discriminate; destruct (txt_plain _ _ Ha); discriminate.
Qed.
Lemma no_bd_down qs as_ : Forall2 rp qs as_ -> ~ In Bd (down (fl qs)).
Proof using Hmark.
  intros H Hin. assert (Hin' : In Bd (lb as_)).
  { rewrite <- (down_fl _ _ H). apply filter_In. auto. }
  unfold lb in Hin'. rewrite in_flat_map in Hin'. destruct Hin' as (a & _ & Ha).
  destruct a; simpl in Ha; repeat (destruct Ha as [Ha|Ha]; [discriminate|]); auto;
  apply in_app_or in Ha; destruct Ha as [Ha|[Ha|[]]]; try discriminate; destruct (txt_plain _ _ Ha); discriminate.
Qed.
Lemma no_mark_up qs as_ : Forall2 rp qs as_ -> filter not_mark (up (fl qs)) = up (fl qs).
Proof.
  intros H. rewrite (up_fl _ _ H). clear H. induction as_ as [|a l IH]; simpl; auto.
  rewrite filter_app, IH. f_equal. destruct a; simpl; auto; rewrite filter_app, mark_txt; reflexivity.
Qed.
Lemma no_mark_down qs as_ : (forall mk' r', In (mk', r') ml -> mk' = []) -> Forall2 rp qs as_ ->
  filter not_mark (down (fl qs)) = down (fl qs).
Proof.
  intros Hm H. induction H as [|q a qs l H _ IH]; simpl; auto.
  rewrite down_app, filter_app, IH. f_equal.
  destruct H as [a|x y mk r Hin Hp|x y mk r O Hin Hp]; simpl; auto; rewrite down_app, filter_app; simpl;
    rewrite ?down_pad, ?down_idw; [rewrite (Hm _ _ Hin), app_nil_r|]; rewrite mark_txt; reflexivity.
Qed.

Lemma marks_in_ub i as_ : ~ In (Mk i) (ub as_).
Proof.
  unfold ub. rewrite in_flat_map. intros (a & _ & Ha).
  destruct a; simpl in Ha; repeat (destruct Ha as [Ha|Ha]; [discriminate|]); auto;
  apply in_app_or in Ha; destruct Ha as [Ha|[Ha|[]]]; try discriminate; destruct (txt_plain _ _ Ha); discriminate.
Qed.
Lemma marks_in_down i qs as_ : Forall2 rp qs as_ -> In (Mk i) (down (fl qs)) -> exists mk' r', In (mk', r') ml /\ mk' = [Mk i].
Proof using Hmark.
  induction 1 as [|q a qs l H _ IH]; simpl; [tauto|]. rewrite down_app. intros Hin. apply in_app_or in Hin.
  destruct Hin as [Hin|Hin]; auto. clear IH.
  destruct H as [a|x y mk r Hml Hp|x y mk r O Hml Hp]; simpl in Hin.
  - destruct Hin as [E|[]]; discriminate.
  - destruct Hin as [E|Hin]; [discriminate|]. rewrite down_app, down_pad in Hin. apply in_app_or in Hin.
    destruct Hin as [Hin|[E|[]]]; [|discriminate]. apply in_app_or in Hin. destruct Hin as [Hin|Hin].
    + destruct (txt_plain _ _ Hin); discriminate.
    + exists mk, r. split; auto. destruct (Hmark _ _ Hml) as [->|(j & ->)]; [destruct Hin|].
      destruct Hin as [->|[]]. reflexivity.
  - destruct Hin as [E|Hin]; [discriminate|]. rewrite down_app, down_idw in Hin. apply in_app_or in Hin.
    destruct Hin as [Hin|[E|[]]]; [|discriminate]. destruct (txt_plain _ _ Hin); discriminate.
Qed.
Lemma marks_left ty i qs as_ : Forall2 rp qs as_ -> In (Mk i) (filt (brackets optional) (left_side ty (fl qs))) ->
  exists mk' r', In (mk', r') ml /\ mk' = [Mk i].
Proof using Hmark.
  intros H Hin. unfold filt in Hin. apply filter_In in Hin. destruct Hin as (Hin & _).
  destruct ty; simpl in Hin; try (rewrite (up_fl _ _ H) in Hin; destruct (marks_in_ub _ _ Hin)); eapply marks_in_down; eauto.
Qed.
Lemma marks_right ty i qs as_ : Forall2 rp qs as_ -> In (Mk i) (filt (brackets optional) (right_side ty (fl qs))) ->
  exists mk' r', In (mk', r') ml /\ mk' = [Mk i].
Proof using Hmark.
  intros H Hin. unfold filt in Hin. apply filter_In in Hin. destruct Hin as (Hin & _).
  destruct ty; simpl in Hin; try (rewrite (up_fl _ _ H) in Hin; destruct (marks_in_ub _ _ Hin)); eapply marks_in_down; eauto.
Qed.

(** The context of a place. *)
Let ie := identity_expanded (Tm :: known) ms.
Lemma ie_rp qs as_ : Forall2 rp qs as_ -> Forall (okc optional ms (Tm :: known)) qs.
Proof using P1 Hmark known_pl.
  induction 1; constructor; auto. eapply rp_okc; eauto. intros b [E|E]; [discriminate|]. eapply known_pl; eauto.
Qed.
Lemma k_bd : okc optional ms (Tm :: known) (K Bd).
Proof using known_bd. simpl. intros [E|E]; [discriminate | auto]. Qed.
Lemma left_actx mk r c qs as_ : In (mk, r) ml -> In c (r_ctx r) -> Forall2 rp qs as_ ->
  (left_context optional (r_type r) ie (g r c) (fl (K Bd :: qs)) <->
   ends_in (c_left c) (match r_type r with REPL_UP | REPL_LEFT => aread as_ | _ => awritten as_ end)).
Proof using P1 P3 P4 Hmark known_pl known_bd.
  intros Hin Hc H. change (fl (K Bd :: qs)) with (e2 Bd :: fl qs).
  rewrite (left_iff optional).
  2:{ apply (P3 mk r c); auto. }
  2:{ apply (ie_iff optional ms ms_shape). exists (K Bd :: qs); split; auto. constructor; [apply k_bd|]. eapply ie_rp; eauto. }
  2:{ apply (ie_iff optional ms ms_shape). exists qs; split; auto. eapply ie_rp; eauto. }
  2:{ eapply no_bd_up; eauto. }
  2:{ eapply no_bd_down; eauto. }
  assert (Eup : filter not_mark (filt (brackets optional) (up (fl qs))) = txt (aread as_)).
  { unfold filt. rewrite filter_comm, (no_mark_up _ _ H), (up_fl _ _ H). apply filt_ub. eapply rp_fits; eauto. }
  assert (Edn : filter not_mark (filt (brackets optional) (down (fl qs))) = txt (awritten as_)).
  { unfold filt. rewrite filter_comm, (down_fl _ _ H). apply filt_lb. eapply rp_fits; eauto. }
  destruct (P4 mk r c (Bd :: filt (brackets optional) (left_side (r_type r) (fl qs))) Hin Hc) as (Pl & _).
  { intros Hor. simpl. f_equal. unfold filt. rewrite filter_comm. f_equal.
    destruct Hor as [->|Hall]; simpl; [eapply no_mark_up; eauto|].
    destruct (r_type r); simpl; eauto using no_mark_up, no_mark_down. }
  { intros i [E|Hi]; [discriminate|]. eapply marks_left; eauto. }
  rewrite Pl. simpl. unfold ends_in. destruct (r_type r); simpl; rewrite ?Eup, ?Edn; reflexivity.
Qed.
Lemma right_actx mk r c qs as_ : In (mk, r) ml -> In c (r_ctx r) -> Forall2 rp qs as_ ->
  (right_context optional (r_type r) ie (g r c) (fl (qs ++ [K Bd])) <->
   starts_with (c_right c) (match r_type r with REPL_UP | REPL_RIGHT => aread as_ | _ => awritten as_ end)).
Proof using P1 P3 P4 Hmark known_pl known_bd.
  intros Hin Hc H. rewrite fl_app. change (fl [K Bd]) with [e2 Bd].
  rewrite (right_iff optional).
  2:{ apply (P3 mk r c); auto. }
  2:{ apply (ie_iff optional ms ms_shape). exists (qs ++ [K Bd]); split; [|rewrite fl_app; reflexivity].
      apply Forall_app; split; [eapply ie_rp; eauto|]. constructor; [apply k_bd | constructor]. }
  2:{ apply (ie_iff optional ms ms_shape). exists qs; split; auto. eapply ie_rp; eauto. }
  2:{ eapply no_bd_up; eauto. }
  2:{ eapply no_bd_down; eauto. }
  assert (Eup : filter not_mark (filt (brackets optional) (up (fl qs))) = txt (aread as_)).
  { unfold filt. rewrite filter_comm, (no_mark_up _ _ H), (up_fl _ _ H). apply filt_ub. eapply rp_fits; eauto. }
  assert (Edn : filter not_mark (filt (brackets optional) (down (fl qs))) = txt (awritten as_)).
  { unfold filt. rewrite filter_comm, (down_fl _ _ H). apply filt_lb. eapply rp_fits; eauto. }
  destruct (P4 mk r c (filt (brackets optional) (right_side (r_type r) (fl qs)) ++ [Bd]) Hin Hc) as (_ & Pr).
  { intros Hor. rewrite filter_app. simpl. f_equal. unfold filt. rewrite filter_comm. f_equal.
    destruct Hor as [->|Hall]; simpl; [eapply no_mark_up; eauto|].
    destruct (r_type r); simpl; eauto using no_mark_up, no_mark_down. }
  { intros i Hi. apply in_app_or in Hi. destruct Hi as [Hi|[E|[]]]; [|discriminate]. eapply marks_right; eauto. }
  rewrite Pr. rewrite filter_app. simpl. unfold starts_with. destruct (r_type r); simpl; rewrite ?Eup, ?Edn; reflexivity.
Qed.

(** A licensed piece. *)
Definition from (mk : word) (r : rule) (q : pc) (a : ap) : Prop :=
  match a with
  | AK _ => False
  | AC x y => q = C (pad (txt x) (txt y ++ mk)) /\ maps r x y
  | AL x => q = V (txt x) /\ optional = false /\ exists y, maps r x y
  end.
Lemma lic_iff l la q a r lr : Forall2 rp l la -> rp q a -> is_k q = false -> Forall2 rp r lr ->
  (lic optional ms ie (K Bd :: l) q (r ++ [K Bd]) <->
   exists mk ru, In (mk, ru) ml /\ from mk ru q a /\ actx ru la lr).
Proof using P1 P2 P3 P4 Hmark known_pl known_bd.
  intros Hl Hq Hk Hr. unfold lic. split.
  - intros (m & Hm & Hqm & x & Hx & Hlx & Hrx). unfold ms in Hm. apply in_map_iff in Hm.
    destruct Hm as ((mk & ru) & <- & Hin). destruct (P2 mk ru Hin) as (E1 & E2). rewrite E1 in Hx. rewrite E2 in Hlx, Hrx.
    apply in_map_iff in Hx. destruct Hx as (c & <- & Hc).
    apply (left_actx mk ru c l la) in Hlx; auto. apply (right_actx mk ru c r lr) in Hrx; auto.
    exists mk, ru. split; auto. split; [|exists c; auto].
    apply (P1 mk ru) in Hqm; auto. destruct Hq as [b|x y mk' r' Hin' Hm'|x y mk' r' O Hin' Hm']; [discriminate| |].
    + destruct Hqm as [(x' & y' & Hm & E)|(O & x' & y' & Hm & E)]; [|discriminate E].
      simpl in E. injection E as E. apply app_inj_tail in E. destruct E as (E & _).
      assert (Ex : txt x = txt x') by (rewrite <- (up_pad (txt x) (txt y ++ mk')), E, up_pad; auto).
      assert (Ey : txt y ++ mk' = txt y' ++ mk) by (rewrite <- (down_pad (txt x) (txt y ++ mk')), E, down_pad; auto).
      apply txt_inj in Ex. apply marks_eq in Ey; eauto. destruct Ey as (-> & ->). subst x'. simpl; auto.
    + destruct Hqm as [(x' & y' & Hm & E)|(_ & x' & y' & Hm & E)]; [discriminate E|].
      simpl in E. injection E as E. apply app_inj_tail in E. destruct E as (E & _).
      apply idw_inj, txt_inj in E. subst x'. simpl; eauto.
  - intros (mk & ru & Hin & Hfr & c & Hc & Hel & Hsr). exists (f (mk, ru)). split; [apply in_map; auto|].
    destruct (P2 mk ru Hin) as (E1 & E2). rewrite E1, E2. split.
    + apply P1; auto. destruct a as [b|x y|x]; simpl in Hfr; [tauto| |].
      * destruct Hfr as (-> & Hm). left; eauto.
      * destruct Hfr as (-> & O & y & Hm). right; split; eauto.
    + exists (g ru c). split; [apply in_map; auto|].
      split; [apply (left_actx mk ru c l la) | apply (right_actx mk ru c r lr)]; auto.
Qed.
Lemma dec_lic l la q a r lr : Forall2 rp l la -> rp q a -> is_k q = false -> Forall2 rp r lr ->
  lic optional ms ie (K Bd :: l) q (r ++ [K Bd]) \/ ~ lic optional ms ie (K Bd :: l) q (r ++ [K Bd]).
Proof using P1 P2 P3 P4 Hmark known_pl known_bd Husual.
  intros Hl Hq Hk Hr. rewrite (lic_iff l la q a r lr); auto.
  destruct (dec_list (fun mr => from (fst mr) (snd mr) q a /\ actx (snd mr) la lr) ml) as [((mk & ru) & Hin & H)|N].
  - intros (mk & ru) Hin. simpl. apply dec_and; [|apply dec_actx; eauto].
    destruct a as [b|x y|x]; simpl; auto.
    + apply dec_and; [|apply dec_maps; eauto].
      inversion Hq; subst. destruct (list_eq_dec sym_eq_dec mk mk0) as [->|N]; [left; auto | right].
      intros E. injection E as E. apply N. assert (Ey : txt y ++ mk0 = txt y ++ mk) by (rewrite <- (down_pad (txt x) (txt y ++ mk0)), E, down_pad; auto).
      apply app_inv_head in Ey. auto.
    + inversion Hq; subst. destruct (Husual _ _ Hin) as (Hm & _).
      destruct (dec_list (fun ab => fst ab (txt x)) (r_map ru)) as [((A & B) & Hab & Ha)|N].
      * intros (A & B) Hab. simpl. destruct (Hm A B Hab) as (_ & _ & D & _). auto.
      * left. split; auto. split; auto. destruct (Hm A B Hab) as (_ & HB & _ & _ & y' & Hy).
        destruct (HB _ Hy) as (yt & ->). exists yt, A, B; auto.
      * right. intros (_ & _ & y' & A & B & Hab & Ha & _). apply N. exists (A, B); auto.
  - left. exists mk, ru. simpl in H. tauto.
  - right. intros (mk & ru & Hin & H). apply N. exists (mk, ru); auto.
Qed.

(** Splitting what is matched piece by piece. *)
Lemma f2_app_l {X Y} (R : X -> Y -> Prop) a b l : Forall2 R (a ++ b) l -> exists la lb, l = la ++ lb /\ Forall2 R a la /\ Forall2 R b lb.
Proof. intros H. apply Forall2_app_inv_l in H. destruct H as (la & lb & H1 & H2 & ->). eauto. Qed.
Lemma choose {X Y} (R : list X -> X -> list X -> Y -> Prop) (as_ : list X) :
  (forall l c r, as_ = l ++ c :: r -> exists q, R l c r q) ->
  exists qs, List.length qs = List.length as_ /\
    forall l c r l' q r', as_ = l ++ c :: r -> qs = l' ++ q :: r' -> List.length l = List.length l' -> R l c r q.
Proof.
  revert R; induction as_ as [|a as_ IH]; intros R H.
  - exists []. split; auto. intros l c r l' q r' E. destruct l; discriminate.
  - destruct (H [] a as_ eq_refl) as (q0 & H0).
    destruct (IH (fun l c r q => R (a :: l) c r q)) as (qs & Hlen & Hqs).
    { intros l c r ->. apply (H (a :: l)). reflexivity. }
    exists (q0 :: qs). split; [simpl; auto|]. intros l c r l' q r' E E' Hl.
    destruct l as [|b l], l' as [|q' l']; simpl in *; try discriminate.
    + inversion E; inversion E'; subst; auto.
    + inversion E; inversion E'; subst. apply (Hqs l c r l' q r'); auto.
Qed.
Lemma f2_choose {X Y} (R : X -> Y -> Prop) as_ qs : List.length qs = List.length as_ ->
  (forall l c r l' q r', as_ = l ++ c :: r -> qs = l' ++ q :: r' -> List.length l = List.length l' -> R c q) -> Forall2 R as_ qs.
Proof.
  revert qs; induction as_ as [|a as_ IH]; intros [|q qs] Hlen H; simpl in *; try discriminate; constructor.
  - apply (H [] a as_ [] q qs); auto.
  - apply IH; auto. intros l c r l' q' r' -> -> Hl. apply (H (a :: l) c r (q :: l') q' r'); simpl; auto.
Qed.

Definition base1 (q : pc) : word := match q with K s => [s] | C p => up p | V a => a end.
Lemma base_fl k ps : In LM k -> In RM k -> (optional = false -> In LM2 k /\ In RM2 k) ->
  Forall (okc optional ms k) ps -> filt (brackets optional) (up (fl ps)) = flat_map base1 ps.
Proof.
  intros KL KR KB. induction 1 as [|q ps Hq _ IH]; auto.
  change (fl (q :: ps)) with (fl1 q ++ fl ps). rewrite up_app, filt_app, IH. simpl. f_equal.
  assert (Hpl : forall w, plain w -> filt (brackets optional) w = w).
  { intros w Hw. destruct (plain_txt w Hw) as (x & ->). apply filt_txt. }
  destruct q as [s|p|b]; cbn [okc fl1 base1] in Hq |- *.
  - change (up [e2 s]) with [s]. apply filt_id. intros t [<-|[]] Hs. apply Hq. unfold brackets in Hs.
    destruct optional; simpl in Hs; repeat (destruct Hs as [<-|Hs]; [tauto|]); tauto.
  - change (e2 LM :: p ++ [e2 RM]) with ([e2 LM] ++ p ++ [e2 RM]). rewrite !up_app. change (filt (brackets optional) (LM :: up p ++ [RM]) = up p). rewrite filt_lm, filt_app, filt_rm.
    rewrite app_nil_r.
    { apply Hpl. destruct Hq as (Hi & _). intros s Hs. unfold up in Hs. apply in_flat_map in Hs.
      destruct Hs as (e & He & Hs). destruct (Hi e He) as (H1 & _). apply H1. destruct (fst e) as [t|]; simpl in Hs; [|tauto].
      destruct Hs as [->|[]]; auto. }
  - destruct Hq as (O & Hb & _). change (e2 LM2 :: idw b ++ [e2 RM2]) with ([e2 LM2] ++ idw b ++ [e2 RM2]). rewrite !up_app, up_idw. change (filt (brackets optional) ([LM2] ++ b ++ [RM2]) = b).
    rewrite !filt_app, (Hpl b Hb). rewrite O. simpl. rewrite app_nil_r. reflexivity.
Qed.
Lemma wrapped k ps x X0 : Forall (okc optional ms k) ps -> up (fl ps) = Bd :: X0 ++ [Bd] ->
  flat_map base1 ps = Bd :: txt x ++ [Bd] ->
  exists qs, ps = K Bd :: qs ++ [K Bd] /\ Forall (okc optional ms k) qs /\ forall s, In (K s) qs -> exists a, s = Pl a.
Proof using.
  intros H EX E. destruct ps as [|q ps]; [discriminate|]. inversion H as [|? ? Hq Hps]; subst.
  assert (q = K Bd) as ->.
  { destruct q as [s|p|b]; simpl in EX; try discriminate. injection EX as -> _. auto. }
  simpl in E, EX. injection E as E. injection EX as EX.
  destruct ps as [|q ps0] using rev_ind; [exfalso; apply (app_cons_not_nil (txt x) [] Bd); auto|]. clear IHps0.
  apply Forall_app in Hps. destruct Hps as (Hqs & Hq'). inversion Hq' as [|? ? Hlast _]; subst.
  rewrite fl_app, up_app in EX. simpl in EX. rewrite app_nil_r in EX.
  assert (q = K Bd) as ->.
  { destruct q as [s|p|b]; cbn [fl1] in EX.
    - simpl in EX. apply app_inj_tail in EX. destruct EX as (_ & ->). auto.
    - change (e2 LM :: p ++ [e2 RM]) with ((e2 LM :: p) ++ [e2 RM]) in EX. rewrite up_app, app_assoc in EX.
      simpl (up [e2 RM]) in EX. apply app_inj_tail in EX. destruct EX; discriminate.
    - change (e2 LM2 :: idw b ++ [e2 RM2]) with ((e2 LM2 :: idw b) ++ [e2 RM2]) in EX. rewrite up_app, app_assoc in EX.
      simpl (up [e2 RM2]) in EX. apply app_inj_tail in EX. destruct EX; discriminate. }
  rewrite flat_map_app in E. simpl in E. apply app_inj_tail in E. destruct E as (E & _).
  exists ps0. split; auto. split; auto. intros s Hin. apply (txt_plain x). rewrite <- E. apply in_flat_map.
  exists (K s); split; auto. left; auto.
Qed.
Lemma to_rp k qs : Forall (okc optional ms k) qs -> (forall s, In (K s) qs -> exists a, s = Pl a) -> exists as_, Forall2 rp qs as_.
Proof using P1 Hmark.
  induction 1 as [|q qs Hq _ IH]; intros Hs.
  - exists []; constructor.
  - destruct IH as (l & Hl); [intros s Hin; apply Hs; right; auto|].
    destruct (okc_rp k q Hq) as (a & Ha); [intros s ->; apply Hs; left; auto|]. exists (a :: l); constructor; auto.
Qed.

(** The bracketed replacement of a text between boundaries. *)
Lemma cond_good qs as_ : Forall2 rp qs as_ ->
  (conditional optional known ms (fl (K Bd :: qs ++ [K Bd])) <->
   forall l c r la a lr, qs = l ++ c :: r -> as_ = la ++ a :: lr -> List.length l = List.length la -> is_k c = false ->
     exists mk ru, In (mk, ru) ml /\ from mk ru c a /\ actx ru la lr).
Proof using P1 P2 P3 P4 Hmark Husual known_pl known_bd Kn.
  intros H.
  assert (Hok : Forall (okc optional ms (Tm :: known)) (K Bd :: qs ++ [K Bd])).
  { constructor; [apply k_bd|]. apply Forall_app; split; [eapply ie_rp; eauto|]. constructor; [apply k_bd|constructor]. }
  assert (Hsplit : forall l c r, K Bd :: qs ++ [K Bd] = l ++ c :: r -> is_k c = false ->
    exists l0 r0 la a lr, l = K Bd :: l0 /\ r = r0 ++ [K Bd] /\ qs = l0 ++ c :: r0 /\ as_ = la ++ a :: lr /\
      Forall2 rp l0 la /\ rp c a /\ Forall2 rp r0 lr).
  { intros l c r E Hk. destruct l as [|k l]; simpl in E; [injection E as E1 E2; subst c; discriminate|]. injection E as <- E.
    destruct r as [|k r _] using rev_ind.
    { apply app_inj_tail in E. destruct E as (_ & E). subst c. discriminate. }
    rewrite app_comm_cons, app_assoc in E. apply app_inj_tail in E. destruct E as (E & <-).
    rewrite E in H. apply f2_app_l in H. destruct H as (la & lr & -> & H1 & H2).
    inversion H2 as [|? a ? lr0 H3 H4]; subst. exists l, r, la, a, lr0. repeat (split; auto). }
  rewrite (cond_iff optional ms ms_shape known (K Bd :: qs ++ [K Bd])).
  - split.
    + intros Hc l c r la a lr E Ea Hlen Hk. subst qs as_.
      apply f2_app_l in H. destruct H as (la' & lr' & Ea & H1 & H2).
      inversion H2 as [|? a' ? lr0 H3 H4]; subst.
      assert (Hl : List.length la = List.length la') by (rewrite <- Hlen; eapply f2_length; eauto).
      assert (la = la' /\ a = a' /\ lr = lr0) as (-> & -> & ->).
      { revert Hl Ea. clear. revert la'. induction la as [|x la IH]; intros [|x' la'] Hl Ea; simpl in *; try discriminate.
        - inversion Ea; auto.
        - inversion Ea; subst. destruct (IH la') as (-> & -> & ->); auto. }
      apply (lic_iff l la' c a' r lr0); auto. apply Hc; auto. simpl. rewrite <- app_assoc. reflexivity.
    + intros Hg l c r E Hk. destruct (Hsplit l c r E Hk) as (l0 & r0 & la & a & lr & -> & -> & E1 & E2 & H1 & H2 & H3).
      apply (lic_iff l0 la c a r0 lr); auto. apply (Hg l0 c r0 la a lr); auto. eapply f2_length; eauto.
  - exact Kn.
  - eapply forall_weaken; [|exact Hok]. intros s Hs; right; auto.
  - intros Hin. change (fl (K Bd :: qs ++ [K Bd])) with (e2 Bd :: fl (qs ++ [K Bd])) in Hin.
    rewrite fl_app in Hin. simpl in Hin. destruct Hin as [E|Hin]; [discriminate|]. rewrite up_app in Hin.
    apply in_app_or in Hin. destruct Hin as [Hin|[E|[]]]; [|discriminate].
    rewrite (up_fl _ _ H) in Hin. unfold ub in Hin. apply in_flat_map in Hin. destruct Hin as (b & _ & Hb).
    destruct b; simpl in Hb; repeat (destruct Hb as [Hb|Hb]; [discriminate|]); auto;
    apply in_app_or in Hb; destruct Hb as [Hb|[Hb|[]]]; try discriminate; destruct (txt_plain _ _ Hb); discriminate.
  - intros l c r E Hk. destruct (Hsplit l c r E Hk) as (l0 & r0 & la & a & lr & -> & -> & E1 & E2 & H1 & H2 & H3).
    apply (dec_lic l0 la c a r0 lr); auto.
Qed.

Lemma same_split {X} (l l' : list X) c c' r r' : l ++ c :: r = l' ++ c' :: r' -> List.length l = List.length l' -> l = l' /\ c = c' /\ r = r'.
Proof.
  revert l'. induction l as [|x l IH]; intros [|x' l'] E Hl; simpl in *; try discriminate.
  - inversion E; auto.
  - inversion E; subst. destruct (IH l') as (-> & -> & ->); auto.
Qed.

Theorem cond_wrapped x X X0 Y : X = Bd :: X0 ++ [Bd] -> filt (brackets optional) X = Bd :: txt x ++ [Bd] ->
  ((exists p, X = up p /\ Y = filter not_mark (down p) /\ conditional optional known ms p) <->
   exists as_, good optional rs as_ /\ X = Bd :: ub as_ ++ [Bd] /\ Y = Bd :: lb as_ ++ [Bd]).
Proof using P1 P2 P3 P4 Hmark Husual known_pl known_bd Kn.
  intros EB EX. destruct Kn as (KL & KR & KB). split.
  - intros (p & -> & -> & Hc). assert (Hie : identity_expanded known ms p) by apply Hc.
    apply (ie_iff optional ms ms_shape) in Hie. destruct Hie as (ps & Hps & ->).
    rewrite (base_fl known ps KL KR KB Hps) in EX. destruct (wrapped known ps x X0 Hps EB EX) as (qs & -> & Hqs & Hs).
    destruct (to_rp known qs Hqs Hs) as (as_ & H). exists as_.
    split; [|split].
    + intros la a lr Ea. rewrite (cond_good qs as_ H) in Hc.
      pose proof H as H'. rewrite Ea in H'. apply Forall2_app_inv_r in H'. destruct H' as (l & r & H1 & H2 & ->).
      inversion H2 as [|c ? r0 ? H3 H4]; subst.
      destruct (is_k c) eqn:Ek.
      * inversion H3; subst; simpl in *; try discriminate; auto.
      * destruct (Hc l c r0 la a lr eq_refl eq_refl) as (mk & ru & Hin & Hf & Hx); auto.
        { eapply f2_length; eauto. }
        assert (Hr : In ru rs) by (apply in_map_iff; exists (mk, ru); auto).
        destruct a as [b|x0 y0|x0]; simpl in Hf |- *; [tauto| |].
        -- exists ru; tauto.
        -- destruct Hf as (_ & O & y0 & Hm). split; auto. exists ru, y0; auto.
    + change (fl (K Bd :: qs ++ [K Bd])) with (e2 Bd :: fl (qs ++ [K Bd])). rewrite fl_app. simpl.
      rewrite up_app, (up_fl _ _ H). reflexivity.
    + change (fl (K Bd :: qs ++ [K Bd])) with (e2 Bd :: fl (qs ++ [K Bd])). rewrite fl_app. simpl.
      rewrite down_app, filter_app, (down_fl _ _ H). reflexivity.
  - intros (as_ & Hg & -> & ->).
    destruct (choose (fun l c r q => rp q c /\ (is_k q = false -> exists mk ru, In (mk, ru) ml /\ from mk ru q c /\ actx ru l r)) as_)
      as (qs & Hlen & Hqs).
    { intros l c r E. specialize (Hg l c r E). destruct c as [b|x0 y0|x0]; simpl in Hg.
      - exists (K (Pl b)). split; [constructor | discriminate].
      - destruct Hg as (ru & Hr & Hm & Hx). unfold rs in Hr. apply in_map_iff in Hr. destruct Hr as ((mk & ru') & E' & Hin).
        simpl in E'; subst ru'. exists (C (pad (txt x0) (txt y0 ++ mk))). split; [econstructor; eauto|].
        intros _. exists mk, ru. split; auto. split; auto. simpl; auto.
      - destruct Hg as (O & ru & y0 & Hr & Hm & Hx). unfold rs in Hr. apply in_map_iff in Hr. destruct Hr as ((mk & ru') & E' & Hin).
        simpl in E'; subst ru'. exists (V (txt x0)). split; [econstructor; eauto|].
        intros _. exists mk, ru. split; auto. split; auto. simpl; eauto. }
    assert (H : Forall2 rp qs as_).
    { apply f2_flip. apply f2_choose; auto. intros l c r l' q r' E E' Hl. apply (Hqs l c r l' q r' E E' Hl). }
    exists (fl (K Bd :: qs ++ [K Bd])). split; [|split].
    + change (fl (K Bd :: qs ++ [K Bd])) with (e2 Bd :: fl (qs ++ [K Bd])). rewrite fl_app. simpl.
      rewrite up_app, (up_fl _ _ H). reflexivity.
    + change (fl (K Bd :: qs ++ [K Bd])) with (e2 Bd :: fl (qs ++ [K Bd])). rewrite fl_app. simpl.
      rewrite down_app, filter_app, (down_fl _ _ H). reflexivity.
    + apply (cond_good qs as_ H). intros l c r la a lr E Ea Hl Hk.
      apply (Hqs la a lr l c r); auto.
Qed.
(** Without contexts. *)
Theorem plain_wrapped x X X0 Y : X = Bd :: X0 ++ [Bd] -> filt (brackets optional) X = Bd :: txt x ++ [Bd] ->
  (forall mk r l rr, In (mk, r) ml -> actx r l rr) ->
  ((exists p, X = up p /\ Y = filter not_mark (down p) /\ identity_expanded known ms p) <->
   exists as_, good optional rs as_ /\ X = Bd :: ub as_ ++ [Bd] /\ Y = Bd :: lb as_ ++ [Bd]).
Proof using P1 P2 P3 P4 Hmark Husual known_pl known_bd Kn.
  intros EB EX Hall. rewrite <- (cond_wrapped x X X0 Y EB EX).
  split; intros (p & Ex & Ey & H); exists p; split; auto; split; auto.
  - pose proof H as H'. apply (ie_iff optional ms ms_shape) in H'. destruct H' as (ps & Hps & ->). rewrite Ex in EB, EX.
    destruct Kn as (KL & KR & KB).
    rewrite (base_fl known ps KL KR KB Hps) in EX. destruct (wrapped known ps x X0 Hps EB EX) as (qs & -> & Hqs & Hs).
    destruct (to_rp known qs Hqs Hs) as (as_ & Hr). apply (cond_good qs as_ Hr).
    intros l c r la a lr -> -> Hlen Hk. apply Forall2_app_inv_l in Hr. destruct Hr as (la' & lr' & H1 & H2 & E).
    inversion H2 as [|? a' ? lr0 H3 H4]; subst.
    assert (la = la' /\ a = a' /\ lr = lr0) as (-> & -> & ->).
    { apply same_split; auto. rewrite <- Hlen. eapply f2_length; eauto. }
    inversion H3 as [|x0 y0 mk r0 Hin Hm|x0 y0 mk r0 O Hin Hm]; subst; [discriminate| |].
    + exists mk, r0. split; auto. split; simpl; eauto.
    + exists mk, r0. split; auto. split; simpl; eauto.
  - apply H.
Qed.
(** What there is to know about other texts. *)
Lemma any_text p : identity_expanded known ms p -> (forall s, In s (filt (brackets optional) (up p)) -> s = Bd \/ exists a, s = Pl a) ->
  exists qs, p = fl qs /\ forall q, In q qs -> q = K Bd \/ exists a, rp q a.
Proof using P1 Hmark Kn.
  intros H Hs. apply (ie_iff optional ms ms_shape) in H. destruct H as (ps & Hps & ->).
  destruct Kn as (KL & KR & KB). rewrite (base_fl known ps KL KR KB Hps) in Hs.
  exists ps. split; auto. intros q Hq.
  rewrite Forall_forall in Hps. destruct q as [s|p|b].
  - destruct (Hs s) as [->|(a & ->)]; [apply in_flat_map; exists (K s); split; simpl; auto | auto | right; exists (AK a); constructor].
  - right. apply (okc_rp known (C p)); auto. discriminate.
  - right. apply (okc_rp known (V b)); auto. discriminate.
Qed.
End Rules.
