(** Proofs about the replace rules: pair strings as sequences of kept symbols and brackets. *)
From Verif Require Import Base Xr_Model Xr_Spec.

Definition nin (bs : list sym) (s : sym) : bool := if in_dec sym_eq_dec s bs then false else true.
Definition filt (bs : list sym) (w : word) : word := filter (nin bs) w.

Lemma nin_true bs s : nin bs s = true <-> ~ In s bs.
Proof. unfold nin; destruct (in_dec sym_eq_dec s bs); split; intros; try congruence; tauto. Qed.
Lemma nin_false bs s : nin bs s = false <-> In s bs.
Proof. unfold nin; destruct (in_dec sym_eq_dec s bs); split; intros; try congruence; tauto. Qed.
Lemma filt_app bs u v : filt bs (u ++ v) = filt bs u ++ filt bs v.
Proof. apply filter_app. Qed.
Lemma filt_id bs u : (forall s, In s u -> ~ In s bs) -> filt bs u = u.
Proof.
  induction u as [|s u IH]; simpl; intros H; auto.
  rewrite (proj2 (nin_true bs s)) by auto. f_equal; apply IH; auto.
Qed.
Lemma filt_none bs u : (forall s, In s u -> In s bs) -> filt bs u = [].
Proof.
  induction u as [|s u IH]; simpl; intros H; auto.
  rewrite (proj2 (nin_false bs s)) by auto. apply IH; auto.
Qed.
Lemma filt_bd o : filt (brackets o) [Bd] = [Bd].
Proof. destruct o; reflexivity. Qed.
Lemma freely_filt bs L w : freely bs L w <-> L (filt bs w).
Proof. reflexivity. Qed.

Lemma up_app p q : up (p ++ q) = up p ++ up q.
Proof. apply flat_map_app. Qed.
Lemma down_app p q : down (p ++ q) = down p ++ down q.
Proof. apply flat_map_app. Qed.
Lemma up_idw w : up (idw w) = w.
Proof. induction w; simpl; congruence. Qed.
Lemma down_idw w : down (idw w) = w.
Proof. induction w; simpl; congruence. Qed.
Lemma idw_app u v : idw (u ++ v) = idw u ++ idw v.
Proof. apply map_app. Qed.
Lemma idw_inj u v : idw u = idw v -> u = v.
Proof. intros H; rewrite <- (up_idw u), H, up_idw; reflexivity. Qed.

Lemma up_pad x y : up (pad x y) = x.
Proof.
  revert y; induction x as [|a x IH]; intros y.
  - simpl. induction y; simpl; auto.
  - destruct y; simpl; rewrite ?IH; reflexivity.
Qed.
Lemma down_pad x y : down (pad x y) = y.
Proof.
  revert y; induction x as [|a x IH]; intros y.
  - simpl. induction y; simpl; congruence.
  - destruct y; simpl; rewrite IH; reflexivity.
Qed.
Lemma in_pad x y e : In e (pad x y) -> (forall s, fst e = Some s -> In s x) /\ (forall s, snd e = Some s -> In s y).
Proof.
  revert y; induction x as [|a x IH]; intros y; simpl.
  - rewrite in_map_iff. intros (b & <- & Hb). split; simpl; intros s E; congruence.
  - destruct y as [|b y]; simpl; intros [<-|H]; simpl.
    + split; intros s E; inversion E; subst; auto.
    + destruct (IH _ H) as (A1 & A2). split; auto.
    + split; intros s E; inversion E; subst; auto.
    + destruct (IH _ H) as (A1 & A2). split; auto.
Qed.

(** Pieces of a pair string. *)
Inductive pc := K (s : sym) | C (p : pairs) | V (a : word).
Definition e2 (s : sym) : option sym * option sym := (Some s, Some s).
Definition fl1 (c : pc) : pairs :=
  match c with
  | K s => [e2 s]
  | C p => e2 LM :: p ++ [e2 RM]
  | V a => e2 LM2 :: idw a ++ [e2 RM2]
  end.
Definition fl (ps : list pc) : pairs := flat_map fl1 ps.
Lemma fl_app p q : fl (p ++ q) = fl p ++ fl q.
Proof. apply flat_map_app. Qed.

(** Inside brackets: user symbols on the upper side, user symbols or marks on the lower. *)
Definition inner (p : pairs) : Prop :=
  forall e, In e p -> (forall s, fst e = Some s -> exists a, s = Pl a) /\
                      (forall s, snd e = Some s -> (exists a, s = Pl a) \/ exists i, s = Mk i).
Definition plain (w : word) : Prop := forall s, In s w -> exists a, s = Pl a.
Definition is_k (c : pc) : bool := match c with K _ => true | _ => false end.

Section Core.
Variable optional : bool.
Variable ms : list (pset * list ctxt * rtype).
Hypothesis shape : forall m q, In m ms -> fst (fst m) q ->
  (exists p, q = fl1 (C p) /\ inner p) \/ (optional = false /\ exists a, q = fl1 (V a) /\ plain a).

Definition okc (known : list sym) (c : pc) : Prop :=
  match c with
  | K s => ~ In s known
  | C p => inner p /\ exists m, In m ms /\ fst (fst m) (fl1 c)
  | V a => optional = false /\ plain a /\ exists m, In m ms /\ fst (fst m) (fl1 c)
  end.

Lemma ie_iff known p : identity_expanded known ms p <-> exists ps, Forall (okc known) ps /\ p = fl ps.
Proof using shape.
  unfold identity_expanded, star; split.
  - intros (l & Hl & ->). induction Hl as [|q l Hq _ IH].
    + exists []; split; [constructor | reflexivity].
    + destruct IH as (ps & Hps & E). simpl. rewrite E.
      destruct Hq as [(s & Hs & ->)|(m & Hm & Hq)].
      * exists (K s :: ps); split; [constructor; auto | reflexivity].
      * destruct (shape m q Hm Hq) as [(p & -> & Hi)|(O & a & -> & Hi)].
        -- exists (C p :: ps); split; [constructor; auto | reflexivity].
           split; eauto.
        -- exists (V a :: ps); split; [constructor; auto | reflexivity].
           split; [|split]; eauto.
  - intros (ps & Hps & ->). exists (map fl1 ps); split.
    + induction Hps as [|c ps Hc _ IH]; simpl; constructor; auto.
      destruct c as [s|p|a]; simpl in Hc.
      * left. exists s; split; auto.
      * right. destruct Hc as (_ & m & Hm & Hq). eauto.
      * right. destruct Hc as (_ & _ & m & Hm & Hq). eauto.
    + unfold fl. rewrite flat_map_concat_map. reflexivity.
Qed.

Lemma stop_first {A} (x : A) u v u' v' : ~ In x u -> ~ In x u' -> u ++ x :: v = u' ++ x :: v' -> u = u' /\ v = v'.
Proof.
  revert u'; induction u as [|a u IH]; intros [|b u'] H H' E; simpl in *.
  - inversion E; auto.
  - inversion E; subst; tauto.
  - inversion E; subst; tauto.
  - inversion E; subst. destruct (IH u') as (-> & ->); auto.
Qed.
Lemma inner_no p s : inner p -> s = LM \/ s = RM \/ s = Bd \/ s = Tm \/ s = LM2 \/ s = RM2 -> ~ In (e2 s) p.
Proof.
  intros Hi Hs Hin. destruct (Hi _ Hin) as (H & _). destruct (H s eq_refl) as (a & E).
  destruct Hs as [E'|[E'|[E'|[E'|[E'|E']]]]]; congruence.
Qed.
Lemma idw_no a s : ~ In s a -> ~ In (e2 s) (idw a).
Proof. unfold idw, e2. rewrite in_map_iff. intros H (x & E & Hx). inversion E; subst; auto. Qed.
Lemma plain_no a s : plain a -> s = LM \/ s = RM \/ s = Bd \/ s = Tm \/ s = LM2 \/ s = RM2 -> ~ In s a.
Proof.
  intros Hi Hs Hin. destruct (Hi _ Hin) as (b & E).
  destruct Hs as [E'|[E'|[E'|[E'|[E'|E']]]]]; congruence.
Qed.

(** The pieces can be read off the pair string, from its left end. *)
Definition knows (known : list sym) : Prop :=
  In LM known /\ In RM known /\ (optional = false -> In LM2 known /\ In RM2 known).
Lemma parse known qs ps r : knows known -> Forall (okc known) ps -> Forall (okc known) qs ->
  fl ps = fl qs ++ r -> exists rs, ps = qs ++ rs /\ fl rs = r.
Proof using.
  intros (K1 & K2 & K3). revert ps; induction qs as [|q qs IH]; intros ps Hps Hqs E; simpl in E.
  - exists ps; auto.
  - inversion Hqs as [|? ? Hq Hqs']; subst. rewrite <- app_assoc in E.
    destruct ps as [|c ps]; simpl in E.
    { exfalso. destruct q; simpl in E; discriminate. }
    inversion Hps as [|? ? Hc Hps']; subst.
    assert (c = q /\ fl ps = fl qs ++ r) as (-> & E').
    { destruct c as [s|p|a], q as [s'|p'|a']; simpl in E, Hc, Hq; unfold e2 in E; try discriminate E.
      - injection E as E1 E2. subst; auto.
      - injection E as E1 E2. exfalso; subst; auto.
      - injection E as E1 E2. exfalso; subst; destruct K3; tauto.
      - injection E as E1 E2. exfalso; subst; auto.
      - injection E as E1. rewrite <- !app_assoc in E1. simpl in E1.
        apply (stop_first (e2 RM)) in E1; [| apply inner_no; tauto | apply inner_no; tauto].
        destruct E1 as (-> & ->); auto.
      - injection E as E1 E2. exfalso; subst; destruct K3; tauto.
      - injection E as E1. rewrite <- !app_assoc in E1. simpl in E1.
        apply (stop_first (e2 RM2)) in E1; [| apply idw_no, plain_no; tauto | apply idw_no, plain_no; tauto].
        destruct E1 as (E1 & ->). apply idw_inj in E1; subst; auto. }
    destruct (IH ps Hps' Hqs' E') as (rs & -> & Er). exists rs; auto.
Qed.
Lemma parse_inj known ps qs : knows known -> Forall (okc known) ps -> Forall (okc known) qs -> fl ps = fl qs -> ps = qs.
Proof using.
  intros Kn Hp Hq E. destruct (parse known qs ps [] Kn Hp Hq) as (rs & -> & Er).
  { rewrite app_nil_r; auto. }
  destruct rs as [|c rs]; [apply app_nil_r|]. exfalso; destruct c; discriminate Er.
Qed.

(** A bracketed piece is in one of its contexts. *)
Definition lic (ie : pset) (l : list pc) (c : pc) (r : list pc) : Prop :=
  exists m, In m ms /\ fst (fst m) (fl1 c) /\
    exists x, In x (snd (fst m)) /\ left_context optional (snd m) ie x (fl l) /\ right_context optional (snd m) ie x (fl r).

Lemma fl_no known s ps : s = Tm \/ s = Bd -> In s known -> Forall (okc known) ps -> ~ In (e2 s) (fl ps).
Proof using.
  intros Hs Hk H Hin. unfold fl in Hin. apply in_flat_map in Hin. destruct Hin as (c & Hc & Hin).
  rewrite Forall_forall in H. specialize (H c Hc). destruct c as [t|p|a]; simpl in H, Hin.
  - destruct Hin as [E|[]]. inversion E; subst; auto.
  - destruct H as (Hi & _). destruct Hin as [E|Hin]; [inversion E; subst; destruct Hs; discriminate|].
    apply in_app_or in Hin. destruct Hin as [Hin|[E|[]]]; [|inversion E; subst; destruct Hs; discriminate].
    revert Hin. apply inner_no; tauto.
  - destruct H as (_ & Hi & _). destruct Hin as [E|Hin]; [inversion E; subst; destruct Hs; discriminate|].
    apply in_app_or in Hin. destruct Hin as [Hin|[E|[]]]; [|inversion E; subst; destruct Hs; discriminate].
    revert Hin. apply idw_no, plain_no; tauto.
Qed.
Lemma okc_weaken known known' c : incl known known' -> okc known' c -> okc known c.
Proof using. intros Hi. destruct c; simpl; auto. Qed.
Lemma forall_weaken known known' ps : incl known known' -> Forall (okc known') ps -> Forall (okc known) ps.
Proof using. intros Hi; apply Forall_impl; intros c; apply okc_weaken; auto. Qed.
Lemma okc_tm known ps : Forall (okc known) ps -> ~ In Tm (up (fl ps)) -> Forall (okc (Tm :: known)) ps.
Proof using.
  intros H Hn. rewrite Forall_forall in *. intros c Hc. specialize (H c Hc).
  destruct c as [s|p|a]; simpl; auto. intros [<-|Hk]; auto.
  apply Hn. apply in_split in Hc. destruct Hc as (l & r & ->).
  rewrite fl_app, up_app. simpl. apply in_or_app; right; left; reflexivity.
Qed.

Lemma is_tm_true e : is_tm e = true <-> e = e2 Tm.
Proof.
  unfold e2. split; [|intros ->; reflexivity].
  destruct e as [[x|] y]; simpl; try discriminate; destruct x; try discriminate.
  destruct y as [y|]; try discriminate; destruct y; try discriminate. reflexivity.
Qed.
Lemma no_tm_filter p : ~ In (e2 Tm) p -> filter (fun x => negb (is_tm x)) p = p.
Proof.
  induction p as [|e p IH]; simpl; auto. intros H. destruct (is_tm e) eqn:E; simpl.
  - apply is_tm_true in E. exfalso; auto.
  - rewrite IH; auto.
Qed.
Lemma two_tm (T : option sym * option sym) a b c a' b' c' : ~ In T a -> ~ In T b -> ~ In T c ->
  a ++ T :: b ++ T :: c = a' ++ T :: b' ++ T :: c' -> a = a' /\ b = b' /\ c = c'.
Proof.
  intros Ha Hb Hc E.
  pose (dec := fun x y : option sym * option sym => ltac:(repeat decide equality) : {x = y} + {x <> y}).
  assert (Hcount : count_occ dec (a ++ T :: b ++ T :: c) T = count_occ dec (a' ++ T :: b' ++ T :: c') T) by (rewrite E; auto).
  rewrite !count_occ_app in Hcount. simpl in Hcount. rewrite !count_occ_app in Hcount. simpl in Hcount.
  destruct (dec T T) as [_|]; [|congruence].
  rewrite (proj1 (count_occ_not_In dec a T) Ha), (proj1 (count_occ_not_In dec b T) Hb),
    (proj1 (count_occ_not_In dec c T) Hc) in Hcount.
  assert (~ In T a') by (apply (count_occ_not_In dec); lia).
  assert (~ In T b') by (apply (count_occ_not_In dec); lia).
  apply stop_first in E; auto. destruct E as (-> & E). apply stop_first in E; auto.
Qed.
Lemma okc_no_tm known c : okc known c -> is_k c = false -> ~ In (e2 Tm) (fl1 c).
Proof using.
  intros Hc Hk. destruct c as [s|p|a]; [discriminate| |]; simpl in *.
  - intros [E|Hin]; [discriminate|]. apply in_app_or in Hin. destruct Hin as [Hin|[E|[]]]; [|discriminate].
    revert Hin; apply inner_no; tauto.
  - intros [E|Hin]; [discriminate|]. apply in_app_or in Hin. destruct Hin as [Hin|[E|[]]]; [|discriminate].
    revert Hin; apply idw_no, plain_no; tauto.
Qed.
Lemma is_map known c : okc known c -> is_k c = false -> exists m, In m ms /\ fst (fst m) (fl1 c).
Proof using. destruct c; simpl; intros H E; [discriminate| tauto | tauto]. Qed.
Lemma map_pc m q : In m ms -> fst (fst m) q -> exists c, q = fl1 c /\ is_k c = false /\ forall known, okc known c.
Proof using shape.
  intros Hm Hq. destruct (shape m q Hm Hq) as [(p & -> & Hi)|(O & a & -> & Hi)].
  - exists (C p). split; [|split]; auto. intros; simpl; split; eauto.
  - exists (V a). split; [|split]; auto. intros; simpl. split; [|split]; eauto.
Qed.

Lemma cond_iff known ps : knows known -> Forall (okc known) ps -> ~ In Tm (up (fl ps)) ->
  (forall l c r, ps = l ++ c :: r -> is_k c = false -> lic (identity_expanded (Tm :: known) ms) l c r \/ ~ lic (identity_expanded (Tm :: known) ms) l c r) ->
  (conditional optional known ms (fl ps) <->
   forall l c r, ps = l ++ c :: r -> is_k c = false -> lic (identity_expanded (Tm :: known) ms) l c r).
Proof using shape.
  intros Kn Hps HT dec. set (ie := identity_expanded (Tm :: known) ms) in *.
  assert (Hps' : Forall (okc (Tm :: known)) ps) by (apply okc_tm; auto).
  assert (Kn' : knows (Tm :: known)).
  { destruct Kn as (K1 & K2 & K3). split; [|split]; simpl; auto. intros O; destruct (K3 O); auto. }
  unfold conditional, erase_tm, in_wrong_context. fold ie. unfold expand_contexts, sub, cat, same, one.
  split.
  - intros (_ & Hn) l c r E Hk. destruct (dec l c r E Hk) as [|N]; auto. exfalso. apply Hn.
    subst ps. apply Forall_app in Hps'. destruct Hps' as (Hl & Hcr). inversion Hcr as [|? ? Hc Hr]; subst.
    assert (Tl : ~ In (e2 Tm) (fl l)) by (apply (fl_no (Tm :: known)); simpl; auto).
    assert (Tr : ~ In (e2 Tm) (fl r)) by (apply (fl_no (Tm :: known)); simpl; auto).
    assert (Tc : ~ In (e2 Tm) (fl1 c)) by (apply (okc_no_tm (Tm :: known)); auto).
    exists (fl l ++ e2 Tm :: fl1 c ++ e2 Tm :: fl r). split.
    + split.
      * destruct (is_map _ _ Hc Hk) as (m & Hm & Hq). exists m; split; auto.
        exists (fl l), (e2 Tm :: fl1 c ++ e2 Tm :: fl r). split; auto. split; [apply ie_iff; eauto|].
        exists (e2 Tm :: fl1 c ++ [e2 Tm]), (fl r). split; [rewrite !app_comm_cons, <- app_assoc; reflexivity|].
        split; [|apply ie_iff; eauto].
        exists [e2 Tm], (fl1 c ++ [e2 Tm]). split; auto. split; [reflexivity|].
        exists (fl1 c), [e2 Tm]. split; auto.
      * intros (m & Hm & x & Hx & f & rest & E & Hf & mm & s & -> & (t1 & rest2 & -> & -> & (mq & t2 & -> & Hq & ->)) & Hs).
        apply N. exists m. split; auto.
        assert (E3 : fl l ++ e2 Tm :: fl1 c ++ e2 Tm :: fl r = f ++ e2 Tm :: mq ++ e2 Tm :: s).
        { rewrite E. simpl. rewrite <- app_assoc. reflexivity. }
        apply two_tm in E3; auto. destruct E3 as (E1 & E2 & E3); subst. split; auto. exists x. auto.
    + rewrite !filter_app, (no_tm_filter (fl l)) by auto. simpl.
      rewrite !filter_app, (no_tm_filter (fl1 c)) by auto. simpl. rewrite (no_tm_filter (fl r)) by auto.
      rewrite fl_app. reflexivity.
  - intros H. split; [apply ie_iff; eauto|].
    intros (q & ((m & Hm & a & rest & -> & Ha & mm & b & -> & (t1 & rest2 & -> & -> & (mq & t2 & -> & Hq & ->)) & Hb) & Hn) & E).
    apply ie_iff in Ha. apply ie_iff in Hb. destruct Ha as (l & Hl & ->). destruct Hb as (r & Hr & ->).
    destruct (map_pc m mq Hm Hq) as (c & -> & Hk & Hc).
    assert (Tl : ~ In (e2 Tm) (fl l)) by (apply (fl_no (Tm :: known)); simpl; auto).
    assert (Tr : ~ In (e2 Tm) (fl r)) by (apply (fl_no (Tm :: known)); simpl; auto).
    assert (Tc : ~ In (e2 Tm) (fl1 c)) by (apply (okc_no_tm (Tm :: known)); auto).
    rewrite !filter_app, (no_tm_filter (fl l)) in E by auto. simpl in E.
    rewrite (no_tm_filter (fl1 c)) in E by auto. simpl in E.
    rewrite (no_tm_filter (fl r)) in E by auto. rewrite app_nil_r in E.
    assert (Eps : ps = l ++ c :: r).
    { apply (parse_inj (Tm :: known)); auto.
      - apply Forall_app; split; auto.
      - rewrite E, fl_app. reflexivity. }
    destruct (H l c r Eps Hk) as (m' & Hm' & Hq' & x & Hx & Hlx & Hrx).
    apply Hn. exists m'. split; auto. exists x; split; auto.
    exists (fl l), (([e2 Tm] ++ fl1 c ++ [e2 Tm]) ++ fl r). split; auto. split; auto.
    exists ([e2 Tm] ++ fl1 c ++ [e2 Tm]), (fl r). split; auto. split; auto.
    exists [e2 Tm], (fl1 c ++ [e2 Tm]). split; auto. split; [reflexivity|].
    exists (fl1 c), [e2 Tm]. split; auto.
Qed.

(** The contexts, at a place with the boundary before and after it. *)
Definition left_side (ty : rtype) (p : pairs) : word := match ty with REPL_UP | REPL_LEFT => up p | _ => down p end.
Definition right_side (ty : rtype) (p : pairs) : word := match ty with REPL_UP | REPL_RIGHT => up p | _ => down p end.
Lemma left_side_app ty p q : left_side ty (p ++ q) = left_side ty p ++ left_side ty q.
Proof. destruct ty; simpl; auto using up_app, down_app. Qed.
Lemma right_side_app ty p q : right_side ty (p ++ q) = right_side ty p ++ right_side ty q.
Proof. destruct ty; simpl; auto using up_app, down_app. Qed.
Lemma left_side_idw ty w : left_side ty (idw w) = w.
Proof. destruct ty; simpl; auto using up_idw, down_idw. Qed.
Lemma right_side_idw ty w : right_side ty (idw w) = w.
Proof. destruct ty; simpl; auto using up_idw, down_idw. Qed.
Lemma star_any bs p : star (any bs) p -> exists w, p = idw w.
Proof.
  intros (l & Hl & ->). induction Hl as [|q l (s & Hs & ->) _ (w & IH)].
  - exists []; reflexivity.
  - exists (s :: w). simpl. rewrite IH. reflexivity.
Qed.

Definition both_left (ty : rtype) (ie : pset) (x : ctxt) : pset :=
  let first := freely (brackets optional) (fun w => exists u l, w = u ++ l /\ c_left x l) in
  alt (aut first) (match ty with REPL_UP | REPL_LEFT => upper_in first ie | _ => lower_in first ie end).
Lemma both_left_iff ty (ie : pset) x p : ie p ->
  (both_left ty ie x p <-> exists u v, filt (brackets optional) (left_side ty p) = u ++ v /\ c_left x v).
Proof using.
  intros Hp. unfold both_left, alt, aut. split.
  - intros [(w & Hw & ->)|H].
    + rewrite left_side_idw. exact Hw.
    + destruct ty; simpl in *; destruct H as (_ & H); exact H.
  - intros H. right. destruct ty; simpl in *; split; auto.
Qed.
Lemma both_left_side ty ie x p : both_left ty ie x p ->
  exists u v, filt (brackets optional) (left_side ty p) = u ++ v /\ c_left x v.
Proof using.
  unfold both_left, alt, aut.
  intros [(w & Hw & ->)|H].
  - rewrite left_side_idw. exact Hw.
  - destruct ty; simpl in *; destruct H as (_ & H); exact H.
Qed.
Lemma left_iff ty (ie : pset) x q : (c_left_bd x = false -> forall w, c_left x w -> ~ In Bd w) -> ie (e2 Bd :: q) -> ie q -> ~ In Bd (up q) -> ~ In Bd (down q) ->
  (left_context optional ty ie x (e2 Bd :: q) <->
   exists u v, Bd :: filt (brackets optional) (left_side ty q) = u ++ v /\ c_left x v).
Proof using.
  intros Hx Hp Hq Hu Hd.
  assert (Ebd : forall p, filt (brackets optional) (left_side ty (e2 Bd :: p)) = Bd :: filt (brackets optional) (left_side ty p)).
  { intros p. change (e2 Bd :: p) with ([e2 Bd] ++ p). rewrite left_side_app, filt_app.
    change (left_side ty [e2 Bd]) with (left_side ty (idw [Bd])). rewrite left_side_idw, filt_bd. reflexivity. }
  change (left_context optional ty ie x) with
    (if c_left_bd x then both_left ty ie x else cat (same Bd) (cat (star (any [Bd])) (no_boundary (both_left ty ie x)))).
  destruct (c_left_bd x) eqn:Eb.
  - rewrite both_left_iff by auto. rewrite Ebd. reflexivity.
  - split.
    + intros (b0 & r & E & -> & a & b & -> & Ha & (Hb & _)). simpl in E. inversion E; subst; clear E.
      apply star_any in Ha. destruct Ha as (w & ->).
      apply both_left_side in Hb. destruct Hb as (u & v & E & Hv).
      exists (Bd :: filt (brackets optional) w ++ u), v. split; auto.
      rewrite left_side_app, filt_app, left_side_idw, E. simpl. rewrite app_assoc. reflexivity.
    + intros (u & v & E & Hv). exists [e2 Bd], q. split; auto. split; [reflexivity|].
      exists [], q. split; auto. split; [exists []; split; auto|]. split; auto.
      apply both_left_iff; auto.
      destruct u as [|s u]; simpl in E.
      { exfalso. subst v. apply (Hx eq_refl _ Hv). left; reflexivity. }
      inversion E; subst. eauto.
Qed.
Definition both_right (ty : rtype) (ie : pset) (x : ctxt) : pset :=
  let second := freely (brackets optional) (fun w => exists r v, w = r ++ v /\ c_right x r) in
  alt (aut second) (match ty with REPL_UP | REPL_RIGHT => upper_in second ie | _ => lower_in second ie end).
Lemma both_right_side ty ie x p : both_right ty ie x p ->
  exists u v, filt (brackets optional) (right_side ty p) = u ++ v /\ c_right x u.
Proof using.
  unfold both_right, alt, aut.
  intros [(w & Hw & ->)|H].
  - rewrite right_side_idw. exact Hw.
  - destruct ty; simpl in *; destruct H as (_ & H); exact H.
Qed.
Lemma both_right_iff ty (ie : pset) x p : ie p ->
  (both_right ty ie x p <-> exists u v, filt (brackets optional) (right_side ty p) = u ++ v /\ c_right x u).
Proof using.
  intros Hp. split; [apply both_right_side|]. unfold both_right, alt, aut.
  intros H. right. destruct ty; simpl in *; split; auto.
Qed.
Lemma right_iff ty (ie : pset) x q : (c_right_bd x = false -> forall w, c_right x w -> ~ In Bd w) -> ie (q ++ [e2 Bd]) -> ie q -> ~ In Bd (up q) -> ~ In Bd (down q) ->
  (right_context optional ty ie x (q ++ [e2 Bd]) <->
   exists u v, filt (brackets optional) (right_side ty q) ++ [Bd] = u ++ v /\ c_right x u).
Proof using.
  intros Hx Hp Hq Hu Hd.
  assert (Ebd : forall p, filt (brackets optional) (right_side ty (p ++ [e2 Bd])) = filt (brackets optional) (right_side ty p) ++ [Bd]).
  { intros p. rewrite right_side_app, filt_app. f_equal.
    change (right_side ty [e2 Bd]) with (right_side ty (idw [Bd])). rewrite right_side_idw, filt_bd. reflexivity. }
  replace (right_context optional ty ie x) with
    (if c_right_bd x then both_right ty ie x else cat (no_boundary (both_right ty ie x)) (cat (star (any [Bd])) (same Bd)))
    by (unfold right_context, both_right; destruct ty; reflexivity).
  destruct (c_right_bd x) eqn:Eb.
  - rewrite both_right_iff by auto. rewrite Ebd. reflexivity.
  - split.
    + intros (b & r & E & (Hb & _) & a & t & -> & Ha & ->). rewrite app_assoc in E.
      change [(Some Bd, Some Bd)] with [e2 Bd] in E. apply app_inj_tail in E. destruct E as (-> & _).
      apply star_any in Ha. destruct Ha as (w & ->).
      apply both_right_side in Hb. destruct Hb as (u & v & E & Hv).
      exists u, (v ++ filt (brackets optional) w ++ [Bd]). split; auto.
      rewrite right_side_app, filt_app, right_side_idw, E, <- !app_assoc. reflexivity.
    + intros (u & v & E & Hv). exists q, [e2 Bd]. split; auto. split.
      2:{ exists [], [e2 Bd]. split; auto. split; [exists []; split; auto|reflexivity]. }
      split; auto. apply both_right_iff; auto.
      destruct v as [|s v0] using rev_ind.
      { exfalso. rewrite app_nil_r in E. subst u. apply (Hx eq_refl _ Hv). apply in_or_app; right; left; reflexivity. }
      rewrite app_assoc in E. apply app_inj_tail in E. destruct E as (E & _). eauto.
Qed.
End Core.
