(** Proofs about the replace rules: constraints, boundaries, obligatory and optional
    replacement. *)
From Verif Require Import Base Xr_Model Xr_Spec Xr_Proofs1 Xr_Proofs2 Xr_Proofs3.

(** The relations of the operations. *)
Lemma rc_cat P Q X Y : rel_of (cat P Q) X Y <->
  exists X1 X2 Y1 Y2, X = X1 ++ X2 /\ Y = Y1 ++ Y2 /\ rel_of P X1 Y1 /\ rel_of Q X2 Y2.
Proof.
  unfold rel_of, cat. split.
  - intros (p & (q & r & -> & Hq & Hr) & <- & <-). rewrite up_app, down_app. exists (up q), (up r), (down q), (down r). eauto 10.
  - intros (X1 & X2 & Y1 & Y2 & -> & -> & (q & Hq & <- & <-) & (r & Hr & <- & <-)). exists (q ++ r).
    rewrite up_app, down_app. eauto 8.
Qed.
Lemma rc_alt P Q X Y : rel_of (alt P Q) X Y <-> rel_of P X Y \/ rel_of Q X Y.
Proof.
  unfold rel_of, alt. split; [intros (p & [H|H] & E); [left|right]; eauto | intros [(p & H & E)|(p & H & E)]; eauto].
Qed.
Lemma rc_same s X Y : rel_of (same s) X Y <-> X = [s] /\ Y = [s].
Proof.
  unfold rel_of, same, one. split; [intros (p & -> & <- & <-); auto | intros (-> & ->); eexists; split; [reflexivity|auto]].
Qed.
Lemma rc_del s X Y : rel_of (del s) X Y <-> X = [s] /\ Y = [].
Proof.
  unfold rel_of, del, one. split; [intros (p & -> & <- & <-); auto | intros (-> & ->); eexists; split; [reflexivity|auto]].
Qed.
Lemma rc_ins s X Y : rel_of (ins s) X Y <-> X = [] /\ Y = [s].
Proof.
  unfold rel_of, ins, one. split; [intros (p & -> & <- & <-); auto | intros (-> & ->); eexists; split; [reflexivity|auto]].
Qed.
Lemma rc_any k X Y : rel_of (any k) X Y <-> exists s, ~ In s k /\ X = [s] /\ Y = [s].
Proof.
  unfold rel_of, any. split.
  - intros (p & (s & H & ->) & <- & <-). eauto.
  - intros (s & H & -> & ->). exists [(Some s, Some s)]. eauto.
Qed.
Lemma rc_star P X Y : rel_of (star P) X Y <-> (X = [] /\ Y = []) \/
  exists X1 X2 Y1 Y2, X = X1 ++ X2 /\ Y = Y1 ++ Y2 /\ rel_of P X1 Y1 /\ rel_of (star P) X2 Y2.
Proof.
  unfold rel_of, star. split.
  - intros (p & (l & Hl & ->) & <- & <-). destruct Hl as [|q l Hq Hl]; [left; auto|]. right. simpl. rewrite up_app, down_app.
    exists (up q), (up (concat l)), (down q), (down (concat l)). repeat split; eauto. exists (concat l). eauto.
  - intros [(-> & ->)|(X1 & X2 & Y1 & Y2 & -> & -> & (q & Hq & <- & <-) & (r & (l & Hl & ->) & <- & <-))].
    + exists []. split; auto. exists []. auto.
    + exists (q ++ concat l). rewrite up_app, down_app. split; auto. exists (q :: l). auto.
Qed.
Lemma rc_star_ind P (R : word -> word -> Prop) : R [] [] ->
  (forall X1 X2 Y1 Y2, rel_of P X1 Y1 -> rel_of (star P) X2 Y2 -> R X2 Y2 -> R (X1 ++ X2) (Y1 ++ Y2)) ->
  forall X Y, rel_of (star P) X Y -> R X Y.
Proof.
  intros H0 H1 X Y (p & (l & Hl & ->) & <- & <-). induction Hl as [|q l Hq Hl IH]; simpl; auto.
  rewrite up_app, down_app. apply H1; auto; [exists q; auto | exists (concat l); repeat split; auto; exists l; auto].
Qed.
Lemma rc_star_any k X Y : rel_of (star (any k)) X Y <-> X = Y /\ forall s, In s X -> ~ In s k.
Proof.
  split.
  - apply (rc_star_ind (any k) (fun X Y => X = Y /\ forall s, In s X -> ~ In s k)).
    + split; auto; intros s [].
    + intros X1 X2 Y1 Y2 H1 _ (-> & H2). apply rc_any in H1. destruct H1 as (s & Hs & -> & ->). split; auto.
      intros s' [<-|H']; auto.
  - intros (<- & H). induction X as [|s X IH]; apply rc_star; [left; auto|]. right. exists [s], X, [s], X.
    repeat split; auto; [apply rc_any; exists s; split; auto; apply H; left; auto|]. apply IH. intros s' Hs. apply H. right; auto.
Qed.
Lemma rc_anything X Y : rel_of anything X Y <-> X = Y.
Proof. unfold anything. rewrite rc_star_any. split; [tauto|]. intros ->. split; auto. Qed.
Lemma rc_plus P X Y : rel_of (plus P) X Y <-> exists X1 X2 Y1 Y2, X = X1 ++ X2 /\ Y = Y1 ++ Y2 /\ rel_of P X1 Y1 /\ rel_of (star P) X2 Y2.
Proof. apply rc_cat. Qed.
Lemma cc_iff t C X Y : constraint_composition t C X Y <-> t X Y /\ ~ exists X' Y', t X' Y' /\ rel_of C X' X.
Proof.
  unfold constraint_composition, comp, ident, iproj, oproj. split.
  - intros (Z & (<- & _ & N) & H). split; auto. intros (X' & Y' & Ht & Hc). apply N.
    exists X'. exists X. split; eauto 10.
  - intros (H & N). exists X. split; auto. split; auto. split; [eauto|]. intros (X' & Z & (Z' & (<- & Y' & H1) & H2) & -> & _).
    apply N. eauto.
Qed.

(** Boundaries. *)
Definition nb (s : sym) : bool := match s with Bd => false | _ => true end.
Lemma nb_true s : nb s = true <-> s <> Bd.
Proof. destruct s; simpl; split; intros; congruence. Qed.
Lemma filter_nb_id w : ~ In Bd w -> filter nb w = w.
Proof.
  intros H. induction w as [|s w IH]; simpl; auto. destruct (nb s) eqn:E.
  - rewrite IH; auto. intros Hi. apply H; right; auto.
  - exfalso. apply H. left. destruct s; auto; discriminate.
Qed.
Lemma ins_bd x X : rel_of (star (alt (ins Bd) (any [Bd]))) x X <-> x = filter nb X.
Proof.
  split.
  - revert x X. apply rc_star_ind; auto. intros X1 X2 Y1 Y2 H _ ->. rewrite filter_app. f_equal.
    apply rc_alt in H. destruct H as [H|H]; [apply rc_ins in H; destruct H as (-> & ->); auto|].
    apply rc_any in H. destruct H as (s & Hs & -> & ->). simpl. destruct s; auto. destruct Hs; left; auto.
  - intros ->. induction X as [|s X IH]; simpl; apply rc_star; [left; auto|]. right. destruct (nb s) eqn:E.
    + exists [s], (filter nb X), [s], X. repeat split; auto. apply rc_alt. right. apply rc_any. exists s. split; auto.
      intros [<-|[]]; discriminate.
    + exists [], (filter nb X), [s], X. repeat split; auto. apply rc_alt. left. apply rc_ins. destruct s; try discriminate; auto.
Qed.
Lemma del_bd X x : rel_of (star (alt (del Bd) (any [Bd]))) X x <-> x = filter nb X.
Proof.
  split.
  - revert X x. apply rc_star_ind; auto. intros X1 X2 Y1 Y2 H _ ->. rewrite filter_app. f_equal.
    apply rc_alt in H. destruct H as [H|H]; [apply rc_del in H; destruct H as (-> & ->); auto|].
    apply rc_any in H. destruct H as (s & Hs & -> & ->). simpl. destruct s; auto. destruct Hs; left; auto.
  - intros ->. induction X as [|s X IH]; simpl; apply rc_star; [left; auto|]. right. destruct (nb s) eqn:E.
    + exists [s], X, [s], (filter nb X). repeat split; auto. apply rc_alt. right. apply rc_any. exists s. split; auto.
      intros [<-|[]]; discriminate.
    + exists [s], X, [], (filter nb X). repeat split; auto. apply rc_alt. left. apply rc_del. destruct s; try discriminate; auto.
Qed.
Lemma ab_iff t x y : apply_boundary t x y <-> ~ In Bd y /\ exists X, x = filter nb X /\ t X (Bd :: y ++ [Bd]).
Proof.
  unfold apply_boundary, comp. split.
  - intros (Y & (Y' & (X & H1 & H2) & H3) & H4). apply ins_bd in H1. apply del_bd in H4.
    apply rc_cat in H3. destruct H3 as (A1 & A2 & B1 & B2 & -> & -> & Ha & Hb). apply rc_same in Ha. destruct Ha as (-> & ->).
    apply rc_cat in Hb. destruct Hb as (C1 & C2 & D1 & D2 & -> & -> & Hc & Hd). apply rc_same in Hd. destruct Hd as (-> & ->).
    apply rc_star_any in Hc. destruct Hc as (<- & Hc).
    assert (N : ~ In Bd C1) by (intros Hi; apply (Hc _ Hi); left; auto).
    simpl in H4. rewrite filter_app in H4. simpl in H4. rewrite app_nil_r, filter_nb_id in H4 by auto. subst y.
    split; auto. exists X. auto.
  - intros (N & X & Ex & H). exists (Bd :: y ++ [Bd]). split.
    + exists (Bd :: y ++ [Bd]). split.
      * exists X. split; auto. apply ins_bd; auto.
      * apply rc_cat. exists [Bd], (y ++ [Bd]), [Bd], (y ++ [Bd]). repeat split; auto; [apply rc_same; auto|].
        apply rc_cat. exists y, [Bd], y, [Bd]. repeat split; auto; [|apply rc_same; auto]. apply rc_star_any. split; auto.
        intros s Hs [<-|[]]. auto.
    + apply del_bd. simpl. rewrite filter_app. simpl. rewrite app_nil_r, filter_nb_id; auto.
Qed.

(** Bracketed texts. *)
Definition fo (os : list (option ap)) : word := flat_map ubo os.
Lemma fo_app a b : fo (a ++ b) = fo a ++ fo b.
Proof. apply flat_map_app. Qed.
Lemma fo_some as_ : fo (map Some as_) = ub as_.
Proof. induction as_; simpl; auto. unfold ub in *. simpl. rewrite <- IHas_. reflexivity. Qed.
Lemma fo_wrapped as_ : fo (None :: map Some as_ ++ [None]) = Bd :: ub as_ ++ [Bd].
Proof. simpl. unfold fo. rewrite flat_map_app. fold (fo (map Some as_)). rewrite fo_some. reflexivity. Qed.
Lemma skip_notin {A} (s : A) u v al be : u ++ v = al ++ s :: be -> ~ In s u -> exists al', al = u ++ al' /\ v = al' ++ s :: be.
Proof.
  revert al. induction u as [|a u IH]; intros al E N; simpl in *.
  - exists al; auto.
  - destruct al as [|b al]; simpl in E; injection E as -> E; [destruct N; auto|].
    destruct (IH al E) as (al' & -> & ->); [tauto|]. exists al'. auto.
Qed.
Lemma not_in_txt s x : (forall a, s <> Pl a) -> ~ In s (txt x).
Proof. intros H Hi. apply txt_plain in Hi. destruct Hi as (a & ->). apply (H a); auto. Qed.
Lemma fo_split_l os al L be : L = LM \/ L = LM2 -> fo os = al ++ L :: be ->
  exists o1 c o2, os = o1 ++ Some c :: o2 /\ al = fo o1 /\ L :: be = ub1 c ++ fo o2.
Proof.
  intros HL. revert al. induction os as [|o os IH]; intros al E.
  - destruct al; discriminate.
  - change (fo (o :: os)) with (ubo o ++ fo os) in E.
    assert (G : ~ In L (ubo o) -> exists o1 c o2, o :: os = o1 ++ Some c :: o2 /\ al = fo o1 /\ L :: be = ub1 c ++ fo o2).
    { intros N. apply skip_notin in E; auto. destruct E as (al' & -> & E). destruct (IH al' E) as (o1 & c & o2 & -> & -> & E').
      exists (o :: o1), c, o2. auto. }
    destruct al as [|b al].
    + simpl in E. destruct o as [[a|x y|x]|]; simpl in E; injection E as E1 E2; subst.
      * destruct HL; discriminate.
      * exists [], (AC x y), os. simpl. auto.
      * exists [], (AL x), os. simpl. auto.
      * destruct HL; discriminate.
    + destruct o as [[a|x y|x]|].
      * apply G. intros [<-|[]]. destruct HL; discriminate.
      * simpl in E. injection E as <- E. rewrite <- app_assoc in E. apply skip_notin in E.
        2:{ apply not_in_txt. intros a ->. destruct HL; discriminate. }
        destruct E as (al' & -> & E). simpl in E. destruct al' as [|d al']; simpl in E; injection E as E1 E2; [subst; destruct HL; discriminate|].
        subst d. destruct (IH al' E2) as (o1 & c & o2 & -> & -> & E').
        exists (Some (AC x y) :: o1), c, o2. split; auto. split; auto. simpl. rewrite <- app_assoc. reflexivity.
      * simpl in E. injection E as <- E. rewrite <- app_assoc in E. apply skip_notin in E.
        2:{ apply not_in_txt. intros a ->. destruct HL; discriminate. }
        destruct E as (al' & -> & E). simpl in E. destruct al' as [|d al']; simpl in E; injection E as E1 E2; [subst; destruct HL; discriminate|].
        subst d. destruct (IH al' E2) as (o1 & c & o2 & -> & -> & E').
        exists (Some (AL x) :: o1), c, o2. split; auto. split; auto. simpl. rewrite <- app_assoc. reflexivity.
      * apply G. intros [<-|[]]. destruct HL; discriminate.
Qed.
Lemma txt_sep x x' s u u' : (forall a, s <> Pl a) -> txt x ++ s :: u = txt x' ++ s :: u' -> x = x' /\ u = u'.
Proof.
  intros Hs. revert x'. induction x as [|a x IH]; intros [|b x'] E; simpl in E.
  - inversion E; auto.
  - injection E as E _. destruct (Hs b); auto.
  - injection E as E _. destruct (Hs a); auto.
  - injection E as -> E. destruct (IH x' E) as (-> & ->). auto.
Qed.
Lemma fo_prefix o1 : forall os be, fo os = fo o1 ++ be -> exists os1 os2, os = os1 ++ os2 /\ fo os1 = fo o1 /\ be = fo os2.
Proof.
  induction o1 as [|o o1 IH]; intros os be E.
  - exists [], os. auto.
  - change (fo (o :: o1)) with (ubo o ++ fo o1) in *. rewrite <- app_assoc in E.
    destruct os as [|o' os]; [destruct o as [[a|x y|x]|]; discriminate|].
    change (fo (o' :: os)) with (ubo o' ++ fo os) in E.
    assert (G : ubo o' = ubo o /\ fo os = fo o1 ++ be).
    { destruct o as [[a|x y|x]|]; destruct o' as [[a'|x' y'|x']|]; simpl in E; try discriminate.
      - injection E as -> E. auto.
      - injection E as E. rewrite <- !app_assoc in E. simpl in E.
        apply txt_sep in E; [|discriminate]. destruct E as (-> & E). simpl; auto.
      - injection E as E. rewrite <- !app_assoc in E. simpl in E.
        apply txt_sep in E; [|discriminate]. destruct E as (-> & E). simpl; auto.
      - injection E as E. auto. }
    destruct G as (E1 & E2). destruct (IH os be E2) as (os1 & os2 & -> & E3 & ->).
    exists (o' :: os1), os2. split; auto. split; auto. change (fo (o' :: os1)) with (ubo o' ++ fo os1). rewrite E1, E3. auto.
Qed.
Definition keeps (x : text) : list (option ap) := map (fun a => Some (AK a)) x.
Lemma fo_keeps x : fo (keeps x) = txt x.
Proof. induction x; simpl; auto. f_equal; auto. Qed.
Lemma fo_keep x : forall os be, fo os = txt x ++ be -> exists os2, os = keeps x ++ os2 /\ be = fo os2.
Proof.
  induction x as [|a x IH]; intros os be E; simpl in E.
  - exists os; auto.
  - destruct os as [|[[a'|x' y'|x']|] os]; simpl in E; try discriminate. injection E as -> E.
    destruct (IH os be E) as (os2 & -> & ->). exists os2. auto.
Qed.
(** At most one insertion in one place. *)
Definition aonce (as_ : list ap) : Prop := forall l c d r, as_ = l ++ c :: d :: r -> ar1 c = [] -> ar1 d <> [].
Lemma ar1_empty c : ar1 c = [] -> exists L R, (L = LM \/ L = LM2) /\ (R = RM \/ R = RM2) /\ ub1 c = [L; R] /\
  ((forall x, c <> AL x) -> L = LM /\ R = RM).
Proof.
  destruct c as [a|x y|x]; simpl; intros E; [discriminate| |]; subst x.
  - exists LM, RM. simpl; auto.
  - exists LM2, RM2. simpl. repeat split; auto; destruct (H []); auto.
Qed.
Lemma empty_ar1 c L R be z : L = LM \/ L = LM2 -> R = RM \/ R = RM2 -> L :: R :: be = ub1 c ++ z -> ar1 c = [] /\ be = z.
Proof.
  intros HL HR E. destruct c as [a|x y|x]; simpl in E; injection E as -> E; [destruct HL; discriminate| |];
  (destruct x as [|b x]; simpl in E; injection E as -> E; [auto | destruct HR; discriminate]).
Qed.
Lemma good_fits optional rs as_ : good optional rs as_ -> fits optional as_.
Proof. intros Hg x Hx. apply in_split in Hx. destruct Hx as (l & r & ->). apply (Hg l (AL x) r eq_refl). Qed.
Lemma some_split (as_ : list ap) o1 c o2 : None :: map Some as_ ++ [None] = o1 ++ Some c :: o2 ->
  exists l r, as_ = l ++ c :: r /\ o1 = None :: map (@Some ap) l /\ o2 = map (@Some ap) r ++ [None].
Proof.
  intros E. destruct o1 as [|o o1]; simpl in E; [discriminate|]. injection E as <- E.
  revert o1 E. induction as_ as [|a l IH]; intros o1 E; simpl in E.
  - destruct o1 as [|o [|o' o1]]; discriminate.
  - destruct o1 as [|o o1]; simpl in E.
    + injection E as -> <-. exists [], l. auto.
    + injection E as <- E. destruct (IH o1 E) as (l' & r & -> & E1 & ->). injection E1 as ->.
      exists (a :: l'), r. auto.
Qed.
Lemma map_some_split (as_ : list ap) o1 o2 : map Some as_ = o1 ++ o2 -> exists l r, as_ = l ++ r /\ o1 = map (@Some ap) l /\ o2 = map (@Some ap) r.
Proof. intros E. apply map_eq_app in E. destruct E as (l & r & -> & <- & <-). eauto. Qed.

Lemma starts_empty as_ L R be : L = LM \/ L = LM2 -> R = RM \/ R = RM2 -> ub as_ = L :: R :: be ->
  exists d r, as_ = d :: r /\ ar1 d = [].
Proof.
  intros HL HR E. destruct as_ as [|d r]; [discriminate|]. exists d, r. split; auto.
  symmetry in E. destruct (empty_ar1 d L R be (ub r) HL HR E). auto.
Qed.
Lemma twice as_ al L R L' R' be : L = LM \/ L = LM2 -> R = RM \/ R = RM2 -> L' = LM \/ L' = LM2 -> R' = RM \/ R' = RM2 ->
  Bd :: ub as_ ++ [Bd] = al ++ L :: R :: L' :: R' :: be -> ~ aonce as_.
Proof.
  intros HL HR HL' HR' E H. rewrite <- fo_wrapped in E. apply fo_split_l in E; auto. destruct E as (o1 & c & o2 & E & _ & E').
  apply some_split in E. destruct E as (l & r & -> & _ & ->). apply empty_ar1 in E'; auto. destruct E' as (Ec & E').
  destruct r as [|d r]; [simpl in E'; injection E' as -> _; destruct HL'; discriminate|].
  simpl in E'. apply empty_ar1 in E'; auto. destruct E' as (Ed & _). exact (H l c d r eq_refl Ec Ed).
Qed.
Lemma nr_iff second (t : rel) X Y as_ : X = Bd :: ub as_ ++ [Bd] -> (second = false -> forall x, ~ In (AL x) as_) ->
  (no_repetition second t X Y <-> t X Y /\ aonce as_).
Proof.
  intros -> Hs. unfold no_repetition. rewrite cc_iff. split; intros (H & N); (split; [auto|]).
  - intros l c d r -> Ec Ed. apply N. exists (Bd :: ub (l ++ c :: d :: r) ++ [Bd]), Y. split; auto.
    assert (Cc : second = false -> forall x, c <> AL x).
    { intros S x ->. apply (Hs S x). apply in_or_app. right; left; auto. }
    assert (Cd : second = false -> forall x, d <> AL x).
    { intros S x ->. apply (Hs S x). apply in_or_app. right; right; left; auto. }
    destruct (ar1_empty c Ec) as (L & R & HL & HR & EL & Hc). destruct (ar1_empty d Ed) as (L' & R' & HL' & HR' & EL' & Hd).
    rewrite ub_app. change (ub (c :: d :: r)) with (ub1 c ++ ub1 d ++ ub r). rewrite EL, EL'.
    apply rc_cat. exists (Bd :: ub l), ([L; R; L'; R'] ++ ub r ++ [Bd]), (Bd :: ub l), ([L; R; L'; R'] ++ ub r ++ [Bd]).
    split; [simpl; rewrite <- app_assoc; auto|]. split; [simpl; rewrite <- app_assoc; auto|]. split; [apply rc_anything; auto|].
    assert (GL : forall e L, L = LM \/ L = LM2 -> (second = false -> forall x, e <> AL x) -> ((forall x, e <> AL x) -> L = LM) ->
      rel_of (if second then alt (same LM) (same LM2) else same LM) [L] [L]).
    { intros e L0 H0 H1 H2. destruct second; [apply rc_alt; rewrite !rc_same; destruct H0 as [->| ->]; auto|].
      rewrite (H2 (H1 eq_refl)). apply rc_same; auto. }
    assert (GR : forall e R, R = RM \/ R = RM2 -> (second = false -> forall x, e <> AL x) -> ((forall x, e <> AL x) -> R = RM) ->
      rel_of (if second then alt (same RM) (same RM2) else same RM) [R] [R]).
    { intros e L0 H0 H1 H2. destruct second; [apply rc_alt; rewrite !rc_same; destruct H0 as [->| ->]; auto|].
      rewrite (H2 (H1 eq_refl)). apply rc_same; auto. }
    apply rc_cat. exists [L], ([R; L'; R'] ++ ub r ++ [Bd]), [L], ([R; L'; R'] ++ ub r ++ [Bd]). split; [auto|]. split; [auto|].
    split; [apply (GL c); auto; apply Hc|].
    apply rc_cat. exists [R], ([L'; R'] ++ ub r ++ [Bd]), [R], ([L'; R'] ++ ub r ++ [Bd]). split; [auto|]. split; [auto|].
    split; [apply (GR c); auto; apply Hc|].
    apply rc_cat. exists [L'], ([R'] ++ ub r ++ [Bd]), [L'], ([R'] ++ ub r ++ [Bd]). split; [auto|]. split; [auto|].
    split; [apply (GL d); auto; apply Hd|].
    apply rc_cat. exists [R'], (ub r ++ [Bd]), [R'], (ub r ++ [Bd]). split; [auto|]. split; [auto|].
    split; [apply (GR d); auto; apply Hd|]. apply rc_anything; auto.
  - intros (X' & _ & _ & Hc). apply rc_cat in Hc. destruct Hc as (A1 & A2 & B1 & B2 & _ & E & _ & Hc).
    apply rc_cat in Hc. destruct Hc as (A3 & A4 & B3 & B4 & _ & -> & H3 & Hc).
    apply rc_cat in Hc. destruct Hc as (A5 & A6 & B5 & B6 & _ & -> & H5 & Hc).
    apply rc_cat in Hc. destruct Hc as (A7 & A8 & B7 & B8 & _ & -> & H7 & Hc).
    apply rc_cat in Hc. destruct Hc as (A9 & A10 & B9 & B10 & _ & -> & H9 & _).
    assert (GL : forall A B, rel_of (if second then alt (same LM) (same LM2) else same LM) A B -> exists L, B = [L] /\ (L = LM \/ L = LM2)).
    { intros A B G. destruct second; [apply rc_alt in G; destruct G as [G|G]|]; apply rc_same in G; destruct G; eauto. }
    assert (GR : forall A B, rel_of (if second then alt (same RM) (same RM2) else same RM) A B -> exists L, B = [L] /\ (L = RM \/ L = RM2)).
    { intros A B G. destruct second; [apply rc_alt in G; destruct G as [G|G]|]; apply rc_same in G; destruct G; eauto. }
    apply GL in H3. apply GR in H5. apply GL in H7. apply GR in H9.
    destruct H3 as (L & -> & HL), H5 as (R & -> & HR), H7 as (L' & -> & HL'), H9 as (R' & -> & HR').
    exact (twice as_ B1 L R L' R' B10 HL HR HL' HR' E N).
Qed.
Lemma nr_sub second t X Y : no_repetition second t X Y -> t X Y.
Proof. unfold no_repetition. rewrite cc_iff. tauto. Qed.

Lemma filt_wrapped o as_ : fits o as_ -> filt (brackets o) (Bd :: ub as_ ++ [Bd]) = Bd :: txt (aread as_) ++ [Bd].
Proof.
  intros H. change (Bd :: ub as_ ++ [Bd]) with ([Bd] ++ ub as_ ++ [Bd]). rewrite !filt_app, filt_ub; auto.
  destruct o; reflexivity.
Qed.
Lemma lb1_ne a : lb1 a <> [].
Proof. destruct a; discriminate. Qed.
Lemma lb1_bd a : ~ In Bd (lb1 a).
Proof.
  destruct a; simpl; intros H; repeat (destruct H as [H|H]; [discriminate|]); auto;
  apply in_app_or in H; destruct H as [H|[H|[]]]; try discriminate; apply txt_plain in H; destruct H; discriminate.
Qed.
Lemma ub1_bd a : ~ In Bd (ub1 a).
Proof.
  destruct a; simpl; intros H; repeat (destruct H as [H|H]; [discriminate|]); auto;
  apply in_app_or in H; destruct H as [H|[H|[]]]; try discriminate; apply txt_plain in H; destruct H; discriminate.
Qed.
Lemma lb_bd as_ : ~ In Bd (lb as_).
Proof. unfold lb. rewrite in_flat_map. intros (a & _ & H). destruct (lb1_bd _ H). Qed.
Lemma ub_bd as_ : ~ In Bd (ub as_).
Proof. unfold ub. rewrite in_flat_map. intros (a & _ & H). destruct (ub1_bd _ H). Qed.
(** A text written with a boundary at each end and no other. *)
Lemma lbo_end os Y : flat_map lbo os = Y ++ [Bd] -> ~ In Bd Y -> exists as_, os = map Some as_ ++ [None].
Proof.
  revert Y. induction os as [|o os IH]; intros Y E N; simpl in E.
  - destruct Y; discriminate.
  - destruct o as [a|].
    + simpl in E. symmetry in E. apply app_eq_app in E. destruct E as (w & [(E1 & E2)|(E1 & E2)]).
      * destruct (IH w) as (as_ & ->); auto. { intros Hw. apply N. rewrite E1. apply in_or_app; auto. }
        exists (a :: as_). auto.
      * destruct w as [|b w].
        -- simpl in E2. rewrite app_nil_r in E1. destruct (IH []) as (as_ & ->); auto. exists (a :: as_). auto.
        -- simpl in E2. injection E2 as <- E2. exfalso. apply (lb1_bd a). rewrite E1. apply in_or_app. right; left; auto.
    + destruct Y as [|b Y]; simpl in E.
      * injection E as E. destruct os as [|o os]; [exists []; auto|]. destruct o as [a|]; [|discriminate].
        simpl in E. apply app_eq_nil in E. destruct E as (E & _). destruct (lb1_ne _ E).
      * injection E as <- E. destruct N. left; auto.
Qed.
Lemma lbo_wrapped os Y : flat_map lbo os = Bd :: Y ++ [Bd] -> ~ In Bd Y -> exists as_, os = None :: map Some as_ ++ [None].
Proof.
  intros E N. destruct os as [|o os]; [discriminate|]. destruct o as [a|].
  - destruct (lb1 a) as [|b w] eqn:Ea; [destruct (lb1_ne _ Ea)|]. simpl in E. rewrite Ea in E. simpl in E. injection E as -> _.
    exfalso. apply (lb1_bd a). rewrite Ea. left; auto.
  - simpl in E. injection E as E. apply lbo_end in E; auto. destruct E as (as_ & ->). eauto.
Qed.
Lemma filter_nb_wrapped as_ : filter nb (Bd :: ub as_ ++ [Bd]) = ub as_.
Proof. simpl. rewrite filter_app. simpl. rewrite app_nil_r. apply filter_nb_id. apply ub_bd. Qed.
Lemma filt_nb o X : filt (brackets o) (filter nb X) = filter nb (filt (brackets o) X).
Proof. unfold filt. apply filter_comm. Qed.

Section Boundary.
Variables (rs : list rule) (optional : bool).
Hypothesis Hu : forall r, In r rs -> usual r.
Hypothesis Hc : contexts_seen rs.
Lemma bounded x X Y : filt (brackets optional) X = txt x ->
  (apply_boundary (no_repetition (lists_second rs optional) (bracketed_rules rs optional)) X Y <->
   exists as_, good optional rs as_ /\ aonce as_ /\ X = ub as_ /\ Y = lb as_).
Proof using Hu Hc.
  intros EX.
  assert (Hsec : forall as_, good optional rs as_ -> lists_second rs optional = false -> forall z, ~ In (AL z) as_).
  { intros as_ Hg Hs z Hz. apply (good_fits _ _ _ Hg) in Hz. subst optional. destruct rs as [|r1 [|r2 rs']]; discriminate. }
  rewrite ab_iff. split.
  - intros (NY & X' & EX' & Hr). pose proof Hr as Ht. apply nr_sub in Ht.
    assert (Hs : forall s, In s (filt (brackets optional) X') -> s = Bd \/ exists a, s = Pl a).
    { intros s Hs. destruct (nb s) eqn:E; [right|left; destruct s; auto; discriminate].
      apply (txt_plain x). rewrite <- EX, EX', filt_nb. apply filter_In; auto. }
    destruct (rules_any rs optional X' _ Hu Ht Hs) as (os & E1 & E2 & Hok). symmetry in E2. apply lbo_wrapped in E2; auto.
    destruct E2 as (as_ & ->). fold (fo (None :: map Some as_ ++ [None])) in E1. rewrite fo_wrapped in E1.
    assert (Hf : fits optional as_).
    { intros z Hz. apply (Hok (AL z)). right. apply in_or_app. left. apply in_map; auto. }
    pose proof (filt_wrapped optional as_ Hf) as EF. rewrite <- E1 in EF.
    apply (rules_wrapped rs optional _ X' _ _ Hu Hc E1 EF) in Ht. destruct Ht as (as' & Hg & E3 & E4). exists as'. split; auto.
    split; [apply (nr_iff _ _ _ _ as' E3 (Hsec as' Hg)) in Hr; apply Hr|]. split.
    + rewrite EX', E3. apply filter_nb_wrapped.
    + injection E4 as E4. apply app_inv_tail in E4. auto.
  - intros (as_ & Hg & Ho & -> & ->). split; [apply lb_bd|]. exists (Bd :: ub as_ ++ [Bd]). split; [rewrite filter_nb_wrapped; auto|].
    apply (nr_iff _ _ _ _ as_); auto. split; auto.
    eapply rules_wrapped; eauto. apply filt_wrapped. eapply good_fits; eauto.
Qed.
End Boundary.

(** Pieces of the specification. *)
Definition conv (p : piece) : ap := match p with Keep a => AK a | Change x y => AC x y end.
Lemma read_conv ps : aread (map conv ps) = read ps.
Proof. induction ps as [|[a|x y] ps IH]; simpl; auto; rewrite IH; auto. Qed.
Lemma written_conv ps : awritten (map conv ps) = written ps.
Proof. induction ps as [|[a|x y] ps IH]; simpl; auto; rewrite IH; auto. Qed.
Lemma actx_conv r l rr : actx r (map conv l) (map conv rr) <-> in_context r l rr.
Proof. unfold actx, in_context. rewrite !read_conv, !written_conv. reflexivity. Qed.
Lemma actx_ext r l rr l' rr' : aread l = aread l' -> awritten l = awritten l' -> aread rr = aread rr' -> awritten rr = awritten rr' ->
  actx r l rr -> actx r l' rr'.
Proof. unfold actx. intros -> -> -> ->. auto. Qed.
Lemma good_conv o rs ps : good o rs (map conv ps) <-> licensed rs ps.
Proof.
  unfold good, licensed. split.
  - intros H l x y r ->. specialize (H (map conv l) (AC x y) (map conv r)). rewrite map_app in H. specialize (H eq_refl).
    destruct H as (ru & H1 & H2 & H3). exists ru. rewrite <- actx_conv. auto.
  - intros H l c r E. apply map_eq_app in E. destruct E as (l' & r' & -> & <- & E). destruct r' as [|p r']; [discriminate|].
    simpl in E. injection E as <- <-. destruct p as [a|x y]; simpl; auto. destruct (H l' x y r' eq_refl) as (ru & H1 & H2 & H3).
    exists ru. rewrite actx_conv. auto.
Qed.
Lemma once_conv ps : aonce (map conv ps) <-> once ps.
Proof.
  split.
  - intros H l y y' r ->. apply (H (map conv l) (AC [] y) (AC [] y') (map conv r)); auto. rewrite map_app. auto.
  - intros H l c d r E Ec Ed. apply map_eq_app in E. destruct E as (l' & r' & -> & <- & E). destruct r' as [|p [|q r']]; try discriminate.
    simpl in E. injection E as <- <- <-. destruct p as [a|x y]; [discriminate|]. destruct q as [a|x' y']; [discriminate|].
    simpl in Ec, Ed. subst. exact (H _ _ _ _ eq_refl).
Qed.
Definition abeside (l r : list ap) : Prop := (exists l' c, l = l' ++ [c] /\ ar1 c = []) \/ (exists d r', r = d :: r' /\ ar1 d = []).
Lemma beside_conv l r : abeside (map conv l) (map conv r) <-> beside_insertion l r.
Proof.
  split.
  - intros [(l' & c & E & Ec)|(d & r' & E & Ed)].
    + left. apply map_eq_app in E. destruct E as (l1 & l2 & -> & <- & E). destruct l2 as [|p [|q l2]]; try discriminate.
      injection E as <-. destruct p as [a|x y]; [discriminate|]. simpl in Ec. subst x. eauto.
    + right. destruct r as [|p r]; [discriminate|]. injection E as <- <-. destruct p as [a|x y]; [discriminate|]. simpl in Ed. subst x. eauto.
  - intros [(l' & y & ->)|(y & r' & ->)].
    + left. exists (map conv l'), (AC [] y). rewrite map_app. auto.
    + right. exists (AC [] y), (map conv r'). auto.
Qed.
Lemma once_more l x r : aonce (l ++ map AK x ++ r) -> x <> [] \/ ~ abeside l r -> aonce (l ++ AL x :: r).
Proof.
  intros H Hx l1 c d r1 E Ec Ed. apply app_eq_app in E. destruct E as (w & [(E1 & E2)|(E1 & E2)]).
  - destruct w as [|b w].
    + simpl in E2. injection E2 as -> E2. simpl in Ec. destruct Hx as [Hx|Hx]; [auto|]. apply Hx. right. eauto.
    + simpl in E2. injection E2 as <- E2. destruct w as [|b w].
      * simpl in E2. injection E2 as -> E2. simpl in Ed. destruct Hx as [Hx|Hx]; [auto|]. apply Hx. left. eauto.
      * simpl in E2. injection E2 as <- E2. subst l. apply (H l1 c d (w ++ map AK x ++ r)); auto. rewrite <- !app_assoc. auto.
  - destruct w as [|b w].
    + simpl in E2. injection E2 as <- E2. simpl in Ec. destruct Hx as [Hx|Hx]; [auto|]. apply Hx. right. eauto.
    + simpl in E2. injection E2 as <- E2. subst r. apply (H (l ++ map AK x ++ w) c d r1); auto. rewrite <- !app_assoc. auto.
Qed.
Lemma no_al as_ : (forall x, ~ In (AL x) as_) -> exists ps, as_ = map conv ps.
Proof.
  induction as_ as [|a l IH]; intros H; [exists []; auto|]. destruct IH as (ps & ->); [intros x Hx; apply (H x); right; auto|].
  destruct a as [a|x y|x]; [exists (Keep a :: ps) | exists (Change x y :: ps) | destruct (H x); left]; auto.
Qed.
Lemma conv_no_al ps x : ~ In (AL x) (map conv ps).
Proof. rewrite in_map_iff. intros ([a|y z] & E & _); discriminate. Qed.
Lemma conv_keep x : map conv (map Keep x) = map AK x.
Proof. rewrite map_map. reflexivity. Qed.
Lemma conv_fits o ps : fits o (map conv ps).
Proof. intros x Hx. destruct (conv_no_al _ _ Hx). Qed.
Lemma conv_inj ps qs : map conv ps = map conv qs -> ps = qs.
Proof.
  revert qs. induction ps as [|p ps IH]; intros [|q qs] E; simpl in E; try discriminate; auto.
  injection E as E1 E2. rewrite (IH qs E2). destruct p, q; simpl in E1; inversion E1; auto.
Qed.

(** Removal of markers. *)
Lemma fnb_txt x : filter not_bracket (txt x) = txt x.
Proof. induction x; simpl; auto. f_equal; auto. Qed.
Lemma fnb_ub ps : filter not_bracket (ub (map conv ps)) = txt (read ps).
Proof.
  induction ps as [|[a|x y] ps IH]; simpl; auto.
  - f_equal; auto.
  - rewrite filter_app, IH, filter_app, fnb_txt. simpl. rewrite app_nil_r, txt_app. auto.
Qed.
Lemma fnb_lb ps : filter not_bracket (lb (map conv ps)) = txt (written ps).
Proof.
  induction ps as [|[a|x y] ps IH]; simpl; auto.
  - f_equal; auto.
  - rewrite filter_app, IH, filter_app, fnb_txt. simpl. rewrite app_nil_r, txt_app. auto.
Qed.
Lemma fnb_filt o X x : filter not_bracket X = txt x -> filt (brackets o) X = txt x.
Proof.
  intros E. rewrite <- E. unfold filt. apply filter_ext_in. intros s Hs. destruct (not_bracket s) eqn:En.
  - assert (H : In s (txt x)) by (rewrite <- E; apply filter_In; auto). apply txt_plain in H. destruct H as (a & ->).
    apply nin_true. apply brackets_pl.
  - apply nin_false. destruct s; try discriminate; destruct o; simpl; auto.
Qed.
Lemma fnb_no2 X x : filter not_bracket X = txt x -> ~ In LM2 X /\ ~ In RM2 X.
Proof.
  intros E. split; intros H; assert (G : In LM2 (txt x) \/ In RM2 (txt x)) by (rewrite <- E; [left + right]; apply filter_In; auto);
  destruct G as [G|G]; apply txt_plain in G; destruct G; discriminate.
Qed.
Lemma no2_no_al as_ : ~ In LM2 (ub as_) -> exists ps, as_ = map conv ps.
Proof.
  intros H. apply no_al. intros x Hx. apply H. unfold ub. apply in_flat_map. exists (AL x). split; auto. left; auto.
Qed.
Lemma rb2_iff t X Y : remove_b2 t X Y <-> t X Y /\ ~ In LM2 X /\ ~ In RM2 X.
Proof.
  unfold remove_b2. rewrite cc_iff. split; intros (H & N); (split; [auto|]).
  - assert (G : ~ (In LM2 X \/ In RM2 X)); [|tauto]. intros Hi. apply N. exists X, Y. split; auto. apply rc_cat.
    destruct Hi as [Hi|Hi]; apply in_split in Hi; destruct Hi as (a & b & ->).
    + exists a, (LM2 :: b), a, (LM2 :: b). repeat split; auto; [apply rc_anything; auto|]. apply rc_cat. exists [LM2], b, [LM2], b.
      repeat split; auto; [apply rc_alt; left; apply rc_same; auto | apply rc_anything; auto].
    + exists a, (RM2 :: b), a, (RM2 :: b). repeat split; auto; [apply rc_anything; auto|]. apply rc_cat. exists [RM2], b, [RM2], b.
      repeat split; auto; [apply rc_alt; right; apply rc_same; auto | apply rc_anything; auto].
  - intros (X' & Y' & _ & Hc). apply rc_cat in Hc. destruct Hc as (A1 & A2 & B1 & B2 & _ & -> & _ & Hc).
    apply rc_cat in Hc. destruct Hc as (A3 & A4 & B3 & B4 & _ & -> & H3 & _). apply rc_alt in H3. rewrite !rc_same in H3.
    destruct N as (N1 & N2). destruct H3 as [(_ & ->)|(_ & ->)]; [apply N1 | apply N2]; apply in_or_app; right; left; auto.
Qed.

(** Most brackets. *)
Definition mb_step : pset := cat (alt (del LM) (del LM2)) (cat (star (any [LM; RM; LM2; RM2])) (cat (alt (del RM) (del RM2)) anything)).
Lemma mb_step_iff X Y : rel_of mb_step X Y <-> exists L w R z, (L = LM \/ L = LM2) /\ (R = RM \/ R = RM2) /\
  (forall s, In s w -> ~ In s [LM; RM; LM2; RM2]) /\ X = L :: w ++ R :: z /\ Y = w ++ z.
Proof.
  unfold mb_step. split.
  - intros H. apply rc_cat in H. destruct H as (A1 & A2 & B1 & B2 & -> & -> & H1 & H).
    apply rc_cat in H. destruct H as (A3 & A4 & B3 & B4 & -> & -> & H3 & H).
    apply rc_cat in H. destruct H as (A5 & A6 & B5 & B6 & -> & -> & H5 & H). apply rc_anything in H. subst B6.
    apply rc_star_any in H3. destruct H3 as (<- & H3).
    assert (exists L, (L = LM \/ L = LM2) /\ A1 = [L] /\ B1 = []) as (L & HL & -> & ->).
    { apply rc_alt in H1. rewrite !rc_del in H1. destruct H1 as [(-> & ->)|(-> & ->)]; eauto. }
    assert (exists R, (R = RM \/ R = RM2) /\ A5 = [R] /\ B5 = []) as (R & HR & -> & ->).
    { apply rc_alt in H5. rewrite !rc_del in H5. destruct H5 as [(-> & ->)|(-> & ->)]; eauto. }
    exists L, A3, R, A6. auto.
  - intros (L & w & R & z & HL & HR & Hw & -> & ->). apply rc_cat. exists [L], (w ++ R :: z), [], (w ++ z). repeat split; auto.
    + apply rc_alt. rewrite !rc_del. destruct HL as [->| ->]; auto.
    + apply rc_cat. exists w, (R :: z), w, z. repeat split; auto; [apply rc_star_any; auto|].
      apply rc_cat. exists [R], z, [], z. repeat split; auto; [|apply rc_anything; auto].
      apply rc_alt. rewrite !rc_del. destruct HR as [->| ->]; auto.
Qed.
Lemma mb_filt X Y : rel_of mb_step X Y -> filt (brackets false) X = filt (brackets false) Y.
Proof.
  rewrite mb_step_iff. intros (L & w & R & z & HL & HR & Hw & -> & ->).
  change (L :: w ++ R :: z) with ([L] ++ w ++ [R] ++ z). rewrite !filt_app.
  assert (E1 : filt (brackets false) [L] = []) by (destruct HL as [->| ->]; reflexivity).
  assert (E2 : filt (brackets false) [R] = []) by (destruct HR as [->| ->]; reflexivity).
  rewrite E1, E2. reflexivity.
Qed.
Lemma mb_star_filt X Y : rel_of (star mb_step) X Y -> filt (brackets false) X = filt (brackets false) Y.
Proof.
  apply (rc_star_ind mb_step (fun X Y => filt (brackets false) X = filt (brackets false) Y)); auto.
  intros X1 X2 Y1 Y2 H1 _ IH. rewrite !filt_app, IH, (mb_filt _ _ H1). auto.
Qed.
Lemma no_bracket_txt w x z : (forall s, In s w -> ~ In s [LM; RM; LM2; RM2]) -> filt (brackets false) (w ++ z) = txt x -> exists x1, w = txt x1.
Proof.
  intros H E. rewrite filt_app in E. apply plain_txt. intros s Hs. apply (txt_plain x). rewrite <- E. apply in_or_app. left.
  unfold filt. apply filter_In. split; auto. apply nin_true. simpl. apply H; auto.
Qed.
Lemma ub_read X as_ bs : ub as_ = X -> ub bs = X -> aread as_ = aread bs.
Proof.
  intros E1 E2. apply txt_inj. rewrite <- (filt_ub false), <- (filt_ub false), E1, E2; unfold fits; auto.
Qed.
Lemma aread_keeps x : aread (map AK x) = x.
Proof. induction x; simpl; auto. f_equal; auto. Qed.
Lemma awritten_keeps x : awritten (map AK x) = x.
Proof. induction x; simpl; auto. f_equal; auto. Qed.
Lemma mb_iff X Y : rel_of (cat anything (plus mb_step)) X Y <-> exists u X1 X2 Y1 Y2, X = u ++ X1 ++ X2 /\ Y = u ++ Y1 ++ Y2 /\
  rel_of mb_step X1 Y1 /\ rel_of (star mb_step) X2 Y2.
Proof.
  rewrite rc_cat. split.
  - intros (A1 & A2 & B1 & B2 & -> & -> & H1 & H2). apply rc_anything in H1. subst B1. apply rc_plus in H2.
    destruct H2 as (A3 & A4 & B3 & B4 & -> & -> & H3 & H4). exists A1, A3, A4, B3, B4. auto.
  - intros (u & X1 & X2 & Y1 & Y2 & -> & -> & H1 & H2). exists u, (X1 ++ X2), u, (Y1 ++ Y2). repeat split; auto.
    + apply rc_anything; auto.
    + apply rc_plus. eauto 10.
Qed.
Lemma bracket_sep (w : word) x R R' u u' : (forall s, In s w -> ~ In s [LM; RM; LM2; RM2]) -> In R [LM; RM; LM2; RM2] ->
  In R' [LM; RM; LM2; RM2] -> w ++ R :: u = txt x ++ R' :: u' -> w = txt x /\ R = R' /\ u = u'.
Proof.
  intros Hw HR HR'. revert x. induction w as [|s w IH]; intros [|a x] E; simpl in E.
  - inversion E; auto.
  - injection E as -> _. simpl in HR. repeat (destruct HR as [HR|HR]; [discriminate|]). destruct HR.
  - injection E as -> _. destruct (Hw R'); auto. left; auto.
  - injection E as -> E. apply IH in E; [|intros s Hs; apply Hw; right; auto]. destruct E as (-> & -> & ->). auto.
Qed.
(** Where the one with fewer brackets is a way to change the text, something is left in it. *)
Lemma less_brackets as' as_ : rel_of (cat anything (plus mb_step)) (ub as') (ub as_) ->
  exists l' c r' l r, as' = l' ++ c :: r' /\ as_ = l ++ map AK (ar1 c) ++ r /\ (forall a, c <> AK a) /\
    aread l = aread l' /\ aread r = aread r' /\ (aonce as' -> ar1 c <> [] \/ ~ abeside l r).
Proof.
  intros H. apply mb_iff in H. destruct H as (u & X1 & X2 & Y1 & Y2 & EX & EY & H1 & H2).
  pose proof (mb_star_filt _ _ H2) as F2.
  apply mb_step_iff in H1. destruct H1 as (L & w & R & z & HL & HR & Hw & -> & ->).
  assert (EX' : fo (map Some as') = u ++ L :: (w ++ R :: z ++ X2)).
  { rewrite fo_some, EX. simpl. rewrite <- app_assoc. reflexivity. }
  apply fo_split_l in EX'; auto. destruct EX' as (o1 & c & o2 & E1 & E2 & E3).
  apply map_some_split in E1. destruct E1 as (l' & r0 & -> & -> & E4).
  destruct r0 as [|c' r']; [discriminate|]. simpl in E4. injection E4 as -> ->. rewrite fo_some in E2, E3. subst u.
  assert (G : w = txt (ar1 c') /\ z ++ X2 = ub r' /\ forall a, c' <> AK a).
  { destruct c' as [a|x y|x]; simpl in E3; injection E3 as EL E3.
    - subst L. destruct HL; discriminate.
    - rewrite <- app_assoc in E3. simpl in E3. apply bracket_sep in E3; auto; [|destruct HR as [->| ->]; simpl; auto|simpl; auto].
      destruct E3 as (-> & _ & E3). simpl. split; auto. split; auto. discriminate.
    - rewrite <- app_assoc in E3. simpl in E3. apply bracket_sep in E3; auto; [|destruct HR as [->| ->]; simpl; auto|simpl; auto].
      destruct E3 as (-> & _ & E3). simpl. split; auto. split; auto. discriminate. }
  destruct G as (-> & E5 & G).
  rewrite <- fo_some, <- (fo_some l') in EY. apply fo_prefix in EY. destruct EY as (o1 & o2 & E6 & E7 & E8).
  apply map_some_split in E6. destruct E6 as (l & r1 & -> & -> & ->). rewrite !fo_some in E7. symmetry in E8.
  rewrite <- app_assoc in E8. apply fo_keep in E8. destruct E8 as (o3 & E9 & E10).
  symmetry in E9. unfold keeps in E9. rewrite <- (map_map AK Some) in E9. symmetry in E9. apply map_some_split in E9.
  destruct E9 as (k & r & -> & E11 & ->). assert (k = map AK (ar1 c')).
  { clear - E11. revert k E11. generalize (map AK (ar1 c')). induction l as [|a l IH]; intros [|b k] E; simpl in E; try discriminate; auto.
    injection E as -> E. f_equal; auto. }
  subst k. rewrite fo_some in E10.
  exists l', c', r', l, r. repeat split; auto.
  - eapply ub_read; eauto.
  - apply txt_inj. rewrite <- (filt_ub false r), <- (filt_ub false r') by (unfold fits; auto). rewrite <- E5, <- E10, !filt_app, F2. auto.
  - intros Ho. destruct (ar1 c') as [|b0 x0] eqn:Ec; [right|left; discriminate]. intros [(l1 & d & -> & Ed)|(d & r1 & -> & Ed)].
    + destruct (ar1_empty d Ed) as (L' & R' & HL' & HR' & ED & _).
      rewrite ub_app in E7. change (ub [d]) with (ub1 d ++ []) in E7. rewrite ED in E7. cbn [app] in E7.
      symmetry in E7. rewrite <- fo_some in E7. apply fo_split_l in E7; auto. destruct E7 as (o1 & e & o4 & F3 & _ & F4).
      apply map_some_split in F3. destruct F3 as (l0 & l3 & -> & _ & F5). destruct l3 as [|e' l3]; [discriminate|].
      simpl in F5. injection F5 as -> ->. apply empty_ar1 in F4; auto. destruct F4 as (Ee & F4).
      destruct l3 as [|g l3].
      * apply (Ho l0 e' c' r'); auto. rewrite <- app_assoc. auto.
      * simpl in F4. destruct g; discriminate.
    + destruct (ar1_empty d Ed) as (L' & R' & HL' & HR' & ED & _).
      change (ub (d :: r1)) with (ub1 d ++ ub r1) in E10. rewrite ED in E10. cbn [app] in E10.
      assert (G2 : exists d' r2, r' = d' :: r2 /\ ar1 d' = []).
      { destruct z as [|s1 [|s2 z]]; cbn [app] in E5, E10.
        - subst Y2. apply rc_star in H2. destruct H2 as [(_ & F)|(A1 & A2 & B1 & B2 & -> & F & H3 & _)]; [discriminate|].
          apply mb_step_iff in H3. destruct H3 as (L1 & w & R1 & z1 & HL1 & HR1 & Hw1 & -> & ->).
          destruct w as [|s w].
          + simpl in E5. symmetry in E5. apply starts_empty in E5; auto.
          + simpl in F. injection F as <- _. destruct (Hw1 L' (or_introl eq_refl)). destruct HL' as [->| ->]; simpl; auto.
        - injection E10 as -> E10. subst Y2. apply rc_star in H2. destruct H2 as [(_ & F)|(A1 & A2 & B1 & B2 & -> & F & H3 & _)]; [discriminate|].
          apply mb_step_iff in H3. destruct H3 as (L1 & w & R1 & z1 & HL1 & HR1 & Hw1 & -> & ->).
          exfalso. destruct r' as [|[a|x y|x] r']; simpl in E5; try discriminate; injection E5 as E5 E6; subst.
          + destruct HL'; discriminate.
          + destruct x as [|b x]; simpl in E6; injection E6 as -> _; destruct HL1; discriminate.
          + destruct x as [|b x]; simpl in E6; injection E6 as -> _; destruct HL1; discriminate.
        - injection E10 as -> -> _. symmetry in E5. apply starts_empty in E5; auto. }
      destruct G2 as (d' & r2 & -> & Ed'). exact (Ho l' c' d' r2 eq_refl Ec Ed').
Qed.
(** Brackets can be added. *)
Lemma more_brackets rs l x r ru y : good false rs (l ++ map AK x ++ r) -> In ru rs -> maps ru x y -> actx ru l r ->
  good false rs (l ++ AL x :: r) /\ lb (l ++ AL x :: r) = lb (l ++ AL x :: r) /\
  rel_of (cat anything (plus mb_step)) (ub (l ++ AL x :: r)) (ub (l ++ map AK x ++ r)).
Proof.
  intros Hg Hin Hm Hx. split; [|split; auto].
  - intros l1 c r1 E. apply app_eq_app in E. destruct E as (w & [(E1 & E2)|(E1 & E2)]).
    + subst l. destruct w as [|b w].
      * simpl in E2. injection E2 as -> ->. rewrite app_nil_r in Hx. simpl. split; auto. exists ru, y. auto.
      * simpl in E2. injection E2 as <- ->. rewrite <- app_assoc in Hg. simpl in Hg. specialize (Hg l1 c (w ++ map AK x ++ r) eq_refl).
        assert (R1 : aread (w ++ map AK x ++ r) = aread (w ++ AL x :: r)) by (rewrite !aread_app, aread_keeps; auto).
        assert (R2 : awritten (w ++ map AK x ++ r) = awritten (w ++ AL x :: r)) by (rewrite !awritten_app, awritten_keeps; auto).
        destruct c as [a|x1 y1|x1]; simpl in *; auto.
        -- destruct Hg as (ru1 & H1 & H2 & H3). exists ru1. repeat split; auto. eapply actx_ext; [| | | |exact H3]; auto.
        -- destruct Hg as (O & ru1 & y1 & H1 & H2 & H3). split; auto. exists ru1, y1. repeat split; auto. eapply actx_ext; [| | | |exact H3]; auto.
    + destruct w as [|b w].
      * simpl in E2. injection E2 as <- <-. rewrite app_nil_r in E1. subst l1. simpl. split; auto. exists ru, y. auto.
      * simpl in E2. injection E2 as <- ->. specialize (Hg (l ++ map AK x ++ w) c r1).
        rewrite <- !app_assoc in Hg. specialize (Hg eq_refl). subst l1.
        assert (R1 : aread (l ++ map AK x ++ w) = aread (l ++ AL x :: w)) by (rewrite !aread_app, aread_keeps; auto).
        assert (R2 : awritten (l ++ map AK x ++ w) = awritten (l ++ AL x :: w)) by (rewrite !awritten_app, awritten_keeps; auto).
        destruct c as [a|x1 y1|x1]; simpl in *; auto.
        -- destruct Hg as (ru1 & H1 & H2 & H3). exists ru1. repeat split; auto. eapply actx_ext; [| | | |exact H3]; auto.
        -- destruct Hg as (O & ru1 & y1 & H1 & H2 & H3). split; auto. exists ru1, y1. repeat split; auto. eapply actx_ext; [| | | |exact H3]; auto.
  - apply mb_iff. exists (ub l), (LM2 :: txt x ++ RM2 :: ub r), [], (txt x ++ ub r), []. rewrite !app_nil_r.
    split; [|split; [|split]].
    + rewrite ub_app. simpl. rewrite <- app_assoc. auto.
    + rewrite !ub_app. rewrite <- (fo_some (map AK x)), map_map. change (map _ x) with (keeps x). rewrite fo_keeps. auto.
    + apply mb_step_iff. exists LM2, (txt x), RM2, (ub r). repeat split; auto. intros s Hs. apply txt_plain in Hs. destruct Hs as (a & ->).
      simpl. intros H. repeat (destruct H as [H|H]; [discriminate|]). auto.
    + apply rc_star. left; auto.
Qed.

(** Replacement. *)
Section Replace.
Variable rs : list rule.
Hypothesis Hu : forall r, In r rs -> usual r.
Hypothesis Hc : contexts_seen rs.
Theorem replace_optional x Y : replace rs true (txt x) Y <-> exists y, Y = txt y /\ optionally rs x y.
Proof using Hu Hc.
  unfold replace, remove_markers. split.
  - intros (X' & Y' & H & EX & EY). apply rb2_iff in H. destruct H as (H & N & _). symmetry in EX.
    apply (bounded rs true Hu Hc x) in H; [|apply fnb_filt; auto]. destruct H as (as_ & Hg & Ho & -> & ->).
    destruct (no2_no_al as_ N) as (ps & ->). rewrite fnb_ub in EX. rewrite fnb_lb in EY. apply txt_inj in EX.
    exists (written ps). split; auto. exists ps. rewrite good_conv in Hg. rewrite once_conv in Ho. auto.
  - intros (y & -> & ps & <- & <- & Hl & Ho). exists (ub (map conv ps)), (lb (map conv ps)). rewrite fnb_ub, fnb_lb. split; auto.
    assert (E : filter not_bracket (ub (map conv ps)) = txt (read ps)) by apply fnb_ub.
    apply rb2_iff. split; [|eapply fnb_no2; eauto]. apply (bounded rs true Hu Hc (read ps)); [apply fnb_filt; auto|].
    exists (map conv ps). rewrite good_conv, once_conv. auto.
Qed.
Lemma obligatory_iff x Y : replace rs false (txt x) Y <-> exists ps, x = read ps /\ Y = txt (written ps) /\ licensed rs ps /\ once ps /\
  ~ exists as', good false rs as' /\ aonce as' /\ rel_of (cat anything (plus mb_step)) (ub as') (ub (map conv ps)).
Proof using Hu Hc.
  unfold replace, remove_markers. split.
  - intros (X' & Y' & H & EX & EY). apply rb2_iff in H. destruct H as (H & N & _). symmetry in EX.
    unfold most_brackets in H. apply cc_iff in H. fold mb_step in H. destruct H as (H & M).
    pose proof (fnb_filt false _ _ EX) as EF.
    apply (bounded rs false Hu Hc x) in H; auto. destruct H as (as_ & Hg & Ho & -> & ->).
    destruct (no2_no_al as_ N) as (ps & ->). rewrite fnb_ub in EX. rewrite fnb_lb in EY. apply txt_inj in EX.
    exists ps. rewrite good_conv in Hg. rewrite once_conv in Ho. repeat (split; [assumption || auto|]). intros (as' & Hg' & Ho' & Hd). apply M. exists (ub as'), (lb as'). split; auto.
    apply (bounded rs false Hu Hc (aread as')); eauto 6. apply filt_ub. unfold fits; auto.
  - intros (ps & -> & -> & Hl & Ho & M). exists (ub (map conv ps)), (lb (map conv ps)). rewrite fnb_ub, fnb_lb. split; auto.
    assert (E : filter not_bracket (ub (map conv ps)) = txt (read ps)) by apply fnb_ub.
    apply rb2_iff. split; [|eapply fnb_no2; eauto]. unfold most_brackets. apply cc_iff. fold mb_step. split.
    + apply (bounded rs false Hu Hc (read ps)); [apply fnb_filt; auto|]. exists (map conv ps). rewrite good_conv, once_conv. auto.
    + intros (X' & Y' & H & Hd). apply M.
      assert (EF : filt (brackets false) X' = txt (read ps)).
      { pose proof Hd as Hd'. apply mb_iff in Hd'. destruct Hd' as (u & X1 & X2 & Y1 & Y2 & -> & E2 & H1 & H2).
        rewrite !filt_app, (mb_filt _ _ H1), (mb_star_filt _ _ H2), <- !filt_app, <- E2. apply fnb_filt; auto. }
      apply (bounded rs false Hu Hc (read ps)) in H; auto. destruct H as (as' & Hg & Ho' & -> & _). eauto.
Qed.
Theorem replace_obligatory_sound x Y : replace rs false (txt x) Y -> exists y, Y = txt y /\ obligatorily rs x y.
Proof using Hu Hc.
  rewrite obligatory_iff. intros (ps & -> & -> & Hl & Ho & M). exists (written ps). split; auto. exists ps. repeat (split; [assumption || auto|]).
  intros l x r -> Hx (y & ru & H1 & H2 & H3). apply M. exists (map conv l ++ AL x :: map conv r).
  destruct (more_brackets rs (map conv l) x (map conv r) ru y) as (G1 & _ & G2); auto.
  - rewrite <- conv_keep, <- !map_app. apply good_conv; auto.
  - apply actx_conv; auto.
  - split; auto. rewrite !map_app, conv_keep. split; auto. apply once_more.
    + rewrite <- conv_keep, <- !map_app. apply once_conv; auto.
    + rewrite beside_conv. auto.
Qed.
Theorem replace_obligatory_up x Y : upward rs -> (replace rs false (txt x) Y <-> exists y, Y = txt y /\ obligatorily rs x y).
Proof using Hu Hc.
  intros Hup. split; [apply replace_obligatory_sound|]. intros (y & -> & ps & <- & <- & Hl & Ho & Hn). apply obligatory_iff. exists ps.
  repeat (split; [assumption || auto|]). intros (as' & Hg & Ho' & Hd). apply less_brackets in Hd.
  destruct Hd as (l' & c & r' & l & r & -> & E & Hk & El & Er & Hb). specialize (Hb Ho').
  assert (G : exists p1 p2, ps = p1 ++ map Keep (ar1 c) ++ p2 /\ l = map conv p1 /\ r = map conv p2).
  { apply map_eq_app in E. destruct E as (p1 & p2 & -> & <- & E). apply map_eq_app in E. destruct E as (p3 & p4 & -> & E & <-).
    rewrite <- conv_keep in E. apply conv_inj in E. subst p3. eauto. }
  destruct G as (p1 & p2 & -> & -> & ->). specialize (Hg l' c r' eq_refl). rewrite beside_conv in Hb. apply (Hn p1 (ar1 c) p2 eq_refl Hb).
  rewrite read_conv in El, Er.
  assert (K : forall ru, In ru rs -> actx ru l' r' -> in_context ru p1 p2).
  { intros ru Hin (cx & H1 & H2 & H3). exists cx. split; auto. rewrite (Hup ru Hin) in *. rewrite El, Er. auto. }
  destruct c as [a|x y|x]; simpl in Hg |- *; [destruct (Hk a); auto| |].
  - destruct Hg as (ru & H1 & H2 & H3). exists y, ru. auto.
  - destruct Hg as (_ & ru & y & H1 & H2 & H3). exists y, ru. auto.
Qed.
End Replace.
