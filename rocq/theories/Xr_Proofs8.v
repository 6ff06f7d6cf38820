(** Proofs about the replace rules: restriction, before and after. *)
From Verif Require Import Base Xr_Model Xr_Spec Xr_Proofs1 Xr_Proofs2 Xr_Proofs3 Xr_Proofs4.

(** Sets of identity pairs. *)
Definition idset (P : pset) (L : lang) : Prop := forall p, P p <-> exists w, p = idw w /\ L w.
Definition catl (L M : lang) : lang := fun w => exists u v, w = u ++ v /\ L u /\ M v.
Lemma idw_app u v : idw (u ++ v) = idw u ++ idw v.
Proof. apply map_app. Qed.
Lemma idw_inj u v : idw u = idw v -> u = v.
Proof. intros E. rewrite <- (up_idw u), E, up_idw. auto. Qed.
Lemma id_cat P Q L M : idset P L -> idset Q M -> idset (cat P Q) (catl L M).
Proof.
  intros HP HQ p. unfold cat, catl. split.
  - intros (q & r & -> & Hq & Hr). apply HP in Hq. apply HQ in Hr. destruct Hq as (u & -> & Hu). destruct Hr as (v & -> & Hv).
    exists (u ++ v). rewrite idw_app. split; eauto 8.
  - intros (w & -> & u & v & -> & Hu & Hv). exists (idw u), (idw v). rewrite idw_app. split; auto. split; [apply HP | apply HQ]; eauto.
Qed.
Lemma id_same s : idset (same s) (fun w => w = [s]).
Proof. intros p. unfold same, one. split; [intros ->; exists [s]; auto | intros (w & -> & ->); auto]. Qed.
Lemma id_aut L : idset (aut L) L.
Proof. intros p. unfold aut. split; intros (w & H1 & H2); eauto. Qed.
Lemma id_star_any k : idset (star (any k)) (fun w => forall s, In s w -> ~ In s k).
Proof.
  intros p. unfold star, any. split.
  - intros (l & Hl & ->). induction Hl as [|q l (s & Hs & ->) Hl IH]; [exists []; split; auto; intros s []|].
    destruct IH as (w & E & Hw). exists (s :: w). simpl. rewrite E. split; auto. intros t [<-|Ht]; auto.
  - intros (w & -> & Hw). induction w as [|s w IH]; [exists []; auto|]. destruct IH as (l & Hl & E); [intros t Ht; apply Hw; right; auto|].
    exists ([(Some s, Some s)] :: l). split; [constructor; auto; exists s; split; auto; apply Hw; left; auto|]. simpl. rewrite E. auto.
Qed.
Lemma id_sub P Q L M : idset P L -> idset Q M -> idset (sub P Q) (fun w => L w /\ ~ M w).
Proof.
  intros HP HQ p. unfold sub. split.
  - intros (H1 & H2). apply HP in H1. destruct H1 as (w & -> & Hw). exists w. split; auto. split; auto. intros Hm. apply H2. apply HQ; eauto.
  - intros (w & -> & H1 & H2). split; [apply HP; eauto|]. intros H. apply HQ in H. destruct H as (w' & E & Hm). apply idw_inj in E. subst w'. auto.
Qed.
Lemma id_ex {I} (P : I -> pset) (L : I -> lang) (K : I -> Prop) : (forall i, idset (P i) (L i)) ->
  idset (fun p => exists i, K i /\ P i p) (fun w => exists i, K i /\ L i w).
Proof.
  intros H p. split.
  - intros (i & Hk & Hp). apply H in Hp. destruct Hp as (w & -> & Hw). eauto.
  - intros (w & -> & i & Hk & Hw). exists i. split; auto. apply H; eauto.
Qed.
Lemma id_rel P L X Y : idset P L -> (rel_of P X Y <-> X = Y /\ L X).
Proof.
  intros H. unfold rel_of. split.
  - intros (p & Hp & <- & <-). apply H in Hp. destruct Hp as (w & -> & Hw). rewrite up_idw, down_idw. auto.
  - intros (<- & Hl). exists (idw X). rewrite up_idw, down_idw. split; auto. apply H; eauto.
Qed.

(** before and after. *)
Lemma id_anything : idset anything (fun _ => True).
Proof.
  intros p. unfold anything. rewrite (id_star_any [] p). split; intros (w & -> & _); exists w; split; auto.
Qed.
Lemma prec_iff (l m : lang) X Y : rel_of (sub anything (cat anything (cat (aut l) (cat anything (cat (aut m) anything))))) X Y <->
  X = Y /\ ~ exists u a w b v, X = u ++ a ++ w ++ b ++ v /\ l a /\ m b.
Proof.
  rewrite (id_rel _ _ X Y (id_sub _ _ _ _ id_anything (id_cat _ _ _ _ id_anything (id_cat _ _ _ _ (id_aut l) (id_cat _ _ _ _ id_anything (id_cat _ _ _ _ (id_aut m) id_anything)))))).
  unfold catl. split.
  - intros (<- & _ & N). split; auto. intros (u & a & w & b & v & -> & Ha & Hb). apply N. exists u, (a ++ w ++ b ++ v). split; auto. split; auto.
    exists a, (w ++ b ++ v). split; auto. split; auto. exists w, (b ++ v). split; auto. split; auto. exists b, v. auto.
  - intros (<- & N). split; auto. split; auto. intros (u & z & E1 & _ & a & z1 & E2 & Ha & w & z2 & E3 & _ & b & v & E4 & Hb & _).
    subst. apply N. exists u, a, w, b, v. auto.
Qed.
Lemma txt_app_inv x u v : txt x = u ++ v -> exists a b, x = a ++ b /\ u = txt a /\ v = txt b.
Proof. intros E. unfold txt in E. apply map_eq_app in E. destruct E as (a & b & -> & <- & <-). eauto. Qed.
Lemma prec_txt (l m : lang) x Y : rel_of (sub anything (cat anything (cat (aut l) (cat anything (cat (aut m) anything))))) (txt x) Y <->
  Y = txt x /\ ~ precedes l m x.
Proof.
  rewrite prec_iff. unfold precedes. split.
  - intros (<- & N). split; auto. intros (u & a & w & b & v & -> & Ha & Hb). apply N. exists (txt u), (txt a), (txt w), (txt b), (txt v).
    rewrite !txt_app. auto.
  - intros (-> & N). split; auto. intros (u & a & w & b & v & E & Ha & Hb). apply N.
    apply txt_app_inv in E. destruct E as (u' & z & -> & -> & E). symmetry in E. apply txt_app_inv in E. destruct E as (a' & z1 & -> & -> & E).
    symmetry in E. apply txt_app_inv in E. destruct E as (w' & z2 & -> & -> & E). symmetry in E. apply txt_app_inv in E.
    destruct E as (b' & v' & -> & -> & ->). exists u', a', w', b', v'. auto.
Qed.

(** restriction. *)
Definition nt (s : sym) : bool := match s with Tm => false | _ => true end.
Lemma ins_tm x X : rel_of (star (alt (ins Tm) (any [Tm]))) x X <-> x = filter nt X.
Proof.
  split.
  - revert x X. apply rc_star_ind; auto. intros X1 X2 Y1 Y2 H _ ->. rewrite filter_app. f_equal.
    apply rc_alt in H. destruct H as [H|H]; [apply rc_ins in H; destruct H as (-> & ->); auto|].
    apply rc_any in H. destruct H as (s & Hs & -> & ->). simpl. destruct s; auto. destruct Hs; left; auto.
  - intros ->. induction X as [|s X IH]; simpl; apply rc_star; [left; auto|]. right. destruct (nt s) eqn:E.
    + exists [s], (filter nt X), [s], X. repeat split; auto. apply rc_alt. right. apply rc_any. exists s. split; auto.
      intros [<-|[]]; discriminate.
    + exists [], (filter nt X), [s], X. repeat split; auto. apply rc_alt. left. apply rc_ins. destruct s; try discriminate; auto.
Qed.
Lemma del_tm X x : rel_of (star (alt (del Tm) (any [Tm]))) X x <-> x = filter nt X.
Proof.
  split.
  - revert X x. apply rc_star_ind; auto. intros X1 X2 Y1 Y2 H _ ->. rewrite filter_app. f_equal.
    apply rc_alt in H. destruct H as [H|H]; [apply rc_del in H; destruct H as (-> & ->); auto|].
    apply rc_any in H. destruct H as (s & Hs & -> & ->). simpl. destruct s; auto. destruct Hs; left; auto.
  - intros ->. induction X as [|s X IH]; simpl; apply rc_star; [left; auto|]. right. destruct (nt s) eqn:E.
    + exists [s], X, [s], (filter nt X). repeat split; auto. apply rc_alt. right. apply rc_any. exists s. split; auto.
      intros [<-|[]]; discriminate.
    + exists [s], X, [], (filter nt X). repeat split; auto. apply rc_alt. left. apply rc_del. destruct s; try discriminate; auto.
Qed.
Lemma filter_nt_id w : ~ In Tm w -> filter nt w = w.
Proof.
  intros H. induction w as [|s w IH]; simpl; auto. destruct (nt s) eqn:E.
  - rewrite IH; auto. intros Hi. apply H; right; auto.
  - exfalso. apply H. left. destruct s; auto; discriminate.
Qed.
Lemma notin_any w : (forall s, In s w -> ~ In s [Tm]) <-> ~ In Tm w.
Proof. split; [intros H Hi; apply (H _ Hi); left; auto | intros H s Hs [<-|[]]; auto]. Qed.
Lemma tm_eq u u' v v' : ~ In Tm u -> ~ In Tm u' -> u ++ Tm :: v = u' ++ Tm :: v' -> u = u' /\ v = v'.
Proof.
  revert u'. induction u as [|s u IH]; intros [|s' u'] H H' E; simpl in E.
  - inversion E; auto.
  - injection E as <- _. destruct H'; left; auto.
  - injection E as -> _. destruct H; left; auto.
  - injection E as -> E. apply IH in E; [destruct E as (-> & ->); auto | intros Hi; apply H; right; auto | intros Hi; apply H'; right; auto].
Qed.
(** The texts in which the center is somewhere outside the contexts. *)
Definition outside (center : lang) (cs : list (lang * lang)) (w : word) : Prop :=
  exists u c v, w = u ++ c ++ v /\ center c /\ ~ In Tm w /\
    ~ exists l r, In (l, r) cs /\ (exists u1 u2, u = u1 ++ u2 /\ l u2) /\ exists v1 v2, v = v1 ++ v2 /\ r v1.
Lemma restriction_iff center cs X Y : restriction center cs X Y <->
  X = Y /\ ~ In Bd X /\ ~ In Tm X /\ ~ outside center cs (Bd :: X ++ [Bd]).
Proof.
  unfold restriction. rewrite ab_iff.
  set (cm := cat (star (any [Tm])) (cat (same Tm) (cat (aut (fun w => center w /\ ~ In Tm w)) (cat (same Tm) (star (any [Tm])))))).
  set (xm := fun p => exists l r, In (l, r) cs /\ cat (star (any [Tm])) (cat (aut (fun w => l w /\ ~ In Tm w)) (cat (same Tm)
    (cat (star (any [Tm])) (cat (same Tm) (cat (aut (fun w => r w /\ ~ In Tm w)) (star (any [Tm]))))))) p).
  assert (ICm : idset cm (fun w => exists u c v, w = u ++ Tm :: c ++ Tm :: v /\ center c /\ ~ In Tm u /\ ~ In Tm c /\ ~ In Tm v)).
  { intros p. unfold cm. rewrite (id_cat _ _ _ _ (id_star_any [Tm]) (id_cat _ _ _ _ (id_same Tm) (id_cat _ _ _ _ (id_aut _) (id_cat _ _ _ _ (id_same Tm) (id_star_any [Tm])))) p).
    unfold catl. split; intros (w & -> & H); exists w; split; auto.
    - destruct H as (u & z & -> & Hu & t & z1 & -> & -> & c & z2 & -> & (Hc1 & Hc2) & t' & v & -> & -> & Hv). exists u, c, v.
      rewrite notin_any in Hu, Hv. auto.
    - destruct H as (u & c & v & -> & H1 & H2 & H3 & H4). exists u, (Tm :: c ++ Tm :: v). rewrite notin_any. split; auto. split; auto.
      exists [Tm], (c ++ Tm :: v). split; auto. split; auto. exists c, (Tm :: v). split; auto. split; auto. exists [Tm], v. rewrite notin_any. auto. }
  assert (IXm : idset xm (fun w => exists l r, In (l, r) cs /\ exists u1 u2 m v1 v2, w = (u1 ++ u2) ++ Tm :: m ++ Tm :: v1 ++ v2 /\ l u2 /\ r v1 /\
     ~ In Tm u1 /\ ~ In Tm u2 /\ ~ In Tm m /\ ~ In Tm v1 /\ ~ In Tm v2)).
  { intros p. unfold xm. split.
    - intros (l & r & Hin & H). apply (id_cat _ _ _ _ (id_star_any [Tm]) (id_cat _ _ _ _ (id_aut _) (id_cat _ _ _ _ (id_same Tm) (id_cat _ _ _ _ (id_star_any [Tm])
        (id_cat _ _ _ _ (id_same Tm) (id_cat _ _ _ _ (id_aut _) (id_star_any [Tm]))))))) in H.
      destruct H as (w & -> & u1 & z & -> & H1 & u2 & z1 & -> & (H2 & H2') & t & z2 & -> & -> & m & z3 & -> & H3 & t' & z4 & -> & -> & v1 & v2 & -> & (H4 & H4') & H5).
      eexists. split; [reflexivity|]. exists l, r. split; auto. exists u1, u2, m, v1, v2. rewrite notin_any in H1, H3, H5. rewrite <- app_assoc. repeat split; auto.
    - intros (w & -> & l & r & Hin & u1 & u2 & m & v1 & v2 & -> & H1 & H2 & H3 & H4 & H5 & H6 & H7). exists l, r. split; auto.
      apply (id_cat _ _ _ _ (id_star_any [Tm]) (id_cat _ _ _ _ (id_aut _) (id_cat _ _ _ _ (id_same Tm) (id_cat _ _ _ _ (id_star_any [Tm])
        (id_cat _ _ _ _ (id_same Tm) (id_cat _ _ _ _ (id_aut _) (id_star_any [Tm]))))))).
      eexists. split; [reflexivity|]. exists u1, (u2 ++ Tm :: m ++ Tm :: v1 ++ v2). rewrite notin_any, <- app_assoc. split; auto. split; auto.
      exists u2, (Tm :: m ++ Tm :: v1 ++ v2). split; auto. split; auto. exists [Tm], (m ++ Tm :: v1 ++ v2). split; auto. split; auto.
      exists m, (Tm :: v1 ++ v2). rewrite notin_any. split; auto. split; auto. exists [Tm], (v1 ++ v2). split; auto. split; auto.
      exists v1, v2. rewrite notin_any. auto. }
  pose proof (id_sub _ _ _ _ ICm IXm) as IM.
  assert (Tmp : forall w, comp (comp (rel_of (star (alt (ins Tm) (any [Tm])))) (rel_of (sub cm xm))) (rel_of (star (alt (del Tm) (any [Tm])))) w w <-> outside center cs w).
  { intros w. unfold comp, outside. split.
    - intros (V' & (V & H1 & H2) & _). apply ins_tm in H1. apply (id_rel _ _ _ _ IM) in H2.
      destruct H2 as (<- & (u & c & v & -> & Hce & Hu & Hcn & Hv) & N).
      assert (Ew : w = u ++ c ++ v).
      { rewrite H1. rewrite filter_app. simpl. rewrite filter_app. simpl. rewrite !filter_nt_id; auto. }
      exists u, c, v. split; auto. split; auto. split.
      + rewrite Ew. intros Hi. apply in_app_or in Hi. destruct Hi as [Hi|Hi]; auto. apply in_app_or in Hi. destruct Hi; auto.
      + intros (l & r & Hin & (u1 & u2 & -> & Hl) & v1 & v2 & -> & Hr). apply N. exists l, r. split; auto. exists u1, u2, c, v1, v2.
        repeat split; auto; intros Hi; [apply Hu | apply Hu | apply Hv | apply Hv]; apply in_or_app; auto.
    - intros (u & c & v & -> & Hce & Hn & N).
      assert (Hu : ~ In Tm u) by (intros Hi; apply Hn; apply in_or_app; auto).
      assert (Hcn : ~ In Tm c) by (intros Hi; apply Hn; apply in_or_app; right; apply in_or_app; auto).
      assert (Hv : ~ In Tm v) by (intros Hi; apply Hn; apply in_or_app; right; apply in_or_app; auto).
      assert (Ew : u ++ c ++ v = filter nt (u ++ Tm :: c ++ Tm :: v)).
      { rewrite filter_app. simpl. rewrite filter_app. simpl. rewrite !filter_nt_id; auto. }
      exists (u ++ Tm :: c ++ Tm :: v). split; [|apply del_tm; auto]. exists (u ++ Tm :: c ++ Tm :: v). split; [apply ins_tm; auto|].
      apply (id_rel _ _ _ _ IM). split; auto. split; [exists u, c, v; auto|].
      intros (l & r & Hin & u1 & u2 & m & v1 & v2 & E & Hl & Hr & A1 & A2 & A3 & A4 & A5).
      apply tm_eq in E; auto; [|intros Hi; apply in_app_or in Hi; destruct Hi; auto]. destruct E as (-> & E).
      apply tm_eq in E; auto. destruct E as (_ & ->). apply N. exists l, r. split; auto. split; eauto. }
  assert (Res : forall X0 Y0, rel_of (sub (star (any [Tm])) (fun p => exists w, p = idw w /\
      comp (comp (rel_of (star (alt (ins Tm) (any [Tm])))) (rel_of (sub cm xm))) (rel_of (star (alt (del Tm) (any [Tm])))) w w)) X0 Y0 <->
      X0 = Y0 /\ ~ In Tm X0 /\ ~ outside center cs X0).
  { intros X0 Y0. assert (I2 : idset (fun p => exists w, p = idw w /\
      comp (comp (rel_of (star (alt (ins Tm) (any [Tm])))) (rel_of (sub cm xm))) (rel_of (star (alt (del Tm) (any [Tm])))) w w) (outside center cs)).
    { intros p. split; intros (w & E & H); exists w; split; auto; apply Tmp; auto. }
    rewrite (id_rel _ _ X0 Y0 (id_sub _ _ _ _ (id_star_any [Tm]) I2)), notin_any. tauto. }
  split.
  - intros (NY & X0 & EX & H). apply Res in H. destruct H as (-> & H1 & H2).
    assert (E : X = Y). { rewrite EX. simpl. rewrite filter_app. simpl. rewrite app_nil_r. apply filter_nb_id; auto. }
    subst Y. split; auto. split; auto. split; auto. intros Hi. apply H1. right. apply in_or_app; auto.
  - intros (<- & H1 & H2 & H3). split; auto. exists (Bd :: X ++ [Bd]). split.
    + simpl. rewrite filter_app. simpl. rewrite app_nil_r. symmetry. apply filter_nb_id; auto.
    + apply Res. split; auto. split; auto. intros [Hi|Hi]; [discriminate|]. apply in_app_or in Hi. destruct Hi as [Hi|[Hi|[]]]; auto. discriminate.
Qed.
Lemma dec_ctxs cs u v : (forall l r, In (l, r) cs -> decided l /\ decided r) ->
  (exists l r, In (l, r) cs /\ ends_in l u /\ starts_with r v) \/ ~ exists l r, In (l, r) cs /\ ends_in l u /\ starts_with r v.
Proof.
  intros H. destruct (dec_list (fun lr => ends_in (fst lr) u /\ starts_with (snd lr) v) cs) as [((l & r) & H1 & H2)|N].
  - intros (l & r) Hin. destruct (H l r Hin) as (D1 & D2). apply dec_and; simpl; [apply dec_suffix; auto|].
    apply dec_prefix; auto.
  - left. exists l, r. auto.
  - right. intros (l & r & H1 & H2). apply N. exists (l, r). auto.
Qed.
(** A center of the user's symbols, not empty, lies between the boundaries. *)
Lemma inside x u c v : Bd :: txt x ++ [Bd] = u ++ txt c ++ v -> c <> [] -> exists u' v', u = Bd :: txt u' /\ v = txt v' ++ [Bd] /\ x = u' ++ c ++ v'.
Proof.
  intros E Hn. destruct c as [|a c]; [congruence|]. destruct u as [|s u]; simpl in E; [discriminate|]. injection E as <- E.
  destruct v as [|s v _] using rev_ind.
  - exfalso. rewrite app_nil_r in E. change (Pl a :: txt c) with (txt (a :: c)) in E.
    destruct (exists_last (l := a :: c) ltac:(discriminate)) as (c0 & b & Ec). rewrite Ec, txt_app, app_assoc in E. simpl in E.
    apply app_inj_tail in E. destruct E as (_ & E). discriminate.
  - change (Pl a :: txt c ++ v ++ [s]) with ((Pl a :: txt c) ++ v ++ [s]) in E. rewrite !app_assoc in E. apply app_inj_tail in E. destruct E as (E & <-).
    rewrite <- app_assoc in E. apply txt_app_inv in E. destruct E as (u' & z & -> & -> & E). symmetry in E.
    change (Pl a :: txt c) with (txt (a :: c)) in E. apply txt_app_inv in E. destruct E as (c' & v' & -> & E & ->). apply txt_inj in E. subst c'.
    exists u', v'. auto.
Qed.
Theorem restriction_txt center cs x Y : user center -> ~ center [] ->
  (forall l r, In (l, r) cs -> decided l /\ decided r) ->
  (restriction center cs (txt x) Y <-> Y = txt x /\ restricted center cs x).
Proof.
  intros Hu Hn Hd. rewrite restriction_iff. unfold outside, restricted. split.
  - intros (<- & _ & Ht & N). split; auto. intros u c v -> Hc. destruct (dec_ctxs cs u v Hd) as [D|D]; auto. exfalso. apply N.
    exists (Bd :: txt u), (txt c), (txt v ++ [Bd]). rewrite !txt_app. split; [simpl; rewrite <- !app_assoc; auto|]. split; auto. split.
    + intros [E|E]; [discriminate|]. rewrite <- !txt_app in E. apply in_app_or in E. destruct E as [E|[E|[]]]; [auto|discriminate].
    + intros (l & r & H1 & (u1 & u2 & H2 & H3) & v1 & v2 & H4 & H5). apply D. exists l, r. split; auto. split; [exists u1, u2; auto | exists v1, v2; auto].
  - intros (-> & H). split; auto. split; [apply not_in_txt; discriminate|]. split; [apply not_in_txt; discriminate|].
    intros (u & c & v & E & Hc & _ & N). destruct (Hu c Hc) as (c0 & ->). assert (c0 <> []) by (intros ->; auto).
    apply inside in E; auto. destruct E as (u' & v' & -> & -> & ->). destruct (H u' c0 v' eq_refl Hc) as (l & r & H1 & (u1 & u2 & H2) & v1 & v2 & H3).
    apply N. exists l, r. split; auto. split; eauto.
Qed.
