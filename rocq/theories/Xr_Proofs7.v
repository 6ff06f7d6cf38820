(** Proofs about the replace rules: directed replacement from the right. *)
From Verif Require Import Base Xr_Model Xr_Spec Xr_Proofs1 Xr_Proofs2 Xr_Proofs3 Xr_Proofs4 Xr_Proofs5 Xr_Proofs6.

Lemma rev_txt x : rev (txt x) = txt (rev x).
Proof. unfold txt. rewrite map_rev. auto. Qed.
Lemma txt_sep_r x x' s u u' : (forall a, s <> Pl a) -> u ++ s :: txt x = u' ++ s :: txt x' -> u = u' /\ x = x'.
Proof.
  intros Hs E. apply (f_equal (@rev sym)) in E. rewrite !rev_app_distr in E. simpl in E. rewrite !rev_txt, <- !app_assoc in E. simpl in E.
  apply txt_sep in E; auto. destruct E as (E1 & E2). split.
  - rewrite <- (rev_involutive u), E2, rev_involutive. auto.
  - rewrite <- (rev_involutive x), E1, rev_involutive. auto.
Qed.
Lemma fo_suffix o2 : forall os al, fo os = al ++ fo o2 -> exists os1 os2, os = os1 ++ os2 /\ fo os2 = fo o2 /\ al = fo os1.
Proof.
  induction o2 as [|o o2 IH] using rev_ind; intros os al E.
  - exists os, []. simpl in E. rewrite !app_nil_r in *. auto.
  - rewrite fo_app in E. change (fo [o]) with (ubo o ++ []) in E. rewrite app_nil_r in E.
    destruct os as [|o' os _] using rev_ind.
    { simpl in E. symmetry in E. apply app_eq_nil in E. destruct E as (_ & E). apply app_eq_nil in E. destruct E as (_ & E).
      destruct o as [[a|x y|x]|]; discriminate. }
    rewrite fo_app in E. change (fo [o']) with (ubo o' ++ []) in E. rewrite app_nil_r in E.
    assert (G : ubo o' = ubo o /\ fo os = al ++ fo o2).
    { rewrite app_assoc in E. revert E. generalize (al ++ fo o2). intros W E.
      destruct o as [[a|x y|x]|]; destruct o' as [[a'|x' y'|x']|]; simpl in E |- *;
      repeat match type of E with context [?s :: txt ?x ++ [?t]] => change (s :: txt x ++ [t]) with ((s :: txt x) ++ [t]) in E; rewrite app_assoc in E end;
      apply app_inj_tail in E; destruct E as (E & E'); try discriminate; try (injection E' as ->); auto.
      - apply txt_sep_r in E; [|discriminate]. destruct E as (-> & ->). auto.
      - apply txt_sep_r in E; [|discriminate]. destruct E as (-> & ->). auto. }
    destruct G as (E1 & E2). destruct (IH os al E2) as (os1 & os2 & -> & E3 & ->).
    exists os1, (os2 ++ [o']). rewrite app_assoc. split; auto. split; auto. rewrite !fo_app, E3. simpl. rewrite !app_nil_r, E1. auto.
Qed.
Lemma fo_split_r os : forall al be, fo os = al ++ RM :: be ->
  exists o1 x y o2, os = o1 ++ Some (AC x y) :: o2 /\ al = fo o1 ++ LM :: txt x /\ be = fo o2.
Proof.
  induction os as [|o os IH]; intros al be E; [destruct al; discriminate|].
  change (fo (o :: os)) with (ubo o ++ fo os) in E.
  assert (G : ~ In RM (ubo o) -> exists o1 x y o2, o :: os = o1 ++ Some (AC x y) :: o2 /\ al = fo o1 ++ LM :: txt x /\ be = fo o2).
  { intros N. apply skip_notin in E; auto. destruct E as (al' & -> & E). destruct (IH al' be E) as (o1 & x & y & o2 & -> & -> & ->).
    exists (o :: o1), x, y, o2. split; auto. split; auto. change (fo (o :: o1)) with (ubo o ++ fo o1). rewrite app_assoc. auto. }
  destruct o as [[a|x y|x]|].
  - apply G. intros [H|[]]; discriminate.
  - simpl in E. rewrite <- app_assoc in E. change (LM :: txt x ++ [RM] ++ fo os) with ((LM :: txt x) ++ RM :: fo os) in E.
    apply skip_notin in E.
    2:{ intros [H|H]; [discriminate|]. revert H. apply not_in_txt. discriminate. }
    destruct E as (al' & -> & E). destruct al' as [|t al']; simpl in E.
    + injection E as E2. exists [], x, y, os. rewrite app_nil_r. auto.
    + injection E as E1 E2. subst t. destruct (IH al' be E2) as (o1 & x1 & y1 & o2 & -> & -> & ->). exists (Some (AC x y) :: o1), x1, y1, o2.
      split; auto. split; auto. simpl. rewrite <- !app_assoc. reflexivity.
  - apply G. simpl. intros [H|H]; [discriminate|]. apply in_app_or in H. destruct H as [H|[H|[]]]; [|discriminate].
    revert H. apply not_in_txt. discriminate.
  - apply G. intros [H|[]]; discriminate.
Qed.
Notation lpart l := (fo (None :: map Some (map conv l))).
Notation rpart r := (fo (map Some (map conv r) ++ [None])).
Lemma Wr_split_r ps al be : Wr ps = al ++ RM :: be -> exists l x y r, ps = l ++ Change x y :: r /\
  al = lpart l ++ LM :: txt x /\ be = rpart r.
Proof.
  rewrite <- wr_fo. intros E. apply fo_split_r in E. destruct E as (o1 & x & y & o2 & E & -> & ->). apply wr_split in E.
  destruct E as (l & p & r & -> & E & -> & ->). destruct p as [a|x' y']; [discriminate|]. injection E as <- <-. exists l, x, y, r. auto.
Qed.
Lemma Wr_at_r ps r' al : Wr ps = al ++ rpart r' -> exists o1 o2, wr ps = o1 ++ o2 /\ fo o2 = rpart r' /\ al = fo o1.
Proof. rewrite <- wr_fo. apply fo_suffix. Qed.
Lemma Wr_at_keep_r ps r' a al : Wr ps = (al ++ [Pl a]) ++ rpart r' ->
  exists l r, ps = l ++ Keep a :: r /\ read r = read r' /\ al = lpart l.
Proof.
  intros E. apply Wr_at_r in E. destruct E as (o1 & o2 & E1 & E2 & E3). destruct o1 as [|o o1 _] using rev_ind; [destruct al; discriminate|].
  rewrite fo_app in E3. change (fo [o]) with (ubo o ++ []) in E3. rewrite app_nil_r in E3.
  destruct o as [[b|x y|x]|]; simpl in E3;
  try (match type of E3 with context [?s :: txt ?x ++ [?t]] => change (s :: txt x ++ [t]) with ((s :: txt x) ++ [t]) in E3; rewrite app_assoc in E3 end);
  apply app_inj_tail in E3; destruct E3 as (E3 & E4); try discriminate. injection E4 as <-.
  rewrite <- app_assoc in E1. simpl in E1. apply wr_split in E1. destruct E1 as (l & p & r & -> & E & -> & ->).
  destruct p as [b|x y]; [|discriminate]. injection E as <-. exists l, r. split; auto. split; auto. apply fo_read_r; auto.
Qed.
Lemma Wr_at_close ps r' al : Wr ps = (al ++ [RM]) ++ rpart r' ->
  exists l x y r, ps = l ++ Change x y :: r /\ read r = read r' /\ al = lpart l ++ LM :: txt x.
Proof.
  intros E. apply Wr_at_r in E. destruct E as (o1 & o2 & E1 & E2 & E3). destruct o1 as [|o o1 _] using rev_ind; [destruct al; discriminate|].
  rewrite fo_app in E3. change (fo [o]) with (ubo o ++ []) in E3. rewrite app_nil_r in E3.
  destruct o as [[b|x y|x]|]; simpl in E3;
  try (match type of E3 with context [?s :: txt ?x ++ [?t]] => change (s :: txt x ++ [t]) with ((s :: txt x) ++ [t]) in E3; rewrite app_assoc in E3 end);
  apply app_inj_tail in E3; destruct E3 as (E3 & E4); try discriminate.
  rewrite <- app_assoc in E1. simpl in E1. apply wr_split in E1. destruct E1 as (l & p & r & -> & E & -> & ->).
  destruct p as [b|x' y']; [discriminate|]. injection E as <- <-. exists l, x, y, r. split; auto. split; auto. apply fo_read_r; auto.
Qed.
Lemma Wr_app3 l p r : Wr (l ++ p :: r) = lpart l ++ ub1 (conv p) ++ rpart r.
Proof. rewrite Wr_app. reflexivity. Qed.
Lemma lpart_end l z : lpart l <> z ++ [LM].
Proof.
  rewrite fo_l. destruct l as [|p l _] using rev_ind.
  - simpl. change [Bd] with ([] ++ [Bd]). intros E. apply app_inj_tail in E. destruct E as (_ & E). discriminate.
  - rewrite map_app, ub_app. change (ub (map conv [p])) with (ub1 (conv p) ++ []). rewrite app_nil_r. destruct p as [a|x y]; simpl.
    + intros E. rewrite app_comm_cons in E. apply app_inj_tail in E. destruct E as (_ & E). discriminate.
    + intros E. change (LM :: txt x ++ [RM]) with ((LM :: txt x) ++ [RM]) in E. rewrite app_assoc, app_comm_cons in E. apply app_inj_tail in E.
      destruct E as (_ & E). discriminate.
Qed.
Lemma fnb_lpart l : fnb (lpart l) = Bd :: txt (read l).
Proof. rewrite fo_l. simpl. rewrite fnb_ub. auto. Qed.
Lemma fnb_rpart r : fnb (rpart r) = txt (read r) ++ [Bd].
Proof. rewrite fo_r, filter_app, fnb_ub. auto. Qed.
Lemma sep_b_r (w : word) x R u u' : nobr w -> sym_b R -> u ++ R :: w = u' ++ LM :: txt x -> w = txt x /\ R = LM /\ u = u'.
Proof.
  intros Hw HR. revert w x Hw. induction w as [|s w IH] using rev_ind; intros x Hw E; destruct x as [|a x _] using rev_ind.
  - apply app_inj_tail in E. destruct E as (-> & ->). auto.
  - exfalso. rewrite txt_app, app_comm_cons, app_assoc in E. simpl in E. apply app_inj_tail in E. destruct E as (_ & ->). destruct HR; discriminate.
  - exfalso. rewrite app_comm_cons, app_assoc in E. simpl in E. apply app_inj_tail in E. destruct E as (_ & ->).
    apply (Hw LM); [apply in_or_app; right; left; auto | left; auto].
  - rewrite txt_app, !app_comm_cons, !app_assoc in E. simpl in E. apply app_inj_tail in E. destruct E as (E & ->).
    apply IH in E; [|intros t Ht; apply Hw; apply in_or_app; auto]. destruct E as (-> & -> & ->). rewrite txt_app. auto.
Qed.
Lemma goes_on_r x s z x' u : ~ sym_b s -> z ++ s :: txt x = u ++ LM :: txt x' -> exists v, x' = v ++ x /\ v <> [].
Proof.
  intros Hs. revert x'. induction x as [|a x IH] using rev_ind; intros x' E; destruct x' as [|b x' _] using rev_ind.
  - simpl in E. apply app_inj_tail in E. destruct E as (_ & ->). destruct Hs. left; auto.
  - exists (x' ++ [b]). rewrite app_nil_r. split; auto. destruct x'; discriminate.
  - exfalso. rewrite txt_app, app_comm_cons, app_assoc in E. simpl in E. apply app_inj_tail in E. destruct E as (_ & E). discriminate.
  - rewrite !txt_app, !app_comm_cons, !app_assoc in E. simpl in E. apply app_inj_tail in E. destruct E as (E & E'). injection E' as ->.
    destruct (IH x' E) as (v & -> & Hv). exists v. rewrite app_assoc. auto.
Qed.
(** The last symbol read. *)
Lemma last_read r a v : read r = v ++ [a] -> (forall x y, In (Change x y) r -> x <> []) -> exists c,
  (lpart r = c ++ [Pl a] \/ lpart r = c ++ [Pl a; RM]) /\ fnb c = Bd :: txt v.
Proof.
  intros E Hne. destruct r as [|p r _] using rev_ind; [destruct v; discriminate|]. rewrite read_app in E. simpl in E. rewrite app_nil_r in E.
  assert (EL : lpart (r ++ [p]) = lpart r ++ ub1 (conv p)) by (rewrite !fo_l, map_app, ub_app; simpl; rewrite app_nil_r; auto).
  rewrite EL. destruct p as [b|x y]; simpl in E.
  - apply app_inj_tail in E. destruct E as (E & ->). exists (lpart r). split; [left; auto|]. rewrite fnb_lpart, E. auto.
  - destruct x as [|b x _] using rev_ind; [destruct (Hne [] y); auto; apply in_or_app; right; left; auto|].
    rewrite app_assoc in E. apply app_inj_tail in E. destruct E as (E & ->).
    exists (lpart r ++ LM :: txt x). split; [right; simpl; rewrite txt_app, <- !app_assoc; auto|].
    rewrite filter_app, fnb_lpart. simpl. rewrite fnb_txt, <- E, txt_app. auto.
Qed.

(** Rightmost. *)
Definition CRm : pset := cat right_part (cat (plus not_B) (cat (del RM) anything)).
Lemma CRm_iff X' X : rel_of CRm X' X <-> exists c' c w be, X' = c' ++ w ++ RM :: be /\ X = c ++ w ++ be /\ w <> [] /\ nobr w /\ fnb c' = fnb c.
Proof.
  unfold CRm. split.
  - intros H. apply rc_cat in H. destruct H as (A1 & A2 & B1 & B2 & -> & -> & H1 & H). apply rp_iff in H1.
    apply rc_cat in H. destruct H as (A3 & A4 & B3 & B4 & -> & -> & H2 & H). apply rc_plus_not_B in H2. destruct H2 as (<- & N & Hn).
    apply rc_cat in H. destruct H as (A5 & A6 & B5 & B6 & -> & -> & H2 & H). apply rc_del in H2. destruct H2 as (-> & ->).
    apply rc_anything in H. subst B6. exists A1, B1, A3, A6. auto.
  - intros (c' & c & w & be & -> & -> & N & Hn & E). apply rc_cat. exists c', (w ++ RM :: be), c, (w ++ be). split; auto. split; auto.
    split; [apply rp_iff; auto|]. apply rc_cat. exists w, (RM :: be), w, be. split; auto. split; auto. split; [apply rc_plus_not_B; auto|].
    apply rc_cat. exists [RM], be, [], be. split; auto. split; auto. split; [apply rc_del; auto | apply rc_anything; auto].
Qed.
Lemma CRm_fnb X' X : rel_of CRm X' X -> fnb X' = fnb X.
Proof. rewrite CRm_iff. intros (c' & c & w & be & -> & -> & _ & _ & E). rewrite !filter_app, E. reflexivity. Qed.

(** Shortest from the right. *)
Definition tRS : pset := alt not_B (cat (plus not_B) (alt (alt (ins RM) (del RM)) (alt (del LM) B))).
Definition CRS : pset := cat right_part (cat tRS (cat (del LM) (cat (plus not_B) (cat (same RM) anything)))).
Lemma plus_last X Y : rel_of (plus not_B) X Y -> exists z s, X = z ++ [s] /\ Y = z ++ [s] /\ ~ sym_b s.
Proof.
  rewrite rc_plus_not_B. intros (<- & N & H). destruct X as [|s X _] using rev_ind; [congruence|]. exists X, s. repeat split; auto.
  apply H. apply in_or_app; right; left; auto.
Qed.
Lemma tRS_inv Z' Z : rel_of tRS Z' Z -> fnb Z' = fnb Z /\
  ((exists z s, Z = z ++ [s] /\ ~ sym_b s) \/ (exists z, Z = z ++ [RM]) \/ (exists z, Z' = z ++ [LM])).
Proof.
  unfold tRS. intros H. apply rc_alt in H. destruct H as [H|H].
  - apply rc_not_B in H. destruct H as (s & Hs & -> & ->). split; auto. left. exists [], s. auto.
  - apply rc_cat in H. destruct H as (A1 & A2 & B1 & B2 & -> & -> & H1 & H). apply plus_last in H1. destruct H1 as (z & s & -> & -> & Hs).
    rewrite !filter_app. rewrite !rc_alt, !rc_ins, !rc_del, rc_B in H.
    destruct H as [[(-> & ->)|(-> & ->)]|[(-> & ->)|(t & [->| ->] & -> & ->)]]; (split; [reflexivity|]).
    + right; left; eauto.
    + left. rewrite app_nil_r. eauto.
    + right; right; eauto.
    + right; right; eauto.
    + right; left; eauto.
Qed.
Lemma CRS_inv X' X : rel_of CRS X' X -> exists Z' Z w be, X' = Z' ++ LM :: w ++ RM :: be /\ X = Z ++ w ++ RM :: be /\ w <> [] /\ nobr w /\
  fnb Z' = fnb Z /\ ((exists z s, Z = z ++ [s] /\ ~ sym_b s) \/ (exists z, Z = z ++ [RM]) \/ (exists z, Z' = z ++ [LM])).
Proof.
  unfold CRS. intros H. apply rc_cat in H. destruct H as (A1 & A2 & B1 & B2 & -> & -> & H1 & H). apply rp_iff in H1.
  apply rc_cat in H. destruct H as (A3 & A4 & B3 & B4 & -> & -> & H2 & H). apply tRS_inv in H2. destruct H2 as (E2 & Ht).
  apply rc_cat in H. destruct H as (A5 & A6 & B5 & B6 & -> & -> & H2 & H). apply rc_del in H2. destruct H2 as (-> & ->).
  apply rc_cat in H. destruct H as (A7 & A8 & B7 & B8 & -> & -> & H2 & H). apply rc_plus_not_B in H2. destruct H2 as (<- & N & Hn).
  apply rc_cat in H. destruct H as (A9 & A10 & B9 & B10 & -> & -> & H2 & H). apply rc_same in H2. destruct H2 as (-> & ->).
  apply rc_anything in H. subst B10. exists (A1 ++ A3), (B1 ++ B3), A7, A10. rewrite <- !app_assoc. split; auto. split; auto. split; auto. split; auto.
  split; [rewrite !filter_app; congruence|].
  destruct Ht as [(z & s & -> & Hs)|[(z & ->)|(z & ->)]]; rewrite app_assoc; eauto 6.
Qed.
Lemma CRS_intro c' c s w be Z' : ~ sym_b s -> fnb c' = fnb c -> Z' = c' ++ [s] \/ Z' = c' ++ [s; RM] -> w <> [] -> nobr w ->
  rel_of CRS (Z' ++ LM :: w ++ RM :: be) ((c ++ [s]) ++ w ++ RM :: be).
Proof.
  intros Hs E HZ Hw Hn. unfold CRS. apply rc_cat.
  assert (R : forall X' X, rel_of tRS X' X -> rel_of (cat tRS (cat (del LM) (cat (plus not_B) (cat (same RM) anything)))) (X' ++ LM :: w ++ RM :: be) (X ++ w ++ RM :: be)).
  { intros X' X H. apply rc_cat. exists X', (LM :: w ++ RM :: be), X, (w ++ RM :: be). split; auto. split; auto. split; auto.
    apply rc_cat. exists [LM], (w ++ RM :: be), [], (w ++ RM :: be). split; auto. split; auto. split; [apply rc_del; auto|].
    apply rc_cat. exists w, (RM :: be), w, (RM :: be). split; auto. split; auto. split; [apply rc_plus_not_B; auto|].
    apply rc_cat. exists [RM], be, [RM], be. split; auto. split; auto. split; [apply rc_same; auto | apply rc_anything; auto]. }
  destruct HZ as [->| ->].
  - exists c', ([s] ++ LM :: w ++ RM :: be), c, ([s] ++ w ++ RM :: be). rewrite <- !app_assoc. split; auto. split; auto.
    split; [apply rp_iff; auto|]. apply R. apply rc_alt. left. apply rc_not_B; eauto.
  - exists c', ([s; RM] ++ LM :: w ++ RM :: be), c, ([s] ++ w ++ RM :: be). rewrite <- !app_assoc. split; auto. split; auto.
    split; [apply rp_iff; auto|]. apply R. apply rc_alt. right. apply rc_cat. exists [s], [RM], [s], []. split; auto. split; auto.
    split; [apply rc_plus_not_B; split; auto; split; [discriminate|]; intros t [<-|[]]; auto | rewrite !rc_alt, !rc_del; auto].
Qed.
Lemma CRS_fnb X' X : rel_of CRS X' X -> fnb X' = fnb X.
Proof.
  intros H. apply CRS_inv in H. destruct H as (Z' & Z & w & be & -> & -> & _ & _ & E & _). rewrite !filter_app, E. simpl. rewrite !filter_app. reflexivity.
Qed.
(** Longest from the right. *)
Definition CRL : pset := cat right_part (cat (plus not_B) (cat (alt (any []) (alt (alt (ins LM) (del RM)) (alt (ins RM) B)))
    (cat (ins LM) (cat (plus not_B) (cat (same RM) anything))))).
Lemma CRL_inv X' X : rel_of CRL X' X -> exists Z' Z w be, X' = Z' ++ w ++ RM :: be /\ X = Z ++ LM :: w ++ RM :: be /\ w <> [] /\ nobr w /\
  fnb Z' = fnb Z /\ ((exists c' c s t, Z' = c' ++ [s; t] /\ Z = c ++ [s; t] /\ ~ sym_b s) \/ (exists z, Z = z ++ [LM]) \/ (exists z, Z' = z ++ [RM]) \/
    (exists c' c s, Z' = c' ++ [s] /\ Z = c ++ [s; RM] /\ ~ sym_b s)).
Proof.
  unfold CRL. intros H. apply rc_cat in H. destruct H as (A1 & A2 & B1 & B2 & -> & -> & H1 & H). apply rp_iff in H1.
  apply rc_cat in H. destruct H as (A3 & A4 & B3 & B4 & -> & -> & H2 & H). apply plus_last in H2. destruct H2 as (z & s & -> & -> & Hs).
  apply rc_cat in H. destruct H as (A5 & A6 & B5 & B6 & -> & -> & H3 & H).
  apply rc_cat in H. destruct H as (A7 & A8 & B7 & B8 & -> & -> & H2 & H). apply rc_ins in H2. destruct H2 as (-> & ->).
  apply rc_cat in H. destruct H as (A9 & A10 & B9 & B10 & -> & -> & H2 & H). apply rc_plus_not_B in H2. destruct H2 as (<- & N & Hn).
  apply rc_cat in H. destruct H as (A11 & A12 & B11 & B12 & -> & -> & H2 & H). apply rc_same in H2. destruct H2 as (-> & ->).
  apply rc_anything in H. subst B12.
  exists (A1 ++ (z ++ [s]) ++ A5), (B1 ++ (z ++ [s]) ++ B5), A9, A12. rewrite <- !app_assoc. split; auto. split; auto. split; auto. split; auto.
  rewrite !rc_alt, !rc_ins, !rc_del, rc_B, rc_any in H3.
  assert (G : fnb A5 = fnb B5).
  { destruct H3 as [(t & _ & -> & ->)|[[(-> & ->)|(-> & ->)]|[(-> & ->)|(t & _ & -> & ->)]]]; reflexivity. }
  split; [rewrite !filter_app; congruence|].
  destruct H3 as [(t & _ & -> & ->)|[[(-> & ->)|(-> & ->)]|[(-> & ->)|(t & _ & -> & ->)]]].
  - left. exists (A1 ++ z), (B1 ++ z), s, t. rewrite <- !app_assoc. auto.
  - right; left. exists (B1 ++ z ++ [s]). rewrite <- !app_assoc. auto.
  - right; right; left. exists (A1 ++ z ++ [s]). rewrite <- !app_assoc. auto.
  - right; right; right. exists (A1 ++ z), (B1 ++ z), s. simpl. rewrite <- !app_assoc. auto.
  - left. exists (A1 ++ z), (B1 ++ z), s, t. rewrite <- !app_assoc. auto.
Qed.
Lemma CRL_fnb X' X : rel_of CRL X' X -> fnb X' = fnb X.
Proof.
  intros H. apply CRL_inv in H. destruct H as (Z' & Z & w & be & -> & -> & _ & _ & E & _). rewrite !filter_app, E. simpl. rewrite !filter_app. reflexivity.
Qed.

Section Right.
Variable rs : list rule.
Hypothesis Hu : forall r, In r rs -> firm r.
Hypothesis Hc : contexts_seen rs.
Hypothesis Hup : upward rs.

Lemma lic_mid l x y r : licensed rs (l ++ Change x y :: r) -> appl rs (read l) x y (read r).
Proof using Hup.
  intros Hl. apply (proj1 (lic_iff rs Hup _)) in Hl. apply allp_app in Hl. destruct Hl as (_ & Hl). simpl in Hl. destruct Hl as (Ha & _).
  rewrite app_nil_r in Ha. auto.
Qed.
Lemma rightmost_iff ps : licensed rs ps ->
  (from_right rs ps <-> ~ exists ps', licensed rs ps' /\ True /\ rel_of CRm (Wr ps') (Wr ps)).
Proof using Hu Hup.
  intros Hl. split.
  - intros Hf (ps' & Hl' & _ & Hd). pose proof (CRm_fnb _ _ Hd) as ER. apply Wr_read in ER. apply CRm_iff in Hd.
    destruct Hd as (c' & c & w & be & E1 & E2 & Hn & Hw & _).
    rewrite app_assoc in E1. apply Wr_split_r in E1. destruct E1 as (l' & x & y & r' & -> & Ea & ->). pose proof (lic_mid _ _ _ _ Hl') as Ha.
    assert (Hx : x <> []) by (eapply appl_ne; eauto). destruct x as [|a x _] using rev_ind; [congruence|]. clear Hx.
    destruct w as [|s w _] using rev_ind; [congruence|]. rewrite txt_app, app_comm_cons, !app_assoc in Ea. apply app_inj_tail in Ea. destruct Ea as (_ & ->).
    replace (c ++ (w ++ [Pl a]) ++ rpart r') with (((c ++ w) ++ [Pl a]) ++ rpart r') in E2 by (rewrite <- !app_assoc; auto).
    apply Wr_at_keep_r in E2. destruct E2 as (l & r & -> & Er & _). rewrite !read_app in ER. simpl in ER. rewrite Er in ER.
    change (a :: read r') with ([a] ++ read r') in ER. rewrite !app_assoc in ER. apply app_inv_tail in ER. rewrite <- app_assoc in ER.
    apply (Hf l a r (read l') (x ++ [a]) eq_refl); auto. exists y. rewrite Er. exact Ha.
  - intros N l a r u x -> E (y & Ha). apply N.
    assert (Hx : x <> []) by (eapply (appl_ne rs Hu); exact Ha). destruct x as [|a' x _] using rev_ind; [congruence|]. clear Hx.
    rewrite app_assoc in E. apply app_inj_tail in E. destruct E as (E & <-).
    exists (map Keep u ++ Change (x ++ [a]) y :: r). split; [|split; auto].
    + apply (lic_iff rs Hup). apply (proj1 (lic_iff rs Hup _)) in Hl. apply allp_app in Hl. destruct Hl as (_ & H1). apply allp_app.
      split; [apply allp_keep; simpl; auto|]. simpl in *. destruct H1 as (_ & H1). rewrite read_keep, app_nil_r. split; [exact Ha|].
      rewrite app_assoc, <- E. auto.
    + rewrite !Wr_app3. apply CRm_iff. exists (lpart (map Keep u) ++ LM :: txt x), (lpart l), [Pl a], (rpart r).
      split; [simpl; rewrite txt_app, <- !app_assoc; auto|]. split; [auto|]. split; [discriminate|]. split; [intros s [<-|[]] [E'|E']; discriminate|].
      rewrite filter_app, !fnb_lpart, read_keep. simpl. rewrite fnb_txt, <- txt_app, E. auto.
Qed.
Lemma PR_iff ps : allp (PR rs) [] ps [] <-> licensed rs ps /\ from_right rs ps.
Proof using Hup. unfold PR. rewrite allp_and, (lic_iff rs Hup), fr_iff. tauto. Qed.
Lemma shortest_right_iff ps : licensed rs ps -> True /\ from_right rs ps ->
  (shortest_from_right rs ps <-> ~ exists ps', licensed rs ps' /\ (True /\ from_right rs ps') /\ rel_of CRS (Wr ps') (Wr ps)).
Proof using Hu Hup.
  intros Hl (_ & Hfl). split.
  - intros Hf (ps' & Hl' & _ & Hd). pose proof (CRS_fnb _ _ Hd) as ER. apply Wr_read in ER. apply CRS_inv in Hd.
    destruct Hd as (Z' & Z & w & be & E1 & E2 & Hn & Hw & _ & Ht).
    rewrite app_comm_cons, app_assoc in E1. apply Wr_split_r in E1. destruct E1 as (l' & x' & y' & r' & -> & Ea & ->).
    pose proof (lic_mid _ _ _ _ Hl') as Ha. apply sep_b_r in Ea; auto; [|left; auto]. destruct Ea as (-> & _ & ->).
    replace (Z ++ txt x' ++ RM :: rpart r') with (((Z ++ txt x') ++ [RM]) ++ rpart r') in E2 by (rewrite <- !app_assoc; auto).
    apply Wr_at_close in E2. destruct E2 as (l & x & y & r & -> & Er & Ez).
    destruct Ht as [(z & s & -> & Hs)|[(z & ->)|(z & Ez')]].
    + rewrite <- app_assoc in Ez. cbn [app] in Ez. apply goes_on_r in Ez; auto. destruct Ez as (v & -> & Hv).
      rewrite !read_app in ER. simpl in ER. rewrite Er, !app_assoc in ER. apply app_inv_tail in ER. apply app_inv_tail in ER.
      apply (Hf l (v ++ x') y r v x' eq_refl); auto. exists y'. rewrite Er, <- ER. exact Ha.
    + rewrite <- app_assoc in Ez. cbn [app] in Ez. apply sep_b_r in Ez; [|apply nobr_txt|right; auto]. destruct Ez as (_ & Ez & _). discriminate.
    + destruct (lpart_end _ _ Ez').
  - intros N l x y r u w -> -> Hv (y' & Ha). apply N.
    pose proof (proj2 (PR_iff _) (conj Hl Hfl)) as HP. apply allp_app in HP. destruct HP as (_ & HP). simpl in HP. destruct HP as (_ & HP).
    destruct (complete_right rs Hu (List.length (read l ++ u)) (read l ++ u) (w ++ read r)) as (q & Eq & Hq); auto.
    assert (G : allp (PR rs) [] (q ++ Change w y' :: r) []).
    { apply allp_app. simpl. rewrite app_nil_r, Eq. split; auto. split.
      - split; simpl; auto. rewrite app_nil_r. auto.
      - rewrite <- app_assoc. auto. }
    apply PR_iff in G. destruct G as (G1 & G2). exists (q ++ Change w y' :: r). split; auto. split; auto.
    rewrite !Wr_app3. destruct u as [|a u _] using rev_ind; [congruence|].
    destruct (last_read q a (read l ++ u)) as (c & Ec & Fc); [rewrite Eq, app_assoc; auto| |].
    { intros x1 y1 Hin. apply (lic_ne rs Hu _ x1 y1 G1). apply in_or_app. left; auto. }
    replace (lpart l ++ ub1 (conv (Change ((u ++ [a]) ++ w) y)) ++ rpart r) with (((lpart l ++ LM :: txt u) ++ [Pl a]) ++ txt w ++ RM :: rpart r)
      by (cbn [conv ub1]; rewrite !txt_app; cbn [app txt map]; rewrite <- !app_assoc; cbn [app]; rewrite <- ?app_assoc; reflexivity).
    replace (lpart q ++ ub1 (conv (Change w y')) ++ rpart r) with (lpart q ++ LM :: txt w ++ RM :: rpart r)
      by (cbn [conv ub1 app]; rewrite <- !app_assoc; reflexivity).
    eapply CRS_intro; [| |exact Ec| |apply nobr_txt].
    + intros [E'|E']; discriminate.
    + rewrite Fc, filter_app, fnb_lpart. simpl. rewrite fnb_txt, txt_app. auto.
    + assert (Hx : w <> []) by (apply (lic_ne rs Hu _ w y' G1); apply in_or_app; right; left; auto). destruct w; [congruence|discriminate].
Qed.
Lemma longest_right_half ps : licensed rs ps -> longest_from_right rs ps -> 
  ~ exists ps', licensed rs ps' /\ rel_of CRL (Wr ps') (Wr ps).
Proof using Hu Hup.
  intros Hl Hf (ps' & Hl' & Hd). pose proof (CRL_fnb _ _ Hd) as ER. apply Wr_read in ER. apply CRL_inv in Hd.
  destruct Hd as (Z' & Z & w & be & E1 & E2 & Hn & Hw & _ & Ht).
  rewrite app_comm_cons, app_assoc in E2. apply Wr_split_r in E2. destruct E2 as (l & x & y & r & -> & Ea & ->).
  apply sep_b_r in Ea; auto; [|left; auto]. destruct Ea as (-> & _ & ->).
  replace (Z' ++ txt x ++ RM :: rpart r) with (((Z' ++ txt x) ++ [RM]) ++ rpart r) in E1 by (rewrite <- !app_assoc; auto).
  apply Wr_at_close in E1. destruct E1 as (l' & x' & y' & r' & -> & Er & Ez). pose proof (lic_mid _ _ _ _ Hl') as Ha.
  assert (K : forall z s, Z' = z ++ [s] -> s = RM \/ ~ sym_b s -> False).
  { intros z s -> Hs. rewrite <- app_assoc in Ez. cbn [app] in Ez. destruct Hs as [->|Hs].
    - apply sep_b_r in Ez; [|apply nobr_txt|right; auto]. destruct Ez as (_ & Ez & _). discriminate.
    - apply goes_on_r in Ez; auto. destruct Ez as (v & -> & Hv). rewrite !read_app in ER. simpl in ER. rewrite Er, !app_assoc in ER.
      apply app_inv_tail in ER. apply app_inv_tail in ER. apply (Hf l x y r (read l') v eq_refl); auto. exists y'. rewrite <- Er. exact Ha. }
  destruct Ht as [(c' & c & s & t & -> & Ec & Hs)|[(z & Ez')|[(z & ->)|(c' & c & s & -> & _ & Hs)]]].
  - assert (Ht : t = LM \/ t = RM \/ ~ sym_b t).
    { destruct t; auto; right; right; intros [E'|E']; discriminate. }
    destruct Ht as [->|Ht].
    + apply (lpart_end l (c ++ [s])). rewrite <- app_assoc. auto.
    + apply (K (c' ++ [s]) t); auto. rewrite <- app_assoc. reflexivity.
  - apply (lpart_end l z). auto.
  - apply (K z RM); auto.
  - apply (K c' s); auto.
Qed.
Lemma dir_start0 x X Y : fnb X = Bd :: txt x ++ [Bd] ->
  (bracketed_rules rs true X Y <-> exists ps, licensed rs ps /\ True /\ X = Wr ps /\ Y = Wl ps).
Proof using Hu Hc.
  intros E. rewrite (dom rs Hu Hc x X Y E). split; [intros (ps & H1 & H2); eauto | intros (ps & H1 & _ & H2); eauto].
Qed.
Lemma dir_rightmost x X Y : fnb X = Bd :: txt x ++ [Bd] ->
  (rightmost (bracketed_rules rs true) X Y <-> exists ps, licensed rs ps /\ (True /\ from_right rs ps) /\ X = Wr ps /\ Y = Wl ps).
Proof using Hu Hc Hup.
  revert x X Y. unfold rightmost. fold CRm.
  apply (chain rs _ CRm (fun _ => True) (from_right rs)); [apply dir_start0 | apply CRm_fnb | intros ps H _; apply rightmost_iff; auto].
Qed.
Theorem rightmost_shortest x Y : not_deleting rs ->
  (replace_rightmost_shortest rs (txt x) Y <-> exists y, Y = txt y /\ directed rs from_right shortest_from_right x y).
Proof using Hu Hc Hup.
  intros Hnd. unfold replace_rightmost_shortest. rewrite (finish rs Hu Hc); auto.
  - unfold shortest_rightmost. fold tRS CRS. split.
    + intros (ps & E & -> & Ht). apply nr_sub in Ht.
      apply (chain rs _ CRS _ (shortest_from_right rs) dir_rightmost CRS_fnb shortest_right_iff (read ps)) in Ht; [|apply fnb_Wr].
      destruct Ht as (ps' & Hl & ((_ & H1) & H2) & E1 & E2).
      assert (ER : read ps' = read ps) by (apply Wr_read; congruence).
      assert (EW : txt (written ps) = txt (written ps')).
      { rewrite <- !fnb_lb. unfold Wl in E2. injection E2 as E2. apply app_inv_tail in E2. congruence. }
      exists (written ps'). split; auto. exists ps'. repeat split; auto. congruence.
    + intros (y & -> & ps & <- & <- & H1 & H2 & H3). exists ps. split; auto. split; auto. apply (nr_wr rs Hu); auto.
      apply (chain rs _ CRS _ (shortest_from_right rs) dir_rightmost CRS_fnb shortest_right_iff (read ps)); [apply fnb_Wr|]. exists ps; auto.
  - intros X0 Y0 H. apply nr_sub in H. unfold shortest_rightmost in H. apply cc_iff in H. destruct H as (H & _).
    unfold rightmost in H. apply cc_iff in H. apply H.
Qed.
(** What the program gives for the longest from the right, before constraints are interpreted. *)
Lemma rightmost_longest_iff x Y : not_deleting rs ->
  (replace_rightmost_longest rs (txt x) Y <-> exists ps, read ps = x /\ Y = txt (written ps) /\ licensed rs ps /\ from_right rs ps /\
     ~ exists ps', licensed rs ps' /\ from_right rs ps' /\ rel_of CRL (Wr ps') (Wr ps)).
Proof using Hu Hc Hup.
  intros Hnd. unfold replace_rightmost_longest. rewrite (finish rs Hu Hc); auto.
  - assert (Q : forall ps, licensed rs ps -> True /\ from_right rs ps ->
      ((~ exists ps', licensed rs ps' /\ (True /\ from_right rs ps') /\ rel_of CRL (Wr ps') (Wr ps)) <->
       ~ exists ps', licensed rs ps' /\ (True /\ from_right rs ps') /\ rel_of CRL (Wr ps') (Wr ps))) by tauto.
    unfold longest_rightmost. fold CRL. split.
    + intros (ps & E & -> & Ht). apply nr_sub in Ht.
      apply (chain rs _ CRL _ _ dir_rightmost CRL_fnb Q (read ps)) in Ht; [|apply fnb_Wr].
      destruct Ht as (ps' & Hl & ((_ & H1) & H2) & E1 & E2).
      assert (ER : read ps' = read ps) by (apply Wr_read; congruence).
      assert (EW : txt (written ps) = txt (written ps')).
      { rewrite <- !fnb_lb. unfold Wl in E2. injection E2 as E2. apply app_inv_tail in E2. congruence. }
      exists ps'. repeat split; auto; [congruence|]. intros (ps0 & H3 & H4 & H5). apply H2. eauto.
    + intros (ps & <- & -> & H1 & H2 & H3). exists ps. split; auto. split; auto. apply (nr_wr rs Hu); auto.
      apply (chain rs _ CRL _ _ dir_rightmost CRL_fnb Q (read ps)); [apply fnb_Wr|]. exists ps. split; auto. split; auto. split; auto.
      intros (ps' & H4 & (_ & H5) & H6). apply H3. eauto.
  - intros X0 Y0 H. apply nr_sub in H. unfold longest_rightmost in H. apply cc_iff in H. destruct H as (H & _).
    unfold rightmost in H. apply cc_iff in H. apply H.
Qed.
Theorem rightmost_longest_half x y : not_deleting rs ->
  directed rs from_right longest_from_right x y -> replace_rightmost_longest rs (txt x) (txt y).
Proof using Hu Hc Hup.
  intros Hnd (ps & <- & <- & H1 & H2 & H3). apply rightmost_longest_iff; auto. exists ps. repeat split; auto.
  intros (ps' & H4 & _ & H5). apply (longest_right_half ps H1 H3). eauto.
Qed.
End Right.
