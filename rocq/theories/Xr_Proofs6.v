(** Proofs about the replace rules: the constraints of directed replacement. *)
From Verif Require Import Base Xr_Model Xr_Spec Xr_Proofs1 Xr_Proofs2 Xr_Proofs3 Xr_Proofs4 Xr_Proofs5.

Notation fnb := (filter not_bracket).
Definition sym_b (s : sym) : Prop := s = LM \/ s = RM.
Definition nobr (w : word) : Prop := forall s, In s w -> ~ sym_b s.
Lemma not_b_iff s : ~ In s [LM; RM] <-> ~ sym_b s.
Proof. unfold sym_b. simpl. split; intros H G; apply H; destruct G as [G|G]; auto. destruct G as [G|[]]; auto. Qed.
Lemma fnb_b s : sym_b s -> fnb [s] = [].
Proof. intros [->| ->]; reflexivity. Qed.
Lemma rc_not_B X Y : rel_of not_B X Y <-> exists s, ~ sym_b s /\ X = [s] /\ Y = [s].
Proof. unfold not_B. rewrite rc_any. split; intros (s & H & E); exists s; split; auto; apply not_b_iff; auto. Qed.
Lemma rc_plus_not_B X Y : rel_of (plus not_B) X Y <-> X = Y /\ X <> [] /\ nobr X.
Proof.
  rewrite rc_plus. unfold not_B. split.
  - intros (X1 & X2 & Y1 & Y2 & -> & -> & H1 & H2). apply rc_not_B in H1. apply rc_star_any in H2. destruct H1 as (s & Hs & -> & ->).
    destruct H2 as (-> & H2). split; auto. split; [discriminate|]. intros s' [<-|H']; auto. apply not_b_iff. auto.
  - intros (<- & N & H). destruct X as [|s X]; [congruence|]. exists [s], X, [s], X. split; auto. split; auto. split.
    + apply rc_not_B. exists s. split; auto. apply H. left; auto.
    + apply rc_star_any. split; auto. intros s' Hs. apply not_b_iff. apply H. right; auto.
Qed.
Lemma rc_B X Y : rel_of B X Y <-> exists s, sym_b s /\ X = [s] /\ Y = [s].
Proof.
  unfold B. rewrite rc_alt, !rc_same. split.
  - intros [(-> & ->)|(-> & ->)]; [exists LM | exists RM]; unfold sym_b; auto.
  - intros (s & [->| ->] & -> & ->); auto.
Qed.
Lemma rp_iff X Y : rel_of right_part X Y <-> fnb X = fnb Y.
Proof.
  unfold right_part. split.
  - revert X Y. apply rc_star_ind; auto. intros X1 X2 Y1 Y2 H _ IH. rewrite !filter_app, IH. f_equal.
    rewrite !rc_alt, !rc_ins, !rc_del, rc_not_B in H. destruct H as [[[(-> & ->)|(-> & ->)]|[(-> & ->)|(-> & ->)]]|(s & _ & -> & ->)]; auto.
  - revert Y. induction X as [|s X IH]; intros Y E.
    + induction Y as [|s Y IHY]; [apply rc_star; left; auto|].
      assert (Hs : sym_b s) by (simpl in E; destruct s; try discriminate; unfold sym_b; auto).
      apply rc_star. right. exists [], [], [s], Y. split; auto. split; auto. split.
      * rewrite !rc_alt, !rc_ins. destruct Hs as [->| ->]; auto.
      * apply IHY. simpl in E. destruct Hs as [->| ->]; auto.
    + destruct (not_bracket s) eqn:Es.
      * simpl in E. rewrite Es in E.
        assert (G : exists b Y', Y = b ++ s :: Y' /\ (forall t, In t b -> sym_b t) /\ fnb X = fnb Y').
        { clear IH. induction Y as [|t Y IHY]; [discriminate|]. simpl in E. destruct (not_bracket t) eqn:Et.
          - injection E as -> E. exists [], Y. split; auto. split; auto. intros t' [].
          - destruct (IHY E) as (b & Y' & -> & Hb & E'). exists (t :: b), Y'. split; auto. split; auto.
            intros t' [<-|Ht]; auto. destruct t; try discriminate; unfold sym_b; auto. }
        destruct G as (b & Y' & -> & Hb & E'). clear E. induction b as [|t b IHb].
        -- apply rc_star. right. exists [s], X, [s], Y'. split; auto. split; auto. split; [|apply IH; auto].
           rewrite rc_alt, rc_not_B. right. exists s. split; auto. intros [->| ->]; discriminate.
        -- apply rc_star. right. exists [], (s :: X), [t], (b ++ s :: Y'). split; auto. split; auto. split.
           ++ rewrite !rc_alt, !rc_ins. destruct (Hb t (or_introl eq_refl)) as [->| ->]; auto.
           ++ apply IHb. intros t' Ht. apply Hb. right; auto.
      * assert (Hs : sym_b s) by (destruct s; try discriminate; unfold sym_b; auto).
        apply rc_star. right. exists [s], X, [], Y. split; auto. split; auto. split.
        -- rewrite !rc_alt, !rc_del. destruct Hs as [->| ->]; auto.
        -- apply IH. simpl in E. rewrite Es in E. auto.
Qed.

(** Leftmost. *)
Definition CLm : pset := cat (same Bd) (cat anything (cat (del LM) (cat (star (alt (del LM) (del RM))) (cat not_B (cat right_part (same Bd)))))).
Lemma star_del X Y : rel_of (star (alt (del LM) (del RM))) X Y -> Y = [] /\ forall s, In s X -> sym_b s.
Proof.
  revert X Y. apply rc_star_ind; [split; auto; intros s []|]. intros X1 X2 Y1 Y2 H _ (-> & IH). rewrite rc_alt, !rc_del in H.
  destruct H as [(-> & ->)|(-> & ->)]; split; auto; intros s [<-|H]; unfold sym_b; auto; apply IH; auto.
Qed.
Lemma CLm_inv X' X : rel_of CLm X' X -> exists al b s c' c, X' = Bd :: al ++ LM :: b ++ s :: c' ++ [Bd] /\ X = Bd :: al ++ s :: c ++ [Bd] /\
  (forall t, In t b -> sym_b t) /\ ~ sym_b s /\ fnb c' = fnb c.
Proof.
  unfold CLm. intros H. apply rc_cat in H. destruct H as (A1 & A2 & B1 & B2 & -> & -> & H1 & H). apply rc_same in H1. destruct H1 as (-> & ->).
  apply rc_cat in H. destruct H as (A3 & A4 & B3 & B4 & -> & -> & H1 & H). apply rc_anything in H1. subst B3.
  apply rc_cat in H. destruct H as (A5 & A6 & B5 & B6 & -> & -> & H1 & H). apply rc_del in H1. destruct H1 as (-> & ->).
  apply rc_cat in H. destruct H as (A7 & A8 & B7 & B8 & -> & -> & H1 & H). apply star_del in H1. destruct H1 as (-> & Hb).
  apply rc_cat in H. destruct H as (A9 & A10 & B9 & B10 & -> & -> & H1 & H). apply rc_not_B in H1. destruct H1 as (s & Hs & -> & ->).
  apply rc_cat in H. destruct H as (A11 & A12 & B11 & B12 & -> & -> & H1 & H). apply rp_iff in H1. apply rc_same in H. destruct H as (-> & ->).
  exists A3, A7, s, A11, B11. auto.
Qed.
Lemma CLm_intro al s c' c : ~ sym_b s -> fnb c' = fnb c -> rel_of CLm (Bd :: al ++ LM :: s :: c' ++ [Bd]) (Bd :: al ++ s :: c ++ [Bd]).
Proof.
  intros Hs E. unfold CLm. apply rc_cat. exists [Bd], (al ++ LM :: s :: c' ++ [Bd]), [Bd], (al ++ s :: c ++ [Bd]).
  split; auto. split; auto. split; [apply rc_same; auto|]. apply rc_cat. exists al, (LM :: s :: c' ++ [Bd]), al, (s :: c ++ [Bd]).
  split; auto. split; auto. split; [apply rc_anything; auto|]. apply rc_cat. exists [LM], (s :: c' ++ [Bd]), [], (s :: c ++ [Bd]).
  split; auto. split; auto. split; [apply rc_del; auto|]. apply rc_cat. exists [], (s :: c' ++ [Bd]), [], (s :: c ++ [Bd]).
  split; auto. split; auto. split; [apply rc_star; auto|]. apply rc_cat. exists [s], (c' ++ [Bd]), [s], (c ++ [Bd]).
  split; auto. split; auto. split; [apply rc_not_B; eauto|]. apply rc_cat. exists c', [Bd], c, [Bd].
  split; auto. split; auto. split; [apply rp_iff; auto | apply rc_same; auto].
Qed.
Lemma CLm_fnb X' X : rel_of CLm X' X -> fnb X' = fnb X.
Proof.
  intros H. apply CLm_inv in H. destruct H as (al & b & s & c' & c & -> & -> & Hb & Hs & E).
  assert (Eb : fnb b = []).
  { induction b as [|t b IH]; auto. simpl. rewrite IH; [|intros; apply Hb; right; auto]. destruct (Hb t (or_introl eq_refl)) as [->| ->]; auto. }
  change (Bd :: al ++ LM :: b ++ s :: c' ++ [Bd]) with ([Bd] ++ al ++ [LM] ++ b ++ [s] ++ c' ++ [Bd]).
  change (Bd :: al ++ s :: c ++ [Bd]) with ([Bd] ++ al ++ [s] ++ c ++ [Bd]). rewrite !filter_app, Eb, E. reflexivity.
Qed.

(** Splitting at brackets, without second brackets. *)
Lemma Wr_split_l ps al be : Wr ps = al ++ LM :: be -> exists l x y r, ps = l ++ Change x y :: r /\
  al = fo (None :: map Some (map conv l)) /\ be = txt x ++ RM :: fo (map Some (map conv r) ++ [None]).
Proof.
  rewrite <- wr_fo. intros E. apply fo_split_l in E; auto. destruct E as (o1 & c & o2 & E & -> & E'). apply wr_split in E.
  destruct E as (l & p & r & -> & -> & -> & ->). destruct p as [a|x y]; simpl in E'; [discriminate|]. injection E' as E'.
  exists l, x, y, r. rewrite <- app_assoc in E'. auto.
Qed.
Lemma Wr_at ps l' be : Wr ps = fo (None :: map Some (map conv l')) ++ be -> exists o1 o2, wr ps = o1 ++ o2 /\
  fo o1 = fo (None :: map Some (map conv l')) /\ be = fo o2.
Proof. rewrite <- wr_fo. apply fo_prefix. Qed.
Lemma Wr_at_keep ps l' a be : Wr ps = fo (None :: map Some (map conv l')) ++ Pl a :: be ->
  exists l r, ps = l ++ Keep a :: r /\ read l = read l' /\ be = fo (map Some (map conv r) ++ [None]).
Proof.
  intros E. apply Wr_at in E. destruct E as (o1 & o2 & E1 & E2 & E3). destruct o2 as [|[[b|x y|x]|] o2]; simpl in E3; try discriminate.
  injection E3 as <- E3. apply wr_split in E1. destruct E1 as (l & p & r & -> & E & -> & ->). destruct p as [b|x y]; [|discriminate].
  injection E as <-. exists l, r. split; auto. split; auto. apply fo_read; auto.
Qed.
Lemma Wr_at_open ps l' be : Wr ps = fo (None :: map Some (map conv l')) ++ LM :: be ->
  exists l x y r, ps = l ++ Change x y :: r /\ read l = read l' /\ be = txt x ++ RM :: fo (map Some (map conv r) ++ [None]).
Proof.
  intros E. apply Wr_at in E. destruct E as (o1 & o2 & E1 & E2 & E3). destruct o2 as [|[[b|x y|x]|] o2]; simpl in E3; try discriminate.
  injection E3 as E3. apply wr_split in E1. destruct E1 as (l & p & r & -> & E & -> & ->). destruct p as [b|x' y']; [discriminate|].
  injection E as <- <-. exists l, x, y, r. split; auto. split; [apply fo_read; auto|]. rewrite <- app_assoc in E3. auto.
Qed.
Lemma Wr_app l r : Wr (l ++ r) = fo (None :: map Some (map conv l)) ++ fo (map Some (map conv r) ++ [None]).
Proof.
  rewrite <- wr_fo. unfold wr. rewrite !map_app, <- app_assoc. change (None :: map Some (map conv l) ++ map Some (map conv r) ++ [None])
   with ((None :: map Some (map conv l)) ++ (map Some (map conv r) ++ [None])). apply fo_app.
Qed.
Lemma fo_l l : fo (None :: map Some (map conv l)) = Bd :: ub (map conv l).
Proof. simpl. rewrite fo_some. auto. Qed.
Lemma fo_r r : fo (map Some (map conv r) ++ [None]) = ub (map conv r) ++ [Bd].
Proof. rewrite fo_app, fo_some. auto. Qed.
Lemma ub_keep v : ub (map conv (map Keep v)) = txt v.
Proof. rewrite conv_keep, <- fo_some, map_map. apply fo_keeps. Qed.

(** Longest and shortest from the left. *)
Definition tLL : pset := cat (alt not_B (cat (alt (alt (ins LM) (del LM)) (alt (ins RM) B)) (plus not_B))) right_part.
Definition tLS : pset := cat (alt not_B (cat (alt (alt (ins LM) (del LM)) (alt (del RM) B)) (plus not_B))) right_part.
Lemma plus_head X Y : rel_of (plus not_B) X Y -> exists s z, X = s :: z /\ Y = s :: z /\ ~ sym_b s.
Proof.
  rewrite rc_plus_not_B. intros (<- & N & H). destruct X as [|s X]; [congruence|]. exists s, X. repeat split; auto. apply H; left; auto.
Qed.
Lemma tLL_inv Z' Z : rel_of tLL Z' Z -> fnb Z' = fnb Z /\
  ((exists s z, Z' = s :: z /\ ~ sym_b s) \/ (exists z, Z' = LM :: z) \/ (exists z, Z = RM :: z)).
Proof.
  unfold tLL. intros H. apply rc_cat in H. destruct H as (A1 & A2 & B1 & B2 & -> & -> & H1 & H). apply rp_iff in H. rewrite !filter_app, H.
  apply rc_alt in H1. destruct H1 as [H1|H1].
  - apply rc_not_B in H1. destruct H1 as (s & Hs & -> & ->). split; auto. left. simpl. eauto.
  - apply rc_cat in H1. destruct H1 as (A3 & A4 & B3 & B4 & -> & -> & H1 & H2). apply plus_head in H2. destruct H2 as (s & z & -> & -> & Hs).
    rewrite !rc_alt, !rc_ins, rc_del, rc_B in H1.
    destruct H1 as [[(-> & ->)|(-> & ->)]|[(-> & ->)|(t & [->| ->] & -> & ->)]]; (split; [reflexivity|]); simpl.
    + left; eauto.
    + right; left; eauto.
    + right; right; eauto.
    + right; left; eauto.
    + right; right; eauto.
Qed.
Lemma tLS_inv Z' Z : rel_of tLS Z' Z -> fnb Z' = fnb Z /\
  ((exists s z, Z = s :: z /\ ~ sym_b s) \/ (exists z, Z = LM :: z) \/ (exists z, Z' = RM :: z)).
Proof.
  unfold tLS. intros H. apply rc_cat in H. destruct H as (A1 & A2 & B1 & B2 & -> & -> & H1 & H). apply rp_iff in H. rewrite !filter_app, H.
  apply rc_alt in H1. destruct H1 as [H1|H1].
  - apply rc_not_B in H1. destruct H1 as (s & Hs & -> & ->). split; auto. left. simpl. eauto.
  - apply rc_cat in H1. destruct H1 as (A3 & A4 & B3 & B4 & -> & -> & H1 & H2). apply plus_head in H2. destruct H2 as (s & z & -> & -> & Hs).
    rewrite !rc_alt, !rc_ins, !rc_del, rc_B in H1.
    destruct H1 as [[(-> & ->)|(-> & ->)]|[(-> & ->)|(t & [->| ->] & -> & ->)]]; (split; [reflexivity|]); simpl.
    + right; left; eauto.
    + left; eauto.
    + right; right; eauto.
    + right; left; eauto.
    + right; right; eauto.
Qed.
Lemma tLL_intro s c' c Z : ~ sym_b s -> fnb c' = fnb c -> Z = s :: c \/ Z = LM :: s :: c -> rel_of tLL (s :: c') Z.
Proof.
  intros Hs E [->| ->]; unfold tLL; apply rc_cat.
  - exists [s], c', [s], c. split; auto. split; auto. split; [|apply rp_iff; auto]. apply rc_alt. left. apply rc_not_B; eauto.
  - exists [s], c', [LM; s], c. split; auto. split; auto. split; [|apply rp_iff; auto]. apply rc_alt. right. apply rc_cat.
    exists [], [s], [LM], [s]. split; auto. split; auto. split; [rewrite !rc_alt, !rc_ins; auto|]. apply rc_plus_not_B.
    split; auto. split; [discriminate|]. intros t [<-|[]]; auto.
Qed.
Lemma tLS_intro s c' c Z' : ~ sym_b s -> fnb c' = fnb c -> Z' = s :: c' \/ Z' = LM :: s :: c' -> rel_of tLS Z' (s :: c).
Proof.
  intros Hs E [->| ->]; unfold tLS; apply rc_cat.
  - exists [s], c', [s], c. split; auto. split; auto. split; [|apply rp_iff; auto]. apply rc_alt. left. apply rc_not_B; eauto.
  - exists [LM; s], c', [s], c. split; auto. split; auto. split; [|apply rp_iff; auto]. apply rc_alt. right. apply rc_cat.
    exists [LM], [s], [], [s]. split; auto. split; auto. split; [rewrite !rc_alt, !rc_del; auto|]. apply rc_plus_not_B.
    split; auto. split; [discriminate|]. intros t [<-|[]]; auto.
Qed.
Definition CLL : pset := cat anything (cat (same LM) (cat (plus not_B) (cat (ins RM) tLL))).
Definition CLS : pset := cat anything (cat (same LM) (cat (plus not_B) (cat (del RM) tLS))).
Lemma CLL_iff X' X : rel_of CLL X' X <-> exists al w Z' Z, X' = al ++ LM :: w ++ Z' /\ X = al ++ LM :: w ++ RM :: Z /\ w <> [] /\ nobr w /\ rel_of tLL Z' Z.
Proof.
  unfold CLL. split.
  - intros H. apply rc_cat in H. destruct H as (A1 & A2 & B1 & B2 & -> & -> & H1 & H). apply rc_anything in H1. subst B1.
    apply rc_cat in H. destruct H as (A3 & A4 & B3 & B4 & -> & -> & H1 & H). apply rc_same in H1. destruct H1 as (-> & ->).
    apply rc_cat in H. destruct H as (A5 & A6 & B5 & B6 & -> & -> & H1 & H). apply rc_plus_not_B in H1. destruct H1 as (<- & N & Hn).
    apply rc_cat in H. destruct H as (A7 & A8 & B7 & B8 & -> & -> & H1 & H). apply rc_ins in H1. destruct H1 as (-> & ->).
    exists A1, A5, A8, B8. auto.
  - intros (al & w & Z' & Z & -> & -> & N & Hn & H). apply rc_cat. exists al, (LM :: w ++ Z'), al, (LM :: w ++ RM :: Z).
    split; auto. split; auto. split; [apply rc_anything; auto|]. apply rc_cat. exists [LM], (w ++ Z'), [LM], (w ++ RM :: Z).
    split; auto. split; auto. split; [apply rc_same; auto|]. apply rc_cat. exists w, Z', w, (RM :: Z).
    split; auto. split; auto. split; [apply rc_plus_not_B; auto|]. apply rc_cat. exists [], Z', [RM], Z.
    split; auto. split; auto. split; auto. apply rc_ins; auto.
Qed.
Lemma CLS_iff X' X : rel_of CLS X' X <-> exists al w Z' Z, X' = al ++ LM :: w ++ RM :: Z' /\ X = al ++ LM :: w ++ Z /\ w <> [] /\ nobr w /\ rel_of tLS Z' Z.
Proof.
  unfold CLS. split.
  - intros H. apply rc_cat in H. destruct H as (A1 & A2 & B1 & B2 & -> & -> & H1 & H). apply rc_anything in H1. subst B1.
    apply rc_cat in H. destruct H as (A3 & A4 & B3 & B4 & -> & -> & H1 & H). apply rc_same in H1. destruct H1 as (-> & ->).
    apply rc_cat in H. destruct H as (A5 & A6 & B5 & B6 & -> & -> & H1 & H). apply rc_plus_not_B in H1. destruct H1 as (<- & N & Hn).
    apply rc_cat in H. destruct H as (A7 & A8 & B7 & B8 & -> & -> & H1 & H). apply rc_del in H1. destruct H1 as (-> & ->).
    exists A1, A5, A8, B8. auto.
  - intros (al & w & Z' & Z & -> & -> & N & Hn & H). apply rc_cat. exists al, (LM :: w ++ RM :: Z'), al, (LM :: w ++ Z).
    split; auto. split; auto. split; [apply rc_anything; auto|]. apply rc_cat. exists [LM], (w ++ RM :: Z'), [LM], (w ++ Z).
    split; auto. split; auto. split; [apply rc_same; auto|]. apply rc_cat. exists w, (RM :: Z'), w, Z.
    split; auto. split; auto. split; [apply rc_plus_not_B; auto|]. apply rc_cat. exists [RM], Z', [], Z.
    split; auto. split; auto. split; auto. apply rc_del; auto.
Qed.
Lemma fnb_mid al w Z : fnb (al ++ LM :: w ++ RM :: Z) = fnb (al ++ LM :: w ++ Z).
Proof. rewrite !filter_app. simpl. rewrite !filter_app. reflexivity. Qed.
Lemma CLL_fnb X' X : rel_of CLL X' X -> fnb X' = fnb X.
Proof.
  rewrite CLL_iff. intros (al & w & Z' & Z & -> & -> & _ & _ & H). apply tLL_inv in H. destruct H as (H & _).
  rewrite fnb_mid, !filter_app. simpl. rewrite !filter_app, H. auto.
Qed.
Lemma CLS_fnb X' X : rel_of CLS X' X -> fnb X' = fnb X.
Proof.
  rewrite CLS_iff. intros (al & w & Z' & Z & -> & -> & _ & _ & H). apply tLS_inv in H. destruct H as (H & _).
  rewrite fnb_mid, !filter_app. simpl. rewrite !filter_app, H. auto.
Qed.
Lemma sep_b w x R u u' : nobr w -> sym_b R -> w ++ R :: u = txt x ++ RM :: u' -> w = txt x /\ R = RM /\ u = u'.
Proof.
  intros Hw HR. revert x. induction w as [|s w IH]; intros [|a x] E; simpl in E.
  - inversion E; auto.
  - injection E as -> _. destruct HR; discriminate.
  - injection E as -> _. destruct (Hw RM); [left; auto | right; auto].
  - injection E as -> E. apply IH in E; [|intros s Hs; apply Hw; right; auto]. destruct E as (-> & -> & ->). auto.
Qed.
(** What goes on after the same beginning. *)
Lemma goes_on x s z x' u : ~ sym_b s -> txt x ++ s :: z = txt x' ++ RM :: u -> exists v, x' = x ++ v /\ v <> [].
Proof.
  intros Hs. revert x'. induction x as [|a x IH]; intros [|b x'] E; simpl in E.
  - injection E as -> _. destruct Hs. right; auto.
  - exists (b :: x'). split; [auto | discriminate].
  - discriminate.
  - injection E as -> E. destruct (IH x' E) as (v & -> & Hv). exists v. auto.
Qed.
Lemma not_right r z : fo (map Some (map conv r) ++ [None]) <> RM :: z.
Proof. destruct r as [|[a|x y] r]; discriminate. Qed.
Lemma nobr_txt x : nobr (txt x).
Proof. intros s Hs. apply txt_plain in Hs. destruct Hs as (a & ->). intros [E|E]; discriminate. Qed.
(** The first symbol read. *)
Lemma first_read r a v : read r = a :: v -> (forall x y, In (Change x y) r -> x <> []) -> exists c,
  (fo (map Some (map conv r) ++ [None]) = Pl a :: c \/ fo (map Some (map conv r) ++ [None]) = LM :: Pl a :: c) /\ fnb c = txt v ++ [Bd].
Proof.
  intros E Hne. destruct r as [|[b|x y] r]; simpl in E; [discriminate| |].
  - injection E as -> E. exists (fo (map Some (map conv r) ++ [None])). split; [left; auto|]. rewrite fo_r, filter_app, fnb_ub, E. auto.
  - destruct x as [|b x]; [destruct (Hne [] y); auto; left; auto|]. simpl in E. injection E as -> E.
    exists (txt x ++ RM :: fo (map Some (map conv r) ++ [None])). split; [right; simpl; rewrite <- app_assoc; auto|].
    rewrite filter_app, fnb_txt. simpl. rewrite fo_r, filter_app, fnb_ub, <- E, txt_app, <- app_assoc. auto.
Qed.

Section Left.
Variable rs : list rule.
Hypothesis Hu : forall r, In r rs -> firm r.
Hypothesis Hc : contexts_seen rs.
Hypothesis Hup : upward rs.

Lemma leftmost_iff ps : licensed rs ps ->
  (from_left rs ps <-> ~ exists ps', licensed rs ps' /\ True /\ rel_of CLm (Wr ps') (Wr ps)).
Proof using Hu Hup.
  intros Hl. split.
  - intros Hf (ps' & Hl' & _ & Hd). pose proof (CLm_fnb _ _ Hd) as ER. apply Wr_read in ER. apply CLm_inv in Hd.
    destruct Hd as (al & b & s & c' & c & E1 & E2 & Hb & Hs & _).
    change (Bd :: al ++ LM :: b ++ s :: c' ++ [Bd]) with ((Bd :: al) ++ LM :: b ++ s :: c' ++ [Bd]) in E1.
    apply Wr_split_l in E1. destruct E1 as (l' & x & y & r' & -> & Ea & Eb).
    apply (proj1 (lic_iff rs Hup _)) in Hl'. apply allp_app in Hl'. destruct Hl' as (_ & Hl'). simpl in Hl'. destruct Hl' as (Ha & _).
    assert (Hx : x <> []) by (eapply appl_ne; eauto). destruct x as [|a x]; [congruence|].
    destruct b as [|t b]; simpl in Eb; injection Eb as -> Eb; [|destruct (Hb (Pl a) (or_introl eq_refl)); discriminate].
    change (Bd :: al ++ Pl a :: c ++ [Bd]) with ((Bd :: al) ++ Pl a :: c ++ [Bd]) in E2. rewrite Ea in E2. apply Wr_at_keep in E2.
    destruct E2 as (l & r & -> & El & _). rewrite !read_app, El in ER. apply app_inv_head in ER. simpl in ER.
    apply (Hf l a r (a :: x) (read r') eq_refl); [simpl; congruence|]. exists y. rewrite El. rewrite app_nil_r in Ha. exact Ha.
  - intros N l a r x v -> E (y & Ha). apply N.
    assert (Hx : x <> []) by (eapply (appl_ne rs Hu); exact Ha). destruct x as [|a' x]; [congruence|]. simpl in E. injection E as <- E.
    exists (l ++ Change (a :: x) y :: map Keep v). split; [|split; auto].
    + apply (lic_iff rs Hup). apply (proj1 (lic_iff rs Hup _)) in Hl. apply allp_app in Hl. destruct Hl as (H1 & _). apply allp_app.
      rewrite app_nil_r in *. split.
      * simpl in *. rewrite read_keep, <- E. auto.
      * simpl. split; [rewrite app_nil_r, read_keep; exact Ha|]. apply allp_keep. simpl; auto.
    + rewrite !Wr_app, fo_l, !fo_r. simpl. rewrite <- !app_assoc.
      pose proof (CLm_intro (ub (map conv l)) (Pl a) (txt x ++ RM :: txt v) (ub (map conv r))) as H.
      rewrite ub_keep. simpl in H |- *. rewrite <- app_assoc in H. apply H; [intros [E'|E']; discriminate|].
      rewrite filter_app, fnb_txt, fnb_ub. simpl. rewrite fnb_txt, <- txt_app, E. auto.
Qed.

Lemma lic_ne ps x y : licensed rs ps -> In (Change x y) ps -> x <> [].
Proof using Hu.
  intros Hl Hin. apply in_split in Hin. destruct Hin as (l & r & ->). destruct (Hl l x y r eq_refl) as (ru & H1 & H2 & _).
  eapply maps_ne; eauto.
Qed.
Lemma PL_iff ps : allp (PL rs) [] ps [] <-> licensed rs ps /\ from_left rs ps.
Proof using Hup. unfold PL. rewrite allp_and, (lic_iff rs Hup), fl_iff. tauto. Qed.
Lemma longest_left_iff ps : licensed rs ps -> True /\ from_left rs ps ->
  (longest_from_left rs ps <-> ~ exists ps', licensed rs ps' /\ (True /\ from_left rs ps') /\ rel_of CLL (Wr ps') (Wr ps)).
Proof using Hu Hup.
  intros Hl (_ & Hfl). split.
  - intros Hf (ps' & Hl' & _ & Hd). pose proof (CLL_fnb _ _ Hd) as ER. apply Wr_read in ER. apply CLL_iff in Hd.
    destruct Hd as (al & w & Z' & Z & E1 & E2 & Hn & Hw & Ht). apply tLL_inv in Ht. destruct Ht as (_ & Ht).
    apply Wr_split_l in E1. destruct E1 as (l' & x' & y' & r' & -> & -> & Eb).
    apply Wr_at_open in E2. destruct E2 as (l & x & y & r & -> & El & Ez).
    apply sep_b in Ez; auto; [|right; auto]. destruct Ez as (-> & _ & ->).
    apply (proj1 (lic_iff rs Hup _)) in Hl'. apply allp_app in Hl'. destruct Hl' as (_ & Hl'). simpl in Hl'. destruct Hl' as (Ha & _).
    rewrite app_nil_r in Ha.
    destruct Ht as [(s & z & -> & Hs)|[(z & ->)|(z & Ez)]].
    + apply goes_on in Eb; auto. destruct Eb as (v & -> & Hv). rewrite !read_app, El in ER. apply app_inv_head in ER. simpl in ER.
      rewrite <- app_assoc in ER. apply app_inv_head in ER. apply (Hf l x y r v (read r') eq_refl); auto. exists y'. rewrite El. exact Ha.
    + apply sep_b in Eb; [|apply nobr_txt|left; auto]. destruct Eb as (_ & Eb & _). discriminate.
    + destruct (not_right _ _ Ez).
  - intros N l x y r w v -> E Hw (y' & Ha). apply N.
    pose proof (proj2 (PL_iff _) (conj Hl Hfl)) as HP. apply allp_app in HP. destruct HP as (HP & _).
    destruct (complete_left rs Hu (List.length v) v (read l ++ x ++ w)) as (q & Eq & Hq); auto.
    assert (G : allp (PL rs) [] (l ++ Change (x ++ w) y' :: q) []).
    { apply allp_app. simpl. rewrite app_nil_r, Eq. rewrite app_nil_r in HP. split; [|split; auto].
      - simpl in HP. rewrite E in HP. rewrite <- app_assoc. auto.
      - rewrite app_nil_r. split; simpl; auto. }
    apply PL_iff in G. destruct G as (G1 & G2). exists (l ++ Change (x ++ w) y' :: q). split; auto. split; auto.
    rewrite !Wr_app. apply CLL_iff. destruct w as [|a w]; [congruence|].
    destruct (first_read r a (w ++ v)) as (c & Ec & Fc); auto.
    { intros x1 y1 Hin. apply (lic_ne _ x1 y1 Hl). apply in_or_app. right. right. auto. }
    exists (fo (None :: map Some (map conv l))), (txt x), (Pl a :: txt w ++ RM :: fo (map Some (map conv q) ++ [None])), (fo (map Some (map conv r) ++ [None])).
    split; [|split; [|split; [|split]]].
    + simpl. rewrite txt_app, <- !app_assoc. simpl. reflexivity.
    + simpl. rewrite <- !app_assoc. reflexivity.
    + assert (Hx : x <> []) by (apply (lic_ne _ x y Hl); apply in_or_app; right; left; auto). destruct x; [congruence|discriminate].
    + apply nobr_txt.
    + eapply tLL_intro; [intros [E'|E']; discriminate| |exact Ec]. rewrite Fc, filter_app, fnb_txt. simpl.
      rewrite fo_r, filter_app, fnb_ub, Eq, txt_app, <- app_assoc. auto.
Qed.
Lemma shortest_left_iff ps : licensed rs ps -> True /\ from_left rs ps ->
  (shortest_from_left rs ps <-> ~ exists ps', licensed rs ps' /\ (True /\ from_left rs ps') /\ rel_of CLS (Wr ps') (Wr ps)).
Proof using Hu Hup.
  intros Hl (_ & Hfl). split.
  - intros Hf (ps' & Hl' & _ & Hd). pose proof (CLS_fnb _ _ Hd) as ER. apply Wr_read in ER. apply CLS_iff in Hd.
    destruct Hd as (al & w & Z' & Z & E1 & E2 & Hn & Hw & Ht). apply tLS_inv in Ht. destruct Ht as (_ & Ht).
    apply Wr_split_l in E1. destruct E1 as (l' & x' & y' & r' & -> & -> & Eb).
    apply sep_b in Eb; auto; [|right; auto]. destruct Eb as (-> & _ & ->).
    apply Wr_at_open in E2. destruct E2 as (l & x & y & r & -> & El & Ez).
    apply (proj1 (lic_iff rs Hup _)) in Hl'. apply allp_app in Hl'. destruct Hl' as (_ & Hl'). simpl in Hl'. destruct Hl' as (Ha & _).
    rewrite app_nil_r in Ha.
    destruct Ht as [(s & z & -> & Hs)|[(z & ->)|(z & Eb)]].
    + apply goes_on in Ez; auto. destruct Ez as (v & -> & Hv). rewrite !read_app, El in ER. apply app_inv_head in ER. simpl in ER.
      rewrite <- app_assoc in ER. apply app_inv_head in ER. apply (Hf l (x' ++ v) y r x' v eq_refl); auto. exists y'. rewrite El, <- ER. exact Ha.
    + apply sep_b in Ez; [|apply nobr_txt|left; auto]. destruct Ez as (_ & Eb & _). discriminate.
    + destruct (not_right _ _ Eb).
  - intros N l x y r w v -> -> Hv (y' & Ha). apply N.
    pose proof (proj2 (PL_iff _) (conj Hl Hfl)) as HP. apply allp_app in HP. destruct HP as (HP & _).
    destruct (complete_left rs Hu (List.length (v ++ read r)) (v ++ read r) (read l ++ w)) as (q & Eq & Hq); auto.
    assert (G : allp (PL rs) [] (l ++ Change w y' :: q) []).
    { apply allp_app. simpl. rewrite app_nil_r, Eq. rewrite app_nil_r in HP. split; [|split; auto].
      - simpl in HP. rewrite <- app_assoc in HP. auto.
      - rewrite app_nil_r. split; simpl; auto. }
    apply PL_iff in G. destruct G as (G1 & G2). exists (l ++ Change w y' :: q). split; auto. split; auto.
    rewrite !Wr_app. apply CLS_iff. destruct v as [|a v]; [congruence|].
    destruct (first_read q a (v ++ read r)) as (c & Ec & Fc); auto.
    { intros x1 y1 Hin. apply (lic_ne _ x1 y1 G1). apply in_or_app. right. right. auto. }
    exists (fo (None :: map Some (map conv l))), (txt w), (fo (map Some (map conv q) ++ [None])), (Pl a :: txt v ++ RM :: fo (map Some (map conv r) ++ [None])).
    split; [|split; [|split; [|split]]].
    + simpl. rewrite <- !app_assoc. simpl. reflexivity.
    + simpl. rewrite txt_app, <- !app_assoc. reflexivity.
    + assert (Hx : w <> []) by (apply (lic_ne _ w y' G1); apply in_or_app; right; left; auto). destruct w; [congruence|discriminate].
    + apply nobr_txt.
    + eapply tLS_intro; [intros [E'|E']; discriminate| |exact Ec]. rewrite Fc, filter_app, fnb_txt. simpl.
      rewrite fo_r, filter_app, fnb_ub, txt_app, <- app_assoc. auto.
Qed.
(** Nothing empty is bracketed. *)
Lemma one_better_iff (t : rel) ps Y : licensed rs ps -> (forall X Y, fnb X = fnb (Wr ps) -> t X Y -> exists ps', licensed rs ps' /\ X = Wr ps') ->
  (one_better t (Wr ps) Y <-> t (Wr ps) Y).
Proof using Hu.
  intros Hl Ht. unfold one_better. rewrite cc_iff. split; [tauto|]. intros H. split; auto. intros (X' & Y' & H' & Hd).
  apply rc_cat in Hd. destruct Hd as (A1 & A2 & B1 & B2 & -> & E & H1 & Hd). apply rc_same in H1. destruct H1 as (-> & ->).
  apply rc_cat in Hd. destruct Hd as (A3 & A4 & B3 & B4 & -> & -> & H1 & Hd). apply rc_anything in H1. subst B3.
  apply rc_cat in Hd. destruct Hd as (A5 & A6 & B5 & B6 & -> & -> & H1 & Hd). apply rc_del in H1. destruct H1 as (-> & ->).
  apply rc_cat in Hd. destruct Hd as (A7 & A8 & B7 & B8 & -> & -> & H1 & Hd). apply rc_del in H1. destruct H1 as (-> & ->).
  apply rc_cat in Hd. destruct Hd as (A9 & A10 & B9 & B10 & -> & -> & H1 & Hd). apply rc_same in H1. destruct H1 as (-> & ->).
  apply rc_anything in Hd. subst B10.
  destruct (Ht ([Bd] ++ A3 ++ [LM] ++ [RM] ++ [Bd] ++ A10) Y') as (ps' & Hl' & E'); auto.
  { rewrite E. rewrite !filter_app. reflexivity. }
  symmetry in E'. change ([Bd] ++ A3 ++ [LM] ++ [RM] ++ [Bd] ++ A10) with ((Bd :: A3) ++ LM :: RM :: Bd :: A10) in E'.
  apply Wr_split_l in E'. destruct E' as (l & x & y & r & -> & _ & Eb). destruct x as [|a x]; [|discriminate].
  apply (lic_ne _ [] y Hl'); auto. apply in_or_app. right; left; auto.
Qed.
Lemma nr_wr second t ps Y : licensed rs ps -> (no_repetition second t (Wr ps) Y <-> t (Wr ps) Y).
Proof using Hu.
  intros Hl. rewrite (nr_iff second t (Wr ps) Y (map conv ps) eq_refl); [|intros _ x; apply conv_no_al]. rewrite once_conv.
  split; [tauto|]. intros H. split; auto. intros l y y' r E. apply (lic_ne ps [] y Hl); auto. rewrite E. apply in_or_app. right; left; auto.
Qed.
Lemma dir_start second x X Y : fnb X = Bd :: txt x ++ [Bd] ->
  (no_repetition second (bracketed_rules rs true) X Y <-> exists ps, licensed rs ps /\ True /\ X = Wr ps /\ Y = Wl ps).
Proof using Hu Hc.
  intros E. split.
  - intros H. apply nr_sub in H. apply (dom rs Hu Hc x) in H; auto. destruct H as (ps & H1 & H2). eauto.
  - intros (ps & H1 & _ & -> & ->). apply nr_wr; auto. apply (dom rs Hu Hc x); eauto.
Qed.
Lemma dir_leftmost second x X Y : fnb X = Bd :: txt x ++ [Bd] ->
  (leftmost (no_repetition second (bracketed_rules rs true)) X Y <-> exists ps, licensed rs ps /\ (True /\ from_left rs ps) /\ X = Wr ps /\ Y = Wl ps).
Proof using Hu Hc Hup.
  revert x X Y. unfold leftmost. fold CLm.
  apply (chain rs _ CLm (fun _ => True) (from_left rs)); [apply dir_start | apply CLm_fnb | intros ps H _; apply leftmost_iff; auto].
Qed.
Lemma dir_one_better second x X Y : fnb X = Bd :: txt x ++ [Bd] ->
  (one_better (leftmost (no_repetition second (bracketed_rules rs true))) X Y <-> exists ps, licensed rs ps /\ (True /\ from_left rs ps) /\ X = Wr ps /\ Y = Wl ps).
Proof using Hu Hc Hup.
  intros E. split.
  - intros H. pose proof H as H0. unfold one_better in H0. apply cc_iff in H0. apply (dir_leftmost second x); auto. apply H0.
  - intros (ps & H1 & H2 & -> & ->). apply one_better_iff; auto; [|apply (dir_leftmost second x); eauto].
    intros X Y E' Ht. rewrite E in E'. apply (dir_leftmost second x) in Ht; auto. destruct Ht as (ps' & H3 & _ & E3 & _). eauto.
Qed.
Theorem leftmost_longest x Y : not_deleting rs ->
  (replace_leftmost_longest rs (txt x) Y <-> exists y, Y = txt y /\ directed rs from_left longest_from_left x y).
Proof using Hu Hc Hup.
  intros Hnd. unfold replace_leftmost_longest. rewrite (finish rs Hu Hc); auto.
  - unfold longest_leftmost. fold tLL CLL. split.
    + intros (ps & E & -> & Ht).
      apply (chain rs _ CLL _ (longest_from_left rs) (dir_one_better _) CLL_fnb longest_left_iff (read ps)) in Ht; [|apply fnb_Wr].
      destruct Ht as (ps' & Hl & ((_ & H1) & H2) & E1 & E2).
      assert (ER : read ps' = read ps) by (apply Wr_read; congruence).
      assert (EW : txt (written ps) = txt (written ps')).
      { rewrite <- !fnb_lb. unfold Wl in E2. injection E2 as E2. apply app_inv_tail in E2. congruence. }
      exists (written ps'). split; auto. exists ps'. repeat split; auto. congruence.
    + intros (y & -> & ps & <- & <- & H1 & H2 & H3). exists ps. split; auto. split; auto.
      apply (chain rs _ CLL _ (longest_from_left rs) (dir_one_better _) CLL_fnb longest_left_iff (read ps)); [apply fnb_Wr|]. exists ps; auto.
  - intros X0 Y0 H. unfold longest_leftmost in H. apply cc_iff in H. destruct H as (H & _). unfold one_better in H. apply cc_iff in H. destruct H as (H & _).
    unfold leftmost in H. apply cc_iff in H. destruct H as (H & _). apply nr_sub in H. auto.
Qed.
Theorem leftmost_shortest x Y : not_deleting rs ->
  (replace_leftmost_shortest rs (txt x) Y <-> exists y, Y = txt y /\ directed rs from_left shortest_from_left x y).
Proof using Hu Hc Hup.
  intros Hnd. unfold replace_leftmost_shortest. rewrite (finish rs Hu Hc); auto.
  - unfold shortest_leftmost. fold tLS CLS. split.
    + intros (ps & E & -> & Ht).
      apply (chain rs _ CLS _ (shortest_from_left rs) (dir_one_better _) CLS_fnb shortest_left_iff (read ps)) in Ht; [|apply fnb_Wr].
      destruct Ht as (ps' & Hl & ((_ & H1) & H2) & E1 & E2).
      assert (ER : read ps' = read ps) by (apply Wr_read; congruence).
      assert (EW : txt (written ps) = txt (written ps')).
      { rewrite <- !fnb_lb. unfold Wl in E2. injection E2 as E2. apply app_inv_tail in E2. congruence. }
      exists (written ps'). split; auto. exists ps'. repeat split; auto. congruence.
    + intros (y & -> & ps & <- & <- & H1 & H2 & H3). exists ps. split; auto. split; auto.
      apply (chain rs _ CLS _ (shortest_from_left rs) (dir_one_better _) CLS_fnb shortest_left_iff (read ps)); [apply fnb_Wr|]. exists ps; auto.
  - intros X0 Y0 H. unfold shortest_leftmost in H. apply cc_iff in H. destruct H as (H & _). unfold one_better in H. apply cc_iff in H. destruct H as (H & _).
    unfold leftmost in H. apply cc_iff in H. destruct H as (H & _). apply nr_sub in H. auto.
Qed.
End Left.
