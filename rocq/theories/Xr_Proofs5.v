(** Proofs about the replace rules: directed replacement. *)
From Verif Require Import Base Xr_Model Xr_Spec Xr_Proofs1 Xr_Proofs2 Xr_Proofs3 Xr_Proofs4.

(** Pieces between the texts read before and after them. *)
Fixpoint allp (P : text -> piece -> text -> Prop) (u : text) (ps : list piece) (v : text) : Prop :=
  match ps with
  | [] => True
  | p :: r => P u p (read r ++ v) /\ allp P (u ++ read1 p) r v
  end.
Lemma read_app p q : read (p ++ q) = read p ++ read q.
Proof. apply flat_map_app. Qed.
Lemma read_keep x : read (map Keep x) = x.
Proof. induction x; simpl; auto. f_equal; auto. Qed.
Lemma allp_app P u p q v : allp P u (p ++ q) v <-> allp P u p (read q ++ v) /\ allp P (u ++ read p) q v.
Proof.
  revert u. induction p as [|a p IH]; intros u; simpl.
  - rewrite app_nil_r. tauto.
  - rewrite IH, read_app, <- !app_assoc. tauto.
Qed.
Lemma allp_iff P u ps v : allp P u ps v <-> forall l p r, ps = l ++ p :: r -> P (u ++ read l) p (read r ++ v).
Proof.
  split.
  - intros H l p r ->. apply allp_app in H. apply H.
  - revert u. induction ps as [|p ps IH]; intros u H; simpl; auto. split.
    + specialize (H [] p ps eq_refl). simpl in H. rewrite app_nil_r in H. auto.
    + apply IH. intros l q r ->. specialize (H (p :: l) q r eq_refl). simpl in H. rewrite app_assoc in H. auto.
Qed.
Lemma allp_nil P ps : allp P [] ps [] <-> forall l p r, ps = l ++ p :: r -> P (read l) p (read r).
Proof. rewrite allp_iff. split; intros H l p r E; specialize (H l p r E); rewrite app_nil_r in *; auto. Qed.
Lemma allp_keep (P : text -> piece -> text -> Prop) x : (forall u a v, P u (Keep a) v) -> forall u v, allp P u (map Keep x) v.
Proof. intros H. induction x; simpl; auto. Qed.

(** The rules considered: they do not insert. *)
Definition firm (r : rule) : Prop := usual r /\ forall x y, maps r x y -> x <> [].
Lemma maps_ne r x y : firm r -> maps r x y -> x <> [].
Proof. intros (_ & H). apply H. Qed.
Lemma firm_usual (rs : list rule) : (forall r, In r rs -> firm r) -> forall r, In r rs -> usual r.
Proof. intros H r Hr. apply (H r Hr). Qed.

Section Directed.
Variable rs : list rule.
Hypothesis Hu : forall r, In r rs -> firm r.
Hypothesis Hc : contexts_seen rs.
Hypothesis Hup : upward rs.

Definition appl (u x y v : text) : Prop := applies rs (map Keep u) x y (map Keep v).
Lemma appl_iff l x y r : applies rs l x y r <-> appl (read l) x y (read r).
Proof using Hup.
  unfold appl, applies, in_context. split; intros (ru & H1 & H2 & c & H3 & H4 & H5); exists ru; split; auto; split; auto; exists c;
  rewrite (Hup ru H1) in *; rewrite !read_keep in *; auto.
Qed.
Definition Plic (u : text) (p : piece) (v : text) : Prop := match p with Keep _ => True | Change x y => appl u x y v end.
Definition Pfl (u : text) (p : piece) (v : text) : Prop :=
  match p with Keep a => forall x w, a :: v = x ++ w -> ~ match_at rs u x w | Change _ _ => True end.
Definition Pfr (u : text) (p : piece) (v : text) : Prop :=
  match p with Keep a => forall w x, u ++ [a] = w ++ x -> ~ match_at rs w x v | Change _ _ => True end.
Lemma lic_iff ps : licensed rs ps <-> allp Plic [] ps [].
Proof using Hup.
  rewrite allp_nil. unfold licensed. split.
  - intros H l [a|x y] r E; simpl; auto. apply (proj1 (appl_iff l x y r)). auto.
  - intros H l x y r E. apply (proj2 (appl_iff l x y r)). apply (H l (Change x y) r E).
Qed.
Lemma fl_iff ps : from_left rs ps <-> allp Pfl [] ps [].
Proof.
  rewrite allp_nil. unfold from_left. split.
  - intros H l [a|x y] r E; simpl; auto. intros x w E'. eauto.
  - intros H l a r x v E E'. specialize (H l (Keep a) r E). simpl in H. eauto.
Qed.
Lemma fr_iff ps : from_right rs ps <-> allp Pfr [] ps [].
Proof.
  rewrite allp_nil. unfold from_right. split.
  - intros H l [a|x y] r E; simpl; auto. intros x w E'. eauto.
  - intros H l a r x v E E'. specialize (H l (Keep a) r E). simpl in H. eauto.
Qed.
Lemma appl_ne u x y v : appl u x y v -> x <> [].
Proof using Hu. intros (ru & H1 & H2 & _). eapply maps_ne; eauto. Qed.
Lemma match_ne u x v : match_at rs u x v -> x <> [].
Proof using Hu. intros (y & H). eapply appl_ne; eauto. Qed.
Lemma dec_match u x v : match_at rs u x v \/ ~ match_at rs u x v.
Proof using Hu.
  assert (D : (exists ru, In ru rs /\ ((exists ab, In ab (r_map ru) /\ fst ab (txt x)) /\ in_context ru (map Keep u) (map Keep v))) \/
            ~ exists ru, In ru rs /\ ((exists ab, In ab (r_map ru) /\ fst ab (txt x)) /\ in_context ru (map Keep u) (map Keep v))).
  { apply dec_list. intros ru Hin. apply dec_and.
    - apply dec_list. intros (A & B) Hab. destruct (Hu ru Hin) as ((H & _) & _). destruct (H A B Hab) as (_ & _ & D & _). apply D.
    - destruct (dec_actx ru (map conv (map Keep u)) (map conv (map Keep v)) (firm_usual rs Hu ru Hin)) as [D|D]; rewrite actx_conv in D; auto. }
  destruct D as [(ru & H1 & ((A & B) & H2 & H3) & H4)|N].
  - left. destruct (Hu ru H1) as ((H & _) & _). destruct (H A B H2) as (_ & UB & _ & _ & y & Hy). destruct (UB y Hy) as (y0 & ->).
    exists y0, ru. split; auto. split; auto. exists A, B. auto.
  - right. intros (y & ru & H1 & (A & B & H2 & H3 & _) & H4). apply N. exists ru. split; auto. split; auto. exists (A, B); auto.
Qed.
Lemma dec_split {A} (P : list A -> list A -> Prop) w : (forall a b, P a b \/ ~ P a b) ->
  (exists a b, w = a ++ b /\ P a b) \/ forall a b, w = a ++ b -> ~ P a b.
Proof.
  intros D. revert P D. induction w as [|s w IH]; intros P D.
  - destruct (D [] []) as [H|H]; [left; exists [], []; auto|]. right. intros a b E. symmetry in E. apply app_eq_nil in E.
    destruct E as (-> & ->). auto.
  - destruct (D [] (s :: w)) as [H|H]; [left; exists [], (s :: w); auto|].
    destruct (IH (fun a b => P (s :: a) b)) as [(a & b & -> & H')|N]; auto.
    + left. exists (s :: a), b. auto.
    + right. intros [|c a] b E; simpl in E; [subst b; auto|]. injection E as <- ->. apply N. auto.
Qed.
Definition PL (u : text) (p : piece) (v : text) : Prop := Plic u p v /\ Pfl u p v.
Definition PR (u : text) (p : piece) (v : text) : Prop := Plic u p v /\ Pfr u p v.
Lemma allp_and (P Q : text -> piece -> text -> Prop) u ps v : allp (fun u p v => P u p v /\ Q u p v) u ps v <-> allp P u ps v /\ allp Q u ps v.
Proof. revert u. induction ps as [|p ps IH]; intros u; simpl; [tauto|]. rewrite IH. tauto. Qed.
(** Every text can be changed from left to right after a given beginning. *)
Lemma complete_left n : forall v u, List.length v <= n -> exists ps, read ps = v /\ allp PL u ps [].
Proof using Hu.
  induction n as [|n IH]; intros v u Hn.
  - destruct v; [|simpl in Hn; lia]. exists []. simpl; auto.
  - destruct v as [|a v]; [exists []; simpl; auto|].
    destruct (dec_split (fun x w => match_at rs u x w) (a :: v)) as [(x & w & E & (y & H))|N]; [intros; apply dec_match| |].
    + assert (Hx : x <> []) by (eapply appl_ne; exact H). destruct (IH w (u ++ x)) as (ps & E1 & E2).
      { apply (f_equal (@List.length nat)) in E. rewrite app_length in E. destruct x; [congruence|]. simpl in *. lia. }
      exists (Change x y :: ps). simpl. rewrite E1, app_nil_r. split; auto. split; auto. split; simpl; auto.
    + destruct (IH v (u ++ [a])) as (ps & E1 & E2); [simpl in Hn; lia|]. exists (Keep a :: ps). simpl. rewrite E1, app_nil_r.
      split; auto. split; auto. split; simpl; auto.
Qed.
Lemma complete_right n : forall u v, List.length u <= n -> exists ps, read ps = u /\ allp PR [] ps v.
Proof using Hu.
  induction n as [|n IH]; intros u v Hn.
  - destruct u; [|simpl in Hn; lia]. exists []. simpl; auto.
  - destruct u as [|a u _] using rev_ind; [exists []; simpl; auto|].
    destruct (dec_split (fun w x => match_at rs w x v) (u ++ [a])) as [(w & x & E & (y & H))|N]; [intros; apply dec_match| |].
    + assert (Hx : x <> []) by (eapply appl_ne; exact H). destruct (IH w (x ++ v)) as (ps & E1 & E2).
      { rewrite E, app_length in Hn. destruct x; [congruence|]. simpl in *. lia. }
      exists (ps ++ [Change x y]). rewrite read_app, E1. simpl. rewrite app_nil_r. split; auto. apply allp_app. simpl. rewrite app_nil_r.
      split; auto. split; auto. split; simpl; auto. rewrite E1. auto.
    + destruct (IH u (a :: v)) as (ps & E1 & E2); [rewrite app_length in Hn; simpl in Hn; lia|]. exists (ps ++ [Keep a]).
      rewrite read_app, E1. simpl. split; auto. apply allp_app. simpl. split; auto. rewrite E1. split; auto. split; simpl; auto.
Qed.

(** Bracketed texts between boundaries. *)
Definition wr (ps : list piece) : list (option ap) := None :: map Some (map conv ps) ++ [None].
Definition Wr (ps : list piece) : word := Bd :: ub (map conv ps) ++ [Bd].
Definition Wl (ps : list piece) : word := Bd :: lb (map conv ps) ++ [Bd].
Lemma wr_fo ps : fo (wr ps) = Wr ps.
Proof. apply fo_wrapped. Qed.
Lemma wr_split ps o1 c o2 : wr ps = o1 ++ Some c :: o2 -> exists l p r, ps = l ++ p :: r /\ c = conv p /\
  o1 = None :: map Some (map conv l) /\ o2 = map Some (map conv r) ++ [None].
Proof.
  intros E. apply some_split in E. destruct E as (l & r & E & -> & ->). apply map_eq_app in E. destruct E as (l' & r' & -> & <- & E).
  destruct r' as [|p r']; [discriminate|]. simpl in E. injection E as <- <-. exists l', p, r'. auto.
Qed.
Lemma fnb_Wr ps : filter not_bracket (Wr ps) = Bd :: txt (read ps) ++ [Bd].
Proof. unfold Wr. simpl. rewrite filter_app, fnb_ub. reflexivity. Qed.
Lemma Wr_read ps qs : filter not_bracket (Wr ps) = filter not_bracket (Wr qs) -> read ps = read qs.
Proof. rewrite !fnb_Wr. intros E. injection E as E. apply app_inv_tail in E. apply txt_inj; auto. Qed.
Lemma fo_read l l' : fo (None :: map Some (map conv l)) = fo (None :: map Some (map conv l')) -> read l = read l'.
Proof.
  simpl. rewrite !fo_some. intros E. injection E as E. apply txt_inj. rewrite <- !fnb_ub, E. auto.
Qed.
Lemma fo_read_r l l' : fo (map Some (map conv l) ++ [None]) = fo (map Some (map conv l') ++ [None]) -> read l = read l'.
Proof.
  rewrite !fo_app, !fo_some. intros E. apply app_inv_tail in E. apply txt_inj. rewrite <- !fnb_ub, E. auto.
Qed.
Lemma dom x X Y : filter not_bracket X = Bd :: txt x ++ [Bd] ->
  (bracketed_rules rs true X Y <-> exists ps, licensed rs ps /\ X = Wr ps /\ Y = Wl ps).
Proof using Hu Hc.
  intros E.
  assert (EF : filt (brackets true) X = Bd :: txt x ++ [Bd]).
  { rewrite <- E. unfold filt. apply filter_ext. intros []; reflexivity. }
  assert (HB : bracketed_rules rs true X Y -> exists X0, X = Bd :: X0 ++ [Bd]).
  { intros Ht. destruct (rules_any rs true X Y (firm_usual rs Hu) Ht) as (os & E1 & _ & Hok).
    { intros s Hs. rewrite EF in Hs. destruct Hs as [<-|Hs]; auto. apply in_app_or in Hs.
      destruct Hs as [Hs|[<-|[]]]; auto. right. apply txt_plain in Hs; auto. }
    assert (Pc : forall a, In (Some a) os -> exists b w, filter not_bracket (ub1 a) = Pl b :: w /\ forall s, In s (Pl b :: w) -> s <> Bd).
    { intros a Ha. specialize (Hok a Ha). destruct a as [a|z y|z]; cbn [okap] in Hok.
      - exists a, []. split; auto. intros s [<-|[]]; discriminate.
      - destruct Hok as (ru & H1 & H2). destruct z as [|b z]; [destruct (maps_ne ru [] y (Hu ru H1) H2); auto|].
        exists b, (txt z). simpl. rewrite filter_app, fnb_txt. simpl. rewrite app_nil_r. split; auto.
        intros s [<-|Hs]; [discriminate|]. apply txt_plain in Hs. destruct Hs as (c & ->). discriminate.
      - destruct Hok as (F & _). discriminate. }
    clear Hok Ht EF. rewrite E1 in E. subst X. fold (fo os) in *. destruct os as [|[a|] os]; [discriminate| |].
    - exfalso. change (fo (Some a :: os)) with (ub1 a ++ fo os) in E. rewrite filter_app in E.
      destruct (Pc a (or_introl eq_refl)) as (b & w & E2 & _). rewrite E2 in E. discriminate.
    - change (fo (None :: os)) with (Bd :: fo os) in *. simpl in E. injection E as E.
      destruct os as [|o os _] using rev_ind; [destruct x; discriminate|]. rewrite fo_app in *. destruct o as [a|].
      + exfalso. rewrite filter_app in E. change (fo [Some a]) with (ub1 a ++ []) in E. rewrite app_nil_r in E.
        destruct (Pc a) as (b & w & E2 & N); [right; apply in_or_app; right; left; auto|]. rewrite E2 in E.
        destruct (exists_last (l := Pl b :: w)) as (w' & s & Es); [discriminate|]. rewrite Es, app_assoc in E.
        apply app_inj_tail in E. destruct E as (_ & ->). apply (N Bd); auto. rewrite Es. apply in_or_app. right; left; auto.
      + exists (fo os). auto. }
  transitivity (exists as_, good true rs as_ /\ X = Bd :: ub as_ ++ [Bd] /\ Y = Bd :: lb as_ ++ [Bd]).
  { split.
    - intros Ht. destruct (HB Ht) as (X0 & EB). apply (rules_wrapped rs true x X X0 Y (firm_usual rs Hu) Hc EB EF); auto.
    - intros (as_ & Hg & E1 & E2). apply (rules_wrapped rs true x X (ub as_) Y (firm_usual rs Hu) Hc E1 EF). eauto. }
  split.
  - intros (as_ & Hg & -> & ->). destruct (no_al as_) as (ps & ->).
    { intros z Hz. apply (good_fits true rs as_ Hg) in Hz. discriminate. }
    exists ps. rewrite good_conv in Hg. auto.
  - intros (ps & Hl & -> & ->). exists (map conv ps). rewrite good_conv. auto.
Qed.
(** One more constraint. *)
Lemma chain (T : rel) (C : pset) (Q Q' : list piece -> Prop) :
  (forall x X Y, filter not_bracket X = Bd :: txt x ++ [Bd] -> (T X Y <-> exists ps, licensed rs ps /\ Q ps /\ X = Wr ps /\ Y = Wl ps)) ->
  (forall X' X, rel_of C X' X -> filter not_bracket X' = filter not_bracket X) ->
  (forall ps, licensed rs ps -> Q ps -> (Q' ps <-> ~ exists ps', licensed rs ps' /\ Q ps' /\ rel_of C (Wr ps') (Wr ps))) ->
  forall x X Y, filter not_bracket X = Bd :: txt x ++ [Bd] ->
    (constraint_composition T C X Y <-> exists ps, licensed rs ps /\ (Q ps /\ Q' ps) /\ X = Wr ps /\ Y = Wl ps).
Proof.
  intros HT HC HQ x X Y E. rewrite cc_iff, (HT x X Y E). split.
  - intros ((ps & Hl & Hq & -> & ->) & N). exists ps. repeat split; auto. apply HQ; auto. intros (ps' & Hl' & Hq' & Hd). apply N.
    exists (Wr ps'), (Wl ps'). split; auto. apply (HT (read ps')); [apply fnb_Wr|]. eauto.
  - intros (ps & Hl & (Hq & Hq') & -> & ->). split; [eauto|]. intros (X' & Y' & Ht & Hd). apply HQ in Hq'; auto. apply Hq'.
    assert (E' : filter not_bracket X' = Bd :: txt x ++ [Bd]) by (rewrite (HC _ _ Hd); auto).
    apply (HT x X' Y' E') in Ht. destruct Ht as (ps' & H1 & H2 & -> & _). eauto.
Qed.

(** The end of the way: boundaries, if no rule deletes. *)
Lemma finish (T : rel) x Y : (forall X Y, T X Y -> bracketed_rules rs true X Y) -> not_deleting rs ->
  (apply_boundary (remove_markers (remove_b2 T)) (txt x) Y <->
   exists ps, read ps = x /\ Y = txt (written ps) /\ T (Wr ps) (Wl ps)).
Proof using Hu Hc.
  intros HT Hnd. rewrite ab_iff. split.
  - intros (NY & x' & Ex & X & Y' & Ht & EX & EY). apply rb2_iff in Ht. destruct Ht as (Ht & _). pose proof (HT _ _ Ht) as Hb.
    assert (Hs : forall s, In s (filt (brackets true) X) -> s = Bd \/ exists a, s = Pl a).
    { intros s Hs. destruct (nb s) eqn:E; [right|left; destruct s; auto; discriminate].
      apply (txt_plain x). rewrite Ex, EX. apply filter_In. split; auto. unfold filt in Hs. apply filter_In in Hs. destruct Hs as (H1 & H2).
      apply filter_In. split; auto. destruct s; auto; discriminate. }
    destruct (rules_any rs true X Y' (firm_usual rs Hu) Hb Hs) as (os & E1 & E2 & Hok).
    assert (G : exists as_, os = None :: map Some as_ ++ [None]).
    { rewrite E2 in EY. clear - EY NY Hok Hnd. symmetry in EY.
      assert (Pc : forall a, In (Some a) os -> filter not_bracket (lb1 a) <> [] /\ ~ In Bd (filter not_bracket (lb1 a))).
      { intros a Ha. specialize (Hok a Ha). split.
        - destruct a as [a|z y|z]; simpl in *; try discriminate. rewrite filter_app, fnb_txt. destruct Hok as (ru & H1 & H2).
          specialize (Hnd ru z y H1 H2). destruct y; [congruence|discriminate].
        - intros H. apply filter_In in H. apply (lb1_bd a). apply H. }
      destruct os as [|o os]; [discriminate|]. destruct o as [a|].
      - exfalso. destruct (Pc a) as (P1 & P2); [left; auto|]. simpl in EY. rewrite filter_app in EY.
        destruct (filter not_bracket (lb1 a)) as [|s w]; [congruence|]. injection EY as -> _. apply P2. left; auto.
      - simpl in EY. injection EY as EY. assert (Pc' : forall a, In (Some a) os -> filter not_bracket (lb1 a) <> [] /\ ~ In Bd (filter not_bracket (lb1 a)))
          by (intros a Ha; apply Pc; right; auto). clear Pc Hok Hnd.
        assert (G : exists as_, os = map Some as_ ++ [None]); [|destruct G as (as_ & ->); eauto].
        revert Y EY NY. induction os as [|o os IH]; intros Y E N; simpl in E; [destruct Y; discriminate|]. destruct o as [a|].
        + rewrite filter_app in E. destruct (Pc' a) as (P1 & P2); [left; auto|]. symmetry in E. change (lbo (Some a)) with (lb1 a) in E. apply app_eq_app in E.
          destruct E as (w & [(E1 & E2)|(E1 & E2)]).
          * destruct (IH (fun b Hb => Pc' b (or_intror Hb)) w) as (as_ & ->); auto. { intros Hw. apply N. rewrite E1. apply in_or_app; auto. }
            exists (a :: as_). auto.
          * destruct w as [|b w].
            -- simpl in E2. destruct (IH (fun b Hb => Pc' b (or_intror Hb)) []) as (as_ & ->); auto. exists (a :: as_). auto.
            -- simpl in E2. injection E2 as <- E2. exfalso. apply P2. rewrite E1. apply in_or_app. right; left; auto.
        + destruct Y as [|b Y]; simpl in E.
          * injection E as E. destruct os as [|o os]; [exists []; auto|]. destruct o as [a|]; [|discriminate].
            simpl in E. rewrite filter_app in E. apply app_eq_nil in E. destruct E as (E & _). destruct (Pc' a) as (P1 & _); [right; left; auto|]. congruence.
          * injection E as <- E. destruct N. left; auto. }
    destruct G as (as_ & ->). fold (fo (None :: map Some as_ ++ [None])) in E1. rewrite fo_wrapped in E1.
    destruct (no_al as_) as (ps & ->).
    { intros z Hz. assert (In (Some (AL z)) (None :: map Some as_ ++ [None])) as H by (right; apply in_or_app; left; apply in_map; auto).
      apply Hok in H. destruct H as (H & _). discriminate. }
    fold (Wr ps) in E1. subst X. apply (dom (read ps)) in Hb; [|apply fnb_Wr]. destruct Hb as (ps' & Hl & E3 & E4). subst Y'.
    pose proof (Wr_read ps ps') as ER. rewrite E3 in ER. specialize (ER eq_refl).
    exists ps'. split; [|split].
    + apply txt_inj. rewrite Ex, EX, E3, fnb_Wr. simpl. rewrite filter_app. simpl. rewrite app_nil_r. symmetry. apply filter_nb_id.
      apply not_in_txt. discriminate.
    + unfold Wl in EY. simpl in EY. rewrite filter_app, fnb_lb in EY. simpl in EY. injection EY as EY. apply app_inv_tail in EY. auto.
    + rewrite <- E3. auto.
  - intros (ps & <- & -> & Ht). split; [apply not_in_txt; discriminate|]. exists (Bd :: txt (read ps) ++ [Bd]). split.
    + simpl. rewrite filter_app. simpl. rewrite app_nil_r. symmetry. apply filter_nb_id. apply not_in_txt. discriminate.
    + exists (Wr ps), (Wl ps). split; [|split; [rewrite fnb_Wr; auto | unfold Wl; simpl; rewrite filter_app, fnb_lb; auto]].
      apply rb2_iff. split; auto. assert (E : filter not_bracket (ub (map conv ps)) = txt (read ps)) by apply fnb_ub.
      apply fnb_no2 in E. destruct E as (N1 & N2). unfold Wr. split; intros [H|H]; try discriminate; apply in_app_or in H;
      destruct H as [H|[H|[]]]; auto; discriminate.
Qed.
End Directed.
