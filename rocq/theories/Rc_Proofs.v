(** Proofs about replacement in context: the markers. *)
From Coq Require Import Lia.
From Verif Require Import Base BT_Model Ru_Model Ru_Spec Ru_Proofs Ru_Proofs2 Rc_Model Rc_Spec.

(** * Strings with markers *)
Definition is_mark (a : bstr) : bool := bstr_eqb a LM || bstr_eqb a RM.
Definition erase (z : str) : str := filter (fun a => negb (is_mark a)) z.
Lemma erase_app x y : erase (x ++ y) = erase x ++ erase y.
Proof. apply filter_app. Qed.
Lemma is_mark_iff a : is_mark a = true <-> a = LM \/ a = RM.
Proof. unfold is_mark. rewrite orb_true_iff, !bstr_eqb_eq. reflexivity. Qed.
Definition unmarked (x : str) : Prop := ~ In LM x /\ ~ In RM x.
Lemma erase_unmarked x : unmarked x -> erase x = x.
Proof.
  intros (N1 & N2). unfold erase. induction x as [|a x IH]; [reflexivity|]. cbn [filter]. destruct (is_mark a) eqn:E.
  - apply is_mark_iff in E. exfalso. destruct E as [-> | ->]; [apply N1|apply N2]; left; reflexivity.
  - cbn [negb]. f_equal. apply IH; intros H; [apply N1|apply N2]; right; exact H.
Qed.
Lemma unmarked_erase x : unmarked (erase x).
Proof. split; intros H; apply filter_In in H; destruct H as (_ & H); discriminate H. Qed.
(** The shortest prefix with a given erasure ends in a letter. *)
Definition letter_end (y : str) : Prop := y = [] \/ exists y' a, y = y' ++ [a] /\ is_mark a = false.
Lemma erase_split z p q : erase z = p ++ q -> exists y s, z = y ++ s /\ erase y = p /\ erase s = q /\ letter_end y.
Proof.
  revert p q; induction z as [|a z IH]; intros p q E.
  - cbn in E. symmetry in E. apply app_eq_nil in E. destruct E as (-> & ->). exists [], []. repeat split. left. reflexivity.
  - destruct p as [|b p].
    + exists [], (a :: z). split; [reflexivity|]. split; [reflexivity|]. split; [exact E|]. left. reflexivity.
    + unfold erase in E. cbn [filter] in E. destruct (is_mark a) eqn:M; cbn [negb] in E.
      * destruct (IH (b :: p) q E) as (y & s & -> & E1 & E2 & L). exists (a :: y), s. split; [reflexivity|].
        split; [unfold erase; cbn [filter]; rewrite M; exact E1|]. split; [exact E2|]. destruct L as [-> |(y' & c & -> & Hc)]; [discriminate E1|].
        right. exists (a :: y'), c. auto.
      * cbn [app] in E. injection E as <- E. destruct (IH p q E) as (y & s & -> & E1 & E2 & L). exists (a :: y), s. split; [reflexivity|].
        split; [unfold erase; cbn [filter]; rewrite M; cbn [negb]; f_equal; exact E1|]. split; [exact E2|].
        destruct L as [-> |(y' & c & -> & Hc)]; right; [exists [], a; auto|exists (a :: y'), c; auto].
Qed.
Lemma erase_rev z : erase (rev z) = rev (erase z).
Proof.
  induction z as [|a z IH]; [reflexivity|]. cbn [rev]. rewrite erase_app, IH. unfold erase at 2 3. cbn [filter].
  destruct (is_mark a); cbn [negb rev]; [apply app_nil_r|reflexivity].
Qed.

(** * What replace_context accepts *)
Section Ok.
  Variables (E : str -> Prop) (m1 m2 : bstr).
  Definition ends (m : bstr) (y : str) : Prop := exists y', y = y' ++ [m].
  Definition tail_ok (s : str) : Prop := exists n s', s = repeat m2 n ++ m1 :: s'.
  Definition ok (z : str) : Prop := forall y s, z = y ++ s -> (E (erase y) /\ ~ ends m1 y <-> tail_ok s).
  Hypothesis M1 : is_mark m1 = true.
  Hypothesis M2 : is_mark m2 = true.
  Hypothesis M12 : m1 <> m2.
  Lemma erase_m1 s : erase (m1 :: s) = erase s.
  Proof. unfold erase. cbn [filter]. rewrite M1. reflexivity. Qed.
  Lemma erase_m2 s : erase (m2 :: s) = erase s.
  Proof. unfold erase. cbn [filter]. rewrite M2. reflexivity. Qed.
  Lemma erase_repeat n : erase (repeat m2 n) = [].
  Proof. induction n; [reflexivity|]. cbn [repeat]. rewrite erase_m2. exact IHn. Qed.
  Lemma ok_at z y s : ok z -> z = y ++ m1 :: s -> E (erase y) /\ ~ ends m1 y.
  Proof. intros O Ez. apply (O _ _ Ez). exists 0, s. reflexivity. Qed.
  Lemma ok_find z p q : ok z -> erase z = p ++ q -> E p -> exists y s, z = y ++ m1 :: s /\ erase y = p /\ erase s = q.
  Proof.
    intros O Ez Hp. destruct (erase_split z p q Ez) as (y & s & -> & <- & <- & L). destruct (proj1 (O y s eq_refl)) as (n & s' & ->).
    - split; [exact Hp|]. intros (y' & Ey). subst y. destruct L as [L|(y'' & a & L & Ha)]; [apply app_eq_nil in L; destruct L; discriminate|].
      apply app_inj_tail in L. destruct L as (_ & <-). congruence.
    - exists (y ++ repeat m2 n), s'. split; [rewrite <- app_assoc; reflexivity|]. rewrite !erase_app, erase_repeat, app_nil_r, erase_m1. auto.
  Qed.
  Lemma ok_after z y b s : ok z -> z = y ++ m1 :: b :: s -> is_mark b = true -> b = m1 \/ b = m2 -> False.
  Proof.
    intros O Ez Hb [-> | ->].
    - destruct (ok_at z (y ++ [m1]) s O) as (_ & N); [rewrite <- app_assoc; exact Ez|]. apply N. exists y. reflexivity.
    - destruct (ok_at z y (m2 :: s) O Ez) as (Hy & _).
      destruct (proj1 (O (y ++ [m1; m2]) s ltac:(rewrite <- app_assoc; exact Ez))) as (n & s' & ->).
      + split; [rewrite erase_app, erase_m1, erase_m2; cbn [erase filter]; rewrite app_nil_r; exact Hy|].
        intros (y' & Ey). change [m1; m2] with ([m1] ++ [m2]) in Ey. rewrite app_assoc in Ey. apply app_inj_tail in Ey. destruct Ey as (_ & Ey). auto.
      + destruct (proj2 (O (y ++ [m1]) (m2 :: repeat m2 n ++ m1 :: s') ltac:(rewrite <- app_assoc; exact Ez))) as (_ & N).
        * exists (S n), s'. reflexivity.
        * apply N. exists y. reflexivity.
  Qed.
End Ok.

Lemma inserted_filter p v w : inserted p v w -> ~ In p v -> filter (fun q => negb (pair_eqb q p)) w = v.
Proof.
  intros I. induction I as [|q v w I IH|v w I IH]; intros N; [reflexivity| |].
  - cbn [filter]. destruct (pair_eqb q p) eqn:E; [apply pair_eqb_eq in E; exfalso; apply N; left; exact E|].
    cbn [negb]. f_equal. apply IH. intros H. apply N. right. exact H.
  - cbn [filter]. rewrite (proj2 (pair_eqb_eq p p) eq_refl). cbn [negb]. auto.
Qed.
Lemma filter_inserted p w : inserted p (filter (fun q => negb (pair_eqb q p)) w) w.
Proof.
  induction w as [|q w IH]; [constructor|]. cbn [filter]. destruct (pair_eqb q p) eqn:E; cbn [negb].
  - apply pair_eqb_eq in E. subst. constructor. exact IH.
  - constructor. exact IH.
Qed.
Lemma insert_iff p a w : never p a -> (l_insert p a w <-> a (filter (fun q => negb (pair_eqb q p)) w)).
Proof.
  intros N. split.
  - intros (v & V & I). rewrite (inserted_filter p v w I (N v V)). exact V.
  - intros H. exists (filter (fun q => negb (pair_eqb q p)) w). split; [exact H|apply filter_inserted].
Qed.
Lemma inserted_In p q v w : p <> q -> inserted q v w -> In p w -> In p v.
Proof.
  intros D I. induction I as [|x v w I IH|v w I IH]; intros H; [exact H| |].
  - destruct H as [-> |H]; [left; reflexivity|right; apply IH; exact H].
  - destruct H as [E|H]; [congruence|apply IH; exact H].
Qed.
Lemma never_insert p q a : p <> q -> never p a -> never p (l_insert q a).
Proof. intros D N w (v & V & I) H. apply (N v V). exact (inserted_In p q v w D I H). Qed.
Definition drop_marks (w : list pair) : list pair := filter (fun q => negb (pair_eqb q (LM, LM)) && negb (pair_eqb q (RM, RM))) w.
Lemma filter_filter A (f g : A -> bool) w : filter f (filter g w) = filter (fun x => g x && f x) w.
Proof. induction w as [|x w IH]; [reflexivity|]. cbn [filter]. destruct (g x); cbn [filter andb]; [destruct (f x); rewrite IH; reflexivity|exact IH]. Qed.
Lemma filter_ext_eq A (f g : A -> bool) w : (forall x, f x = g x) -> filter f w = filter g w.
Proof. intros H. induction w as [|x w IH]; [reflexivity|]. cbn [filter]. rewrite H, IH. reflexivity. Qed.
Definition marks (m1 m2 : bstr) : Prop := m1 = LM /\ m2 = RM \/ m1 = RM /\ m2 = LM.
Lemma insert2_iff m1 m2 a w : marks m1 m2 -> never (LM, LM) a -> never (RM, RM) a ->
  (l_insert (m2, m2) (l_insert (m1, m1) a) w <-> a (drop_marks w)).
Proof.
  intros [(-> & ->)|(-> & ->)] N1 N2; (rewrite insert_iff by (apply never_insert; [discriminate|assumption])); (rewrite insert_iff by assumption);
    rewrite filter_filter; unfold drop_marks; [|reflexivity].
  rewrite (filter_ext_eq _ _ (fun q : pair => negb (pair_eqb q (LM, LM)) && negb (pair_eqb q (RM, RM)))); [reflexivity|]. intros x. apply andb_comm.
Qed.
Lemma drop_marks_ids x : drop_marks (ids x) = ids (erase x).
Proof.
  induction x as [|a x IH]; [reflexivity|]. unfold drop_marks, ids, erase in *. cbn [map filter].
  unfold pair_eqb at 1 2. cbn [fst snd]. rewrite !andb_diag. unfold is_mark at 1. rewrite negb_orb.
  destruct (negb (bstr_eqb a LM) && negb (bstr_eqb a RM)); cbn [map]; [f_equal|]; exact IH.
Qed.
Lemma comp_ids (a b : plang) w : (forall v, a v -> exists x, v = ids x) -> (forall v, b v -> exists x, v = ids x) -> (l_comp a b w <-> a w /\ b w).
Proof.
  intros Ia Ib. assert (F : forall x, map fst (ids x) = x) by (intros x; unfold ids; rewrite map_map; apply map_id).
  assert (S : forall x, map snd (ids x) = x) by (intros x; unfold ids; rewrite map_map; apply map_id).
  split.
  - intros (v1 & v2 & V1 & V2 & E & ->). destruct (Ia v1 V1) as (x1 & ->). destruct (Ib v2 V2) as (x2 & ->).
    rewrite F, S in *. subst x2. pose proof (combine_fst_snd (ids x1)) as K. rewrite F, S in K. rewrite K. auto.
  - intros (A & C). destruct (Ia w A) as (x & ->). exists (ids x), (ids x). rewrite F, S. split; [exact A|]. split; [exact C|]. split; [reflexivity|].
    pose proof (combine_fst_snd (ids x)) as K. rewrite F, S in K. symmetry. exact K.
Qed.
Lemma never_automaton (l : str -> Prop) m : (forall x, l x -> ~ In m x) -> never (m, m) (automaton l).
Proof. intros N w (x & X & ->) H. apply in_map_iff in H. destruct H as (a & E & Ha). injection E as ->. exact (N x X Ha). Qed.
Lemma l_symbol_iff m w : m <> EPS -> (l_symbol m w <-> w = [(m, m)]).
Proof.
  intros N. unfold l_symbol. rewrite l_one_In by (intros [E|[]]; congruence). split; [intros (p & [<-|[]] & ->); reflexivity|].
  intros ->. exists (m, m). split; [left; reflexivity|reflexivity].
Qed.
Lemma star_symbol m w : m <> EPS -> (l_star (l_symbol m) w <-> exists n, w = ids (repeat m n)).
Proof.
  intros N. split.
  - intros T. induction T as [|u v U T IH]; [exists 0; reflexivity|]. destruct IH as (n & ->). apply l_symbol_iff in U; [|exact N]. subst u.
    exists (S n). reflexivity.
  - intros (n & ->). induction n as [|n IH]; [constructor|]. apply (star_cons _ [(m, m)]); [apply l_symbol_iff; [exact N|reflexivity]|exact IH].
Qed.
Lemma marks_eps m1 m2 : marks m1 m2 -> m1 <> EPS /\ m2 <> EPS /\ m1 <> m2 /\ is_mark m1 = true /\ is_mark m2 = true.
Proof. intros [(-> & ->)|(-> & ->)]; repeat split; try discriminate. Qed.

Section Alphabet.
  Variable al : str.
  Hypothesis Ea : ~ In EPS al.
  Definition gamma : str := al ++ [LM; RM].
  Lemma gamma_eps : ~ In EPS gamma.
  Proof. intros H. apply in_app_iff in H. destruct H as [H|[H|[H|[]]]]; [exact (Ea H)|discriminate|discriminate]. Qed.
  Lemma any_gamma w : l_any (ids gamma) w <-> exists z, w = ids z /\ incl z gamma.
  Proof. rewrite l_any_over by (apply no_EE_ids; exact gamma_eps). apply over_ids. Qed.
  Lemma any_gamma_ids z : l_any (ids gamma) (ids z) <-> incl z gamma.
  Proof. rewrite any_gamma. split; [intros (z' & E & I); apply ids_inj in E; subst; exact I|]. intros I. exists z. auto. Qed.
  Section Context.
    Variables (l : str -> Prop) (m1 m2 : bstr).
    Hypothesis Mk : marks m1 m2.
    Hypothesis Nl : forall x, l x -> unmarked x.
    Hypothesis Dl : forall x, l x \/ ~ l x.
    Let copy := l_insert (m2, m2) (l_insert (m1, m1) (automaton l)).
    Let pi := l_any (ids gamma).
    Let ct := l_comp (l_cat pi copy) (l_sub pi (l_cat pi (l_symbol m1))).
    Let mt := l_cat (l_cat (l_star (l_symbol m2)) (l_symbol m1)) pi.
    Lemma copy_iff w : copy w <-> automaton l (drop_marks w).
    Proof. unfold copy. apply insert2_iff; [exact Mk| |]; apply never_automaton; intros x X; apply (Nl x X). Qed.
    Lemma copy_ids x : copy (ids x) <-> l (erase x).
    Proof.
      rewrite copy_iff, drop_marks_ids. split; [intros (y & Y & E); apply ids_inj in E; subst; exact Y|]. intros H. exists (erase x). auto.
    Qed.
    Lemma copy_identity w : copy w -> forall p, In p w -> fst p = snd p.
    Proof.
      intros C p Hp. apply copy_iff in C. destruct C as (x & _ & E). destruct (pair_eqb p (LM, LM)) eqn:E1; [apply pair_eqb_eq in E1; subst; reflexivity|].
      destruct (pair_eqb p (RM, RM)) eqn:E2; [apply pair_eqb_eq in E2; subst; reflexivity|].
      assert (H : In p (drop_marks w)) by (apply filter_In; rewrite E1, E2; auto). rewrite E in H. apply in_map_iff in H. destruct H as (a & <- & _). reflexivity.
    Qed.
    Lemma identity_ids w : (forall p : pair, In p w -> fst p = snd p) -> exists x, w = ids x.
    Proof.
      induction w as [|[a b] w IH]; intros H; [exists []; reflexivity|]. destruct IH as (x & ->); [intros p Hp; apply H; right; exact Hp|].
      specialize (H (a, b) (or_introl eq_refl)). cbn in H. subst b. exists (a :: x). reflexivity.
    Qed.
    Lemma ct_iff y : incl y gamma -> (ct (ids y) <-> left_here l (erase y) /\ ~ ends m1 y).
    Proof.
      intros Iy. destruct (marks_eps _ _ Mk) as (P1 & P2 & _). unfold ct. rewrite comp_ids.
      - unfold l_sub. split.
        + intros ((u & v & E & U & V) & _ & N). apply ids_split in E. destruct E as (y1 & y2 & -> & -> & ->). apply copy_ids in V. split.
          * rewrite erase_app. exists (erase y1), (erase y2). auto.
          * intros (y' & E). apply N. exists (ids y'), [(m1, m1)]. split; [rewrite E, ids_app; reflexivity|]. split; [|apply l_symbol_iff; auto].
            apply any_gamma_ids. intros a Ha. apply Iy. rewrite E. apply in_app_iff. auto.
        + intros ((p & q & E & Q) & N). destruct (erase_split y p q E) as (y1 & y2 & -> & E1 & E2 & _). split.
          * exists (ids y1), (ids y2). split; [apply ids_app|]. split; [|apply copy_ids; rewrite E2; exact Q]. apply any_gamma_ids. intros a Ha. apply Iy. apply in_app_iff. auto.
          * split; [apply any_gamma_ids; exact Iy|]. intros (u & v & E' & U & V). apply l_symbol_iff in V; [|exact P1]. subst v. apply any_gamma in U. destruct U as (z & -> & _).
            apply N. exists z. apply ids_inj. rewrite E', (ids_app z [m1]). reflexivity.
      - intros v (a & b & -> & A & C). apply identity_ids. intros p Hp. apply in_app_iff in Hp. destruct Hp as [Hp|Hp]; [|exact (copy_identity b C p Hp)].
        apply any_gamma in A. destruct A as (z & -> & _). apply in_map_iff in Hp. destruct Hp as (c & <- & _). reflexivity.
      - intros v (V & _). apply any_gamma in V. destruct V as (z & -> & _). exists z. reflexivity.
    Qed.
    Lemma ct_gamma w : ct w -> exists y, w = ids y /\ incl y gamma.
    Proof.
      intros (v1 & v2 & (a & b & -> & A & C) & (V2 & _) & E & ->). apply any_gamma in V2. destruct V2 as (z & -> & I).
      exists z. split; [|exact I]. apply any_gamma in A. destruct A as (z1 & -> & _). destruct (identity_ids b (copy_identity b C)) as (z2 & ->).
      rewrite <- ids_app in *. pose proof (combine_fst_snd (ids z)) as K. rewrite <- K at 2. f_equal. rewrite <- E. unfold ids. rewrite !map_map. reflexivity.
    Qed.
    Lemma mt_iff s : incl s gamma -> (mt (ids s) <-> tail_ok m1 m2 s).
    Proof.
      intros Is. destruct (marks_eps _ _ Mk) as (P1 & P2 & _). unfold mt, tail_ok. split.
      - intros (a & b & E & (c & d & -> & C & D) & B). apply star_symbol in C; [|exact P2]. destruct C as (n & ->). apply l_symbol_iff in D; [|exact P1]. subst d.
        apply any_gamma in B. destruct B as (z & -> & _). exists n, z. apply ids_inj. rewrite E, !ids_app, <- app_assoc. reflexivity.
      - intros (n & s' & ->). exists (ids (repeat m2 n) ++ [(m1, m1)]), (ids s'). split; [rewrite ids_app, <- app_assoc; reflexivity|]. split.
        + exists (ids (repeat m2 n)), [(m1, m1)]. split; [reflexivity|]. split; [apply star_symbol; [exact P2|]; exists n; reflexivity|apply l_symbol_iff; auto].
        + apply any_gamma_ids. intros a Ha. apply Is. apply in_app_iff. right. right. exact Ha.
    Qed.
    Lemma mt_gamma w : mt w -> exists s, w = ids s /\ incl s gamma.
    Proof.
      destruct (marks_eps _ _ Mk) as (P1 & P2 & _).
      assert (M1 : In m1 gamma /\ In m2 gamma) by (unfold gamma; destruct Mk as [(-> & ->)|(-> & ->)]; split; apply in_app_iff; simpl; auto).
      intros (a & b & -> & (c & d & -> & C & D) & B). apply star_symbol in C; [|exact P2]. destruct C as (n & ->). apply l_symbol_iff in D; [|exact P1]. subst d.
      apply any_gamma in B. destruct B as (z & -> & I). exists ((repeat m2 n ++ [m1]) ++ z). split; [rewrite !ids_app; reflexivity|].
      intros x Hx. apply in_app_iff in Hx. destruct Hx as [Hx|Hx]; [|apply I; exact Hx]. apply in_app_iff in Hx. destruct Hx as [Hx|[<-|[]]]; [|apply M1].
      apply repeat_spec in Hx. subst x. apply M1.
    Qed.
    Lemma tail_dec s : tail_ok m1 m2 s \/ ~ tail_ok m1 m2 s.
    Proof.
      destruct (marks_eps _ _ Mk) as (_ & _ & D & _).
      induction s as [|a s IH]; [right; intros (n & s' & E); destruct n; discriminate|].
      destruct (bstr_eq_dec a m1) as [->|N1]; [left; exists 0, s; reflexivity|]. destruct (bstr_eq_dec a m2) as [->|N2].
      - destruct IH as [(n & s' & ->)|H]; [left; exists (S n), s'; reflexivity|]. right. intros (n & s' & E). destruct n; cbn [repeat app] in E; [injection E as E1 E; congruence|].
        injection E as E. apply H. exists n, s'. exact E.
      - right. intros (n & s' & E). destruct n; cbn [repeat app] in E; injection E as E1 E; congruence.
    Qed.
    Lemma here_dec p : left_here l p \/ ~ left_here l p.
    Proof.
      unfold left_here. induction p as [|a p IH].
      - destruct (Dl []) as [H|H]; [left; exists [], []; auto|]. right. intros (x & y & E & Y). symmetry in E. apply app_eq_nil in E. destruct E as (_ & ->). auto.
      - destruct IH as [(x & y & -> & Y)|H]; [left; exists (a :: x), y; auto|]. destruct (Dl (a :: p)) as [K|K]; [left; exists [], (a :: p); auto|].
        right. intros ([|b x] & y & E & Y); [cbn [app] in E; subst; auto|]. injection E as -> E. apply H. exists x, y. auto.
    Qed.
    Lemma ends_dec y : ends m1 y \/ ~ ends m1 y.
    Proof.
      destruct y as [|a y _] using rev_ind; [right; intros (y' & E); symmetry in E; apply app_eq_nil in E; destruct E; discriminate|].
      destruct (bstr_eq_dec a m1) as [->|N]; [left; exists y; reflexivity|]. right. intros (y' & E). apply app_inj_tail in E. destruct E. auto.
    Qed.
    Lemma replace_context_iff w : replace_context (automaton l) m1 m2 (ids gamma) w <->
      exists z, w = ids z /\ incl z gamma /\ ok (left_here l) m1 m2 z.
    Proof.
      unfold replace_context. cbn zeta. fold pi copy. fold ct mt. unfold l_sub at 1. split.
      - intros (P & N). apply any_gamma in P. destruct P as (z & -> & I). exists z. split; [reflexivity|]. split; [exact I|]. intros y s ->.
        assert (Iy : incl y gamma) by (intros a Ha; apply I; apply in_app_iff; auto). assert (Is : incl s gamma) by (intros a Ha; apply I; apply in_app_iff; auto).
        rewrite <- (ct_iff y Iy), <- (mt_iff s Is). split.
        + intros C. destruct (tail_dec s) as [H|H]; [apply mt_iff; assumption|exfalso]. apply N. right. exists (ids y), (ids s). split; [apply ids_app|].
          split; [exact C|]. split; [apply any_gamma_ids; exact Is|]. rewrite (mt_iff s Is). exact H.
        + intros M. assert (D : ct (ids y) \/ ~ ct (ids y)).
          { rewrite (ct_iff y Iy). destruct (here_dec (erase y)), (ends_dec y); tauto. }
          destruct D as [D|D]; [exact D|exfalso]. apply N. left. exists (ids y), (ids s). split; [apply ids_app|]. split; [|exact M]. split; [apply any_gamma_ids; exact Iy|exact D].
      - intros (z & -> & I & O). split; [apply any_gamma_ids; exact I|].
        intros [(a & b & E & (A & NA) & M)|(a & b & E & C & (A & NM))].
        + apply ids_split in E. destruct E as (y & s & -> & -> & ->). apply any_gamma_ids in A. apply NA. apply ct_iff; [exact A|]. apply (O y s eq_refl).
          apply mt_iff; [|exact M]. intros x Hx. apply I. apply in_app_iff. auto.
        + apply ids_split in E. destruct E as (y & s & -> & -> & ->). apply any_gamma_ids in A. apply NM. apply mt_iff; [exact A|]. apply (O y s eq_refl).
          apply ct_iff; [|exact C]. intros x Hx. apply I. apply in_app_iff. auto.
    Qed.
  End Context.
End Alphabet.
