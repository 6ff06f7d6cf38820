(** Proofs about replacement in context: the whole construction. *)
From Coq Require Import Lia.
From Verif Require Import Base BT_Model Ru_Model Ru_Spec Ru_Proofs Ru_Proofs2 Rc_Model Rc_Spec Rc_Proofs Rc_Proofs2.

(** * Every string can be marked *)
Definition gap (b c : bool) : str := (if b then [RM] else []) ++ (if c then [LM] else []).
Inductive marking (E S : str -> Prop) : str -> str -> str -> Prop :=
| mk_end pre b c : (b = true <-> S []) -> (c = true <-> E pre) -> marking E S pre [] (gap b c)
| mk_more pre a u b c z : (b = true <-> S (a :: u)) -> (c = true <-> E pre) -> is_mark a = false ->
    marking E S (pre ++ [a]) u z -> marking E S pre (a :: u) (gap b c ++ a :: z).
Lemma dec_bool (P : Prop) : P \/ ~ P -> exists b : bool, b = true <-> P.
Proof. intros [H|H]; [exists true; tauto|exists false; split; [discriminate|contradiction]]. Qed.
Lemma marking_exists (E S : str -> Prop) : (forall p, E p \/ ~ E p) -> (forall q, S q \/ ~ S q) ->
  forall u pre, unmarked u -> exists z, marking E S pre u z.
Proof.
  intros DE DS u. induction u as [|a u IH]; intros pre (N1 & N2).
  - destruct (dec_bool _ (DS [])) as (b & Hb). destruct (dec_bool _ (DE pre)) as (c & Hc). exists (gap b c). constructor; assumption.
  - destruct (dec_bool _ (DS (a :: u))) as (b & Hb). destruct (dec_bool _ (DE pre)) as (c & Hc).
    destruct (IH (pre ++ [a])) as (z & Z); [split; intros H; [apply N1|apply N2]; right; exact H|].
    exists (gap b c ++ a :: z). constructor; try assumption. destruct (is_mark a) eqn:M; [|reflexivity]. apply is_mark_iff in M. exfalso.
    destruct M as [-> | ->]; [apply N1|apply N2]; left; reflexivity.
Qed.
Lemma erase_gap b c : erase (gap b c) = [].
Proof. destruct b, c; reflexivity. Qed.
Lemma erase_letter a z : is_mark a = false -> erase (a :: z) = a :: erase z.
Proof. intros H. rewrite erase_cons, H. reflexivity. Qed.
Lemma marking_erase E S pre u z : marking E S pre u z -> erase z = u.
Proof.
  intros M. induction M as [pre b c|pre a u b c z Hb Hc Ha M IH]; [apply erase_gap|].
  rewrite erase_app, erase_gap, (erase_letter a z Ha), IH. reflexivity.
Qed.
Lemma marking_incl E S pre u z al : marking E S pre u z -> incl u al -> incl z (gamma al).
Proof.
  intros M. assert (G : forall b c, incl (gap b c) (gamma al)).
  { intros b c x Hx. unfold gamma. apply in_app_iff. right. destruct b, c; cbn in Hx; simpl; intuition. }
  induction M as [pre b c Hb Hc|pre a u b c z Hb Hc Ha M IH]; intros I; [apply G|].
  intros x Hx. apply in_app_iff in Hx. destruct Hx as [Hx|[<-|Hx]]; [apply (G b c); exact Hx|apply in_app_iff; left; apply I; left; reflexivity|].
  apply IH; [|exact Hx]. intros y Hy. apply I. right. exact Hy.
Qed.
Lemma ends_gap_letter m y a y' : is_mark m = true -> is_mark a = false -> (ends m (y ++ a :: y') <-> ends m y').
Proof.
  intros Hm Ha. split; [|intros (k & ->); exists (y ++ a :: k); rewrite <- app_assoc; reflexivity].
  intros (k & Ek). destruct y' as [|b y' _] using rev_ind.
  - apply app_inj_tail in Ek. destruct Ek as (_ & ->). congruence.
  - rewrite app_comm_cons, app_assoc in Ek. apply app_inj_tail in Ek. destruct Ek as (_ & ->). exists y'. reflexivity.
Qed.
(** Splits of a gap followed by something. *)
Lemma gap_split b c s0 y s : gap b c ++ s0 = y ++ s -> (exists g1 g2, y = g1 /\ gap b c = g1 ++ g2 /\ s = g2 ++ s0) \/ (exists y', y = gap b c ++ y' /\ s0 = y' ++ s).
Proof. intros E. apply app_eq_app in E. destruct E as (k & [(E1 & E2)|(E1 & E2)]); [left; exists y, k; auto|right; exists k; auto]. Qed.
Lemma tail_letter m1 m2 a s : is_mark m1 = true -> is_mark m2 = true -> is_mark a = false -> ~ tail_ok m1 m2 (a :: s).
Proof. intros H1 H2 Ha (n & s' & E). destruct n; cbn [repeat app] in E; injection E as E _; congruence. Qed.
Lemma tail_nil m1 m2 : ~ tail_ok m1 m2 [].
Proof. intros (n & s' & E). destruct n; discriminate. Qed.
Lemma gap_tail b c s0 g1 g2 : (s0 = [] \/ exists a s', s0 = a :: s' /\ is_mark a = false) -> gap b c = g1 ++ g2 ->
  (tail_ok LM RM (g2 ++ s0) <-> c = true /\ ~ ends LM g1).
Proof.
  intros H0 G. assert (T0 : ~ tail_ok LM RM s0) by (destruct H0 as [->|(a & s' & -> & Ha)]; [apply tail_nil|apply tail_letter; auto]).
  assert (T1 : ~ tail_ok LM RM (RM :: s0)).
  { intros (n & s' & E). destruct n; cbn [repeat app] in E; [discriminate|]. injection E as E. apply T0. exists n, s'. exact E. }
  destruct b, c; unfold gap in G; cbn [app] in G; destruct g1 as [|x [|y [|w g1]]]; cbn [app] in G; try discriminate.
  - subst g2. split; [intros _; split; [reflexivity|intros ([|? [|? ?]] & K); discriminate]|]. intros _. exists 1, s0. reflexivity.
  - injection G as <- <-. split; [intros _; split; [reflexivity|intros ([|? [|? ?]] & K); discriminate]|]. intros _. exists 0, s0. reflexivity.
  - injection G as <- <- <-. split; [intros T; contradiction|]. intros (_ & K). exfalso. apply K. exists [RM]. reflexivity.
  - subst g2. split; [intros T; contradiction|intros (K & _); discriminate].
  - injection G as <- <-. split; [intros T; contradiction|intros (K & _); discriminate].
  - subst g2. split; [intros _; split; [reflexivity|intros ([|? ?] & K); discriminate]|]. intros _. exists 0, s0. reflexivity.
  - injection G as <- <-. split; [intros T; contradiction|]. intros (_ & K). exfalso. apply K. exists []. reflexivity.
  - subst g2. split; [intros T; contradiction|intros (K & _); discriminate].
Qed.
Lemma marking_left E S pre u z : marking E S pre u z ->
  forall y s, z = y ++ s -> (E (pre ++ erase y) /\ ~ ends LM y <-> tail_ok LM RM s).
Proof.
  intros M. induction M as [pre b c Hb Hc|pre a u b c z Hb Hc Ha M IH]; intros y s Es.
  - assert (Es' : gap b c ++ [] = y ++ s) by (rewrite app_nil_r; exact Es). apply gap_split in Es'. destruct Es' as [(g1 & g2 & -> & G & ->)|(y' & -> & Ey)].
    + assert (Eg : erase g1 = []) by (pose proof (erase_gap b c) as K; rewrite G, erase_app in K; apply app_eq_nil in K; apply K).
      rewrite Eg, app_nil_r, (gap_tail b c [] g1 g2 (or_introl eq_refl) G), Hc. reflexivity.
    + symmetry in Ey. apply app_eq_nil in Ey. destruct Ey as (-> & ->). rewrite app_nil_r, erase_gap, app_nil_r.
      rewrite <- (app_nil_l []). change ([] ++ []) with (@nil bstr ++ []). rewrite (gap_tail b c [] (gap b c) [] (or_introl eq_refl)) by (rewrite app_nil_r; reflexivity). rewrite Hc. reflexivity.
  - apply gap_split in Es. destruct Es as [(g1 & g2 & -> & G & ->)|(y' & -> & Ey)].
    + assert (Eg : erase g1 = []) by (pose proof (erase_gap b c) as K; rewrite G, erase_app in K; apply app_eq_nil in K; apply K).
      rewrite Eg, app_nil_r, (gap_tail b c (a :: z) g1 g2) by (eauto || exact G). rewrite Hc. reflexivity.
    + destruct y' as [|a' y']; cbn [app] in Ey.
      * subst s. rewrite app_nil_r, erase_gap, app_nil_r. rewrite <- (app_nil_l (a :: z)), (gap_tail b c (a :: z) (gap b c) []) by (eauto || (rewrite app_nil_r; reflexivity)). rewrite Hc. reflexivity.
      * injection Ey as <- ->. rewrite erase_app, erase_gap, (erase_letter a y' Ha), (ends_gap_letter LM _ a y' eq_refl Ha). cbn [app].
        rewrite <- (IH y' s eq_refl). rewrite <- app_assoc. reflexivity.
Qed.
(** The other direction. *)
Definition starts (m : bstr) (s : str) : Prop := exists s', s = m :: s'.
Definition head_ok (y : str) : Prop := exists n y', y = y' ++ RM :: repeat LM n.
Lemma head_letter y a y' : is_mark a = false -> (head_ok (y ++ a :: y') <-> head_ok y').
Proof.
  intros Ha. split; [|intros (n & k & ->); exists n, (y ++ a :: k); rewrite <- app_assoc; reflexivity].
  intros (n & k & E). revert y' E. induction n as [|n IH]; intros y' E.
  - cbn [repeat] in E. assert (K : ends RM (y ++ a :: y')) by (exists k; exact E). apply ends_gap_letter in K; [|reflexivity|exact Ha].
    destruct K as (k' & ->). exists 0, k'. reflexivity.
  - assert (R : repeat LM (S n) = repeat LM n ++ [LM]) by (clear; induction n; [reflexivity|cbn [repeat app] in *; f_equal; exact IHn]).
    rewrite R, app_comm_cons, app_assoc in E.
    assert (K : ends LM (y ++ a :: y')) by (eexists; exact E). apply ends_gap_letter in K; [|reflexivity|exact Ha].
    destruct K as (k' & ->). rewrite app_comm_cons, app_assoc in E. apply app_inj_tail in E. destruct E as (E & _).
    destruct (IH k' E) as (n' & k'' & ->). exists (S n'), k''.
    assert (R' : repeat LM (S n') = repeat LM n' ++ [LM]) by (clear; induction n'; [reflexivity|cbn [repeat app] in *; f_equal; exact IHn']).
    rewrite R', <- app_assoc. reflexivity.
Qed.
Lemma head_nil : ~ head_ok [].
Proof. intros (n & y & E). symmetry in E. apply app_eq_nil in E. destruct E; discriminate. Qed.
Lemma gap_head b c s0 g1 g2 : (s0 = [] \/ exists a s', s0 = a :: s' /\ is_mark a = false) -> gap b c = g1 ++ g2 ->
  (head_ok g1 <-> b = true /\ ~ starts RM (g2 ++ s0)).
Proof.
  intros H0 G. assert (T0 : ~ starts RM s0) by (destruct H0 as [->|(a & s' & -> & Ha)]; intros (k & K); [discriminate|injection K as -> _; discriminate]).
  assert (HL : ~ head_ok [LM]).
  { intros (n & y & E). destruct y as [|x [|x' y]]; try discriminate. }
  destruct b, c; unfold gap in G; cbn [app] in G; destruct g1 as [|x [|y [|w g1]]]; cbn [app] in G; try discriminate.
  - subst g2. split; [intros T; exfalso; exact (head_nil T)|]. intros (_ & K). exfalso. apply K. eexists. reflexivity.
  - injection G as <- <-. split; [intros _; split; [reflexivity|intros (k & K); discriminate]|]. intros _. exists 0, []. reflexivity.
  - injection G as <- <- <-. split; [intros _; split; [reflexivity|exact T0]|]. intros _. exists 1, []. reflexivity.
  - subst g2. split; [intros T; exfalso; exact (head_nil T)|]. intros (_ & K). exfalso. apply K. eexists. reflexivity.
  - injection G as <- <-. split; [intros _; split; [reflexivity|exact T0]|]. intros _. exists 0, []. reflexivity.
  - subst g2. split; [intros T; exfalso; exact (head_nil T)|intros (K & _); discriminate].
  - injection G as <- <-. split; [intros T; contradiction|intros (K & _); discriminate].
  - subst g2. split; [intros T; exfalso; exact (head_nil T)|intros (K & _); discriminate].
Qed.
Lemma marking_right E S pre u z : marking E S pre u z ->
  forall y s, z = y ++ s -> (S (erase s) /\ ~ starts RM s <-> head_ok y).
Proof.
  intros M. induction M as [pre b c Hb Hc|pre a u b c z Hb Hc Ha M IH]; intros y s Es.
  - assert (Es' : gap b c ++ [] = y ++ s) by (rewrite app_nil_r; exact Es). apply gap_split in Es'. destruct Es' as [(g1 & g2 & -> & G & ->)|(y' & -> & Ey)].
    + assert (Eg : erase g2 = []) by (pose proof (erase_gap b c) as K; rewrite G, erase_app in K; apply app_eq_nil in K; apply K).
      rewrite (gap_head b c [] g1 g2 (or_introl eq_refl) G), erase_app, Eg, Hb. reflexivity.
    + symmetry in Ey. apply app_eq_nil in Ey. destruct Ey as (-> & ->). rewrite app_nil_r.
      rewrite (gap_head b c [] (gap b c) [] (or_introl eq_refl)) by (rewrite app_nil_r; reflexivity). rewrite Hb. reflexivity.
  - assert (Eu : erase (a :: z) = a :: u) by (rewrite (erase_letter a z Ha), (marking_erase _ _ _ _ _ M); reflexivity).
    apply gap_split in Es. destruct Es as [(g1 & g2 & -> & G & ->)|(y' & -> & Ey)].
    + assert (Eg : erase g2 = []) by (pose proof (erase_gap b c) as K; rewrite G, erase_app in K; apply app_eq_nil in K; apply K).
      rewrite (gap_head b c (a :: z) g1 g2) by (eauto || exact G). rewrite erase_app, Eg, Eu, Hb. reflexivity.
    + destruct y' as [|a' y']; cbn [app] in Ey.
      * subst s. rewrite app_nil_r, Eu. rewrite (gap_head b c (a :: z) (gap b c) []) by (eauto || (rewrite app_nil_r; reflexivity)). rewrite Hb. reflexivity.
      * injection Ey as <- ->. rewrite (head_letter _ a y' Ha). apply IH. reflexivity.
Qed.
Lemma rev_repeat (m : bstr) n : rev (repeat m n) = repeat m n.
Proof. induction n; [reflexivity|]. cbn [repeat rev]. rewrite IHn. clear. induction n; [reflexivity|cbn [repeat app]; f_equal; exact IHn]. Qed.

Section Whole.
  Variables (l r : str -> Prop).
  Let rl := fun x => r (rev x).
  Lemma right_left q : left_here rl (rev q) <-> right_here r q.
  Proof.
    unfold rl. split.
    - intros (x & y & E & Y). exists (rev y), (rev x). split; [|exact Y]. rewrite <- (rev_involutive q), E, rev_app_distr. reflexivity.
    - intros (x & y & -> & X). exists (rev y), (rev x). split; [apply rev_app_distr|]. rewrite rev_involutive. exact X.
  Qed.
  Lemma marking_ok u z : marking (left_here l) (right_here r) [] u z -> ok (left_here l) LM RM z /\ ok (left_here rl) RM LM (rev z).
  Proof.
    intros M. split; [intros y s E; apply (marking_left _ _ _ _ _ M y s E)|].
    intros y s E. assert (Ez : z = rev s ++ rev y) by (rewrite <- (rev_involutive z), E, rev_app_distr; reflexivity).
    pose proof (marking_right _ _ _ _ _ M (rev s) (rev y) Ez) as K. rewrite erase_rev, <- right_left, rev_involutive in K.
    assert (K1 : starts RM (rev y) <-> ends RM y).
    { split; [intros (k & Ek); exists (rev k); rewrite <- (rev_involutive y), Ek; reflexivity|]. intros (k & ->). exists (rev k). rewrite rev_app_distr. reflexivity. }
    assert (K2 : head_ok (rev s) <-> tail_ok RM LM s).
    { split.
      - intros (n & k & Ek). exists n, (rev k). rewrite <- (rev_involutive s), Ek, rev_app_distr. cbn [rev]. rewrite rev_repeat, <- app_assoc. reflexivity.
      - intros (n & k & ->). exists n, (rev k). rewrite rev_app_distr. cbn [rev]. rewrite rev_repeat, <- app_assoc. reflexivity. }
    rewrite <- K1, <- K2. exact K.
  Qed.
  (** The facts used to cut. *)
  Lemma ok_facts z : ok (left_here l) LM RM z -> ok (left_here rl) RM LM (rev z) ->
    (forall y s, z = y ++ LM :: s -> left_here l (erase y)) /\
    (forall y s, z = y ++ RM :: s -> right_here r (erase s)) /\
    (forall p q, erase z = p ++ q -> left_here l p -> exists y s, z = y ++ LM :: s /\ erase y = p /\ erase s = q) /\
    (forall p q, erase z = p ++ q -> right_here r q -> exists y s, z = y ++ RM :: s /\ erase y = p /\ erase s = q) /\
    (forall y b s, z = y ++ LM :: b :: s -> is_mark b = false) /\
    (forall y b s, z = y ++ b :: RM :: s -> is_mark b = false).
  Proof.
    intros OL OR. repeat split.
    - intros y s E. apply (ok_at _ LM RM z y s OL E).
    - intros y s E. apply right_left. rewrite <- erase_rev. apply (ok_at _ RM LM (rev z) (rev s) (rev y) OR). rewrite E, rev_app_distr. cbn [rev]. rewrite <- app_assoc. reflexivity.
    - intros p q E H. apply (ok_find _ LM RM eq_refl eq_refl z p q OL E H).
    - intros p q E H. destruct (ok_find _ RM LM eq_refl eq_refl (rev z) (rev q) (rev p) OR) as (y & s & Ey & E1 & E2).
      + rewrite erase_rev, E, rev_app_distr. reflexivity.
      + apply right_left. exact H.
      + exists (rev s), (rev y). rewrite !erase_rev, E1, E2, !rev_involutive. split; [|auto]. rewrite <- (rev_involutive z), Ey, rev_app_distr. cbn [rev]. rewrite <- app_assoc. reflexivity.
    - intros y b s E. destruct (is_mark b) eqn:M; [exfalso|reflexivity]. apply (ok_after _ LM RM eq_refl eq_refl ltac:(discriminate) z y b s OL E M). apply is_mark_iff. exact M.
    - intros y b s E. destruct (is_mark b) eqn:M; [exfalso|reflexivity].
      apply (ok_after _ RM LM eq_refl eq_refl ltac:(discriminate) (rev z) (rev s) b (rev y) OR); [|exact M|apply is_mark_iff in M; tauto].
      rewrite E, rev_app_distr. cbn [rev]. rewrite <- !app_assoc. reflexivity.
  Qed.
End Whole.

(** * The relations *)
Lemma rel_read a u v : rel a u v <-> exists w, a w /\ u = read w /\ v = written w.
Proof. reflexivity. Qed.
Section Rel.
  Variable al : str.
  Hypothesis Ea : ~ In EPS al.
  Hypothesis Ma : unmarked al.
  Lemma al_letter a : In a al -> is_mark a = false.
  Proof. intros H. destruct (is_mark a) eqn:M; [exfalso|reflexivity]. apply is_mark_iff in M. destruct Ma as (M1 & M2). destruct M as [-> | ->]; auto. Qed.
  Lemma rel_identity (a : plang) u v : (forall w, a w -> exists x, w = ids x /\ incl x (gamma al)) -> (rel a u v <-> u = v /\ incl u (gamma al) /\ a (ids u)).
  Proof.
    intros I. rewrite rel_read. split.
    - intros (w & W & -> & ->). destruct (I w W) as (x & -> & Ix). pose proof (no_eps_incl x _ (gamma_eps al Ea) Ix) as Nx.
      pose proof (side_ids REPL_UP x Nx) as R1. pose proof (side_ids REPL_DOWN x Nx) as R2. cbn [side_of] in R1, R2. rewrite R1, R2. auto.
    - intros (<- & Iu & A). exists (ids u). pose proof (no_eps_incl u _ (gamma_eps al Ea) Iu) as Nu.
      pose proof (side_ids REPL_UP u Nu) as R1. pose proof (side_ids REPL_DOWN u Nu) as R2. cbn [side_of] in R1, R2. auto.
  Qed.
  Lemma ids_gamma : ids al ++ [(LM, LM); (RM, RM)] = ids (gamma al).
  Proof. unfold gamma. rewrite ids_app. reflexivity. Qed.
  Lemma noEE_ibt (q1 q2 : pair) : q1 <> EE -> q2 <> EE -> ~ In EE (ids al ++ [q1; q2]).
  Proof. intros N1 N2 H. apply in_app_iff in H. destruct H as [H|[H|[H|[]]]]; [exact (no_EE_ids al Ea H)|auto|auto]. Qed.
  Lemma al_eps a : In a al -> bstr_eqb a EPS = false.
  Proof. intros H. apply bstr_eqb_neq. intros ->. exact (Ea H). Qed.
  Lemma ibt_iff u z : rel (l_any (ids al ++ [(EPS, LM); (EPS, RM)])) u z <-> incl z (gamma al) /\ erase z = u.
  Proof.
    rewrite rel_read. assert (N : ~ In EE (ids al ++ [(EPS, LM); (EPS, RM)])) by (apply noEE_ibt; discriminate). split.
    - intros (w & W & -> & ->). apply l_any_over in W; [|exact N]. induction w as [|p w IH]; [split; [intros x []|reflexivity]|].
      destruct IH as (I & E); [intros q Hq; apply W; right; exact Hq|]. rewrite read_cons, written_cons, erase_app, E.
      assert (Hp := W p (or_introl eq_refl)). apply in_app_iff in Hp. destruct Hp as [Hp|[<-|[<-|[]]]].
      + apply in_map_iff in Hp. destruct Hp as (a & <- & Ha). cbn [fst snd]. rewrite (al_eps a Ha). split.
        * intros x [<-|Hx]; [apply in_app_iff; left; exact Ha|apply I; exact Hx].
        * rewrite (erase_letter a [] (al_letter a Ha)). reflexivity.
      + split; [|reflexivity]. intros x [<-|Hx]; [apply in_app_iff; right; left; reflexivity|apply I; exact Hx].
      + split; [|reflexivity]. intros x [<-|Hx]; [apply in_app_iff; right; right; left; reflexivity|apply I; exact Hx].
    - intros (I & <-). enough (G : exists w, over (ids al ++ [(EPS, LM); (EPS, RM)]) w /\ erase z = read w /\ z = written w).
      { destruct G as (w & W & E1 & E2). exists w. split; [apply l_any_over; assumption|auto]. }
      induction z as [|a z IH]; [exists []; split; [intros p []|auto]|]. destruct IH as (w & W & E1 & E2); [intros x Hx; apply I; right; exact Hx|].
      assert (Ha := I a (or_introl eq_refl)). apply in_app_iff in Ha. destruct Ha as [Ha|[<-|[<-|[]]]].
      + exists ((a, a) :: w). rewrite read_cons, written_cons. cbn [fst snd]. rewrite (al_eps a Ha), (erase_letter a z (al_letter a Ha)). cbn [app].
        split; [intros p [<-|Hp]; [apply in_app_iff; left; apply in_map_iff; exists a; auto|apply W; exact Hp]|]. split; congruence.
      + exists ((EPS, LM) :: w). rewrite read_cons, written_cons, erase_cons. cbn [fst snd].
        split; [intros p [<-|Hp]; [apply in_app_iff; right; left; reflexivity|apply W; exact Hp]|]. split; [exact E1|]. rewrite E2 at 1. reflexivity.
      + exists ((EPS, RM) :: w). rewrite read_cons, written_cons, erase_cons. cbn [fst snd].
        split; [intros p [<-|Hp]; [apply in_app_iff; right; right; left; reflexivity|apply W; exact Hp]|]. split; [exact E1|]. rewrite E2 at 1. reflexivity.
  Qed.
  Lemma swap_any ps w : l_any ps (swap w) -> exists ps', ps' = swap ps /\ l_any ps' w.
  Proof.
    intros (v & F & E). exists (swap ps). split; [reflexivity|]. exists (swap v). split.
    - apply Forall_forall. intros p Hp. apply in_map_iff in Hp. destruct Hp as (q & <- & Hq). rewrite Forall_forall in F. apply in_map_iff. exists q. auto.
    - apply (f_equal swap) in E. rewrite swap_swap in E. rewrite E. clear. induction v as [|p v IH]; [reflexivity|]. cbn [map filter].
      assert (Q : pair_eqb (snd p, fst p) EE = pair_eqb p EE) by (unfold pair_eqb; cbn [fst snd]; apply andb_comm).
      rewrite Q. destruct (pair_eqb p EE); cbn [negb map]; [exact IH|f_equal; exact IH].
  Qed.
  Lemma rbt_iff z v : rel (l_any (ids al ++ [(LM, EPS); (RM, EPS)])) z v <-> incl z (gamma al) /\ erase z = v.
  Proof.
    rewrite <- ibt_iff, !rel_read. assert (Q1 : swap (ids al ++ [(LM, EPS); (RM, EPS)]) = ids al ++ [(EPS, LM); (EPS, RM)]) by (rewrite map_app; unfold ids; rewrite swap_ids; reflexivity).
    split; intros (w & W & -> & ->); exists (swap w); rewrite read_swap, written_swap; (split; [|auto]).
    - rewrite <- (swap_swap w) in W. apply swap_any in W. destruct W as (ps & -> & W). rewrite Q1 in W. exact W.
    - rewrite <- (swap_swap w) in W. apply swap_any in W. destruct W as (ps & -> & W). rewrite <- Q1, swap_swap in W. exact W.
  Qed.
  Lemma cbt_iff u v : let pi_star := l_any (ids (gamma al)) in
    rel (l_sub pi_star (l_cat (l_cat (l_cat pi_star (l_symbol LM)) (l_symbol RM)) pi_star)) u v <-> u = v /\ incl u (gamma al) /\ ~ factor [LM; RM] u.
  Proof.
    intros pi. rewrite rel_identity.
    - unfold l_sub. split.
      + intros (-> & I & _ & N). split; [reflexivity|]. split; [exact I|]. intros (x & y & ->). apply N.
        exists (ids x ++ [(LM, LM); (RM, RM)]), (ids y). split; [rewrite !ids_app; asc|]. split.
        * exists (ids x ++ [(LM, LM)]), [(RM, RM)]. split; [asc|]. split; [|apply l_symbol_iff; [discriminate|reflexivity]].
          exists (ids x), [(LM, LM)]. split; [reflexivity|]. split; [|apply l_symbol_iff; [discriminate|reflexivity]].
          apply any_gamma_ids; [exact Ea|]. intros a Ha. apply I. apply in_app_iff. auto.
        * apply any_gamma_ids; [exact Ea|]. intros a Ha. apply I. apply in_app_iff. right. right. right. exact Ha.
      + intros (-> & I & N). split; [reflexivity|]. split; [exact I|]. split; [apply any_gamma_ids; [exact Ea|exact I]|].
        intros (a & b & E & (c & d & -> & (e & f & -> & A & F) & D) & Bb). apply l_symbol_iff in F, D; [|discriminate|discriminate]. subst f d.
        apply any_gamma in A, Bb; [|exact Ea|exact Ea]. destruct A as (x & -> & _), Bb as (y & -> & _). apply N. exists x, y. apply ids_inj. rewrite E, !ids_app. asc.
    - intros w (W & _). apply any_gamma in W; [exact W|exact Ea].
  Qed.
  Section Rules.
    Variables (l r : str -> Prop) (t : plang).
    Hypothesis Nl : forall x, l x -> unmarked x.
    Hypothesis Nr : forall x, r x -> unmarked x.
    Hypothesis Dl : forall x, l x \/ ~ l x.
    Hypothesis Dr : forall x, r x \/ ~ r x.
    Hypothesis Ct : forall m, t m -> clean m.
    Let rl := fun x => r (rev x).
    Lemma Nrl x : rl x -> unmarked x.
    Proof. intros H. apply Nr in H. destruct H as (H1 & H2). split; intros K; [apply H1|apply H2]; apply -> in_rev; exact K. Qed.
    Lemma lct_iff u v : rel (replace_context (automaton l) LM RM (ids (gamma al))) u v <-> u = v /\ incl u (gamma al) /\ ok (left_here l) LM RM u.
    Proof.
      rewrite rel_identity.
      - rewrite (replace_context_iff al Ea l LM RM (or_introl (conj eq_refl eq_refl)) Nl Dl). split.
        + intros (-> & I & z & E & _ & O). apply ids_inj in E. subst z. auto.
        + intros (-> & I & O). split; [reflexivity|]. split; [exact I|]. exists v. auto.
      - intros w W. apply (replace_context_iff al Ea l LM RM (or_introl (conj eq_refl eq_refl)) Nl Dl) in W. destruct W as (z & -> & I & _). exists z. auto.
    Qed.
    Lemma rev_automaton w : l_rev (automaton r) w <-> automaton rl w.
    Proof.
      unfold l_rev, automaton, rl. split.
      - intros (x & X & E). exists (rev x). rewrite rev_involutive. split; [exact X|]. rewrite <- (rev_involutive w), E, map_rev. reflexivity.
      - intros (x & X & ->). exists (rev x). split; [exact X|]. rewrite map_rev. reflexivity.
    Qed.
    Lemma replace_context_ext (a b : plang) m1 m2 ps w : (forall w, a w <-> b w) -> replace_context a m1 m2 ps w <-> replace_context b m1 m2 ps w.
    Proof.
      intros E. assert (X : forall w, l_insert (m2, m2) (l_insert (m1, m1) a) w <-> l_insert (m2, m2) (l_insert (m1, m1) b) w).
      { intros v. unfold l_insert. split; intros (v1 & (v2 & V & I2) & I1); exists v1; (split; [exists v2; split; [apply E; exact V|exact I2]|exact I1]). }
      assert (C : forall w, l_comp (l_cat (l_any ps) (l_insert (m2, m2) (l_insert (m1, m1) a))) (l_sub (l_any ps) (l_cat (l_any ps) (l_symbol m1))) w <->
        l_comp (l_cat (l_any ps) (l_insert (m2, m2) (l_insert (m1, m1) b))) (l_sub (l_any ps) (l_cat (l_any ps) (l_symbol m1))) w).
      { intros v. unfold l_comp, l_cat at 1 3. split; intros (v1 & v2 & (x & y & Ev & Px & Py) & Q); exists v1, v2; (split; [exists x, y; split; [exact Ev|split; [exact Px|apply X; exact Py]]|exact Q]). }
      unfold replace_context. cbn zeta. unfold l_sub at 1 5. unfold l_or. unfold l_cat at 1 5 7 11. 
      split; intros (P & N); (split; [exact P|]); intros [(x & y & Ev & (Px & Nx) & Py)|(x & y & Ev & Px & Py)]; apply N.
      - left. exists x, y. split; [exact Ev|]. split; [|exact Py]. split; [exact Px|]. intros K. apply Nx. apply C. exact K.
      - right. exists x, y. split; [exact Ev|]. split; [apply C; exact Px|exact Py].
      - left. exists x, y. split; [exact Ev|]. split; [|exact Py]. split; [exact Px|]. intros K. apply Nx. apply C. exact K.
      - right. exists x, y. split; [exact Ev|]. split; [apply C; exact Px|exact Py].
    Qed.
    Lemma rct_iff u v : rel (l_rev (replace_context (l_rev (automaton r)) RM LM (ids (gamma al)))) u v <->
      u = v /\ incl u (gamma al) /\ ok (left_here rl) RM LM (rev u).
    Proof.
      assert (R : forall w, l_rev (replace_context (l_rev (automaton r)) RM LM (ids (gamma al))) w <-> exists z, w = ids z /\ incl z (gamma al) /\ ok (left_here rl) RM LM (rev z)).
      { intros w. unfold l_rev at 1. rewrite (replace_context_ext _ (automaton rl)) by (exact rev_automaton).
        rewrite (replace_context_iff al Ea rl RM LM (or_intror (conj eq_refl eq_refl)) Nrl (fun x => Dr (rev x))). split.
        - intros (z & E & I & O). exists (rev z). rewrite rev_involutive. split; [rewrite <- (rev_involutive w), E; unfold ids; rewrite map_rev; reflexivity|].
          split; [intros a Ha; apply I; apply in_rev; exact Ha|exact O].
        - intros (z & -> & I & O). exists (rev z). split; [unfold ids; rewrite map_rev; reflexivity|]. split; [intros a Ha; apply I; apply in_rev; exact Ha|exact O]. }
      rewrite rel_identity.
      - rewrite R. split.
        + intros (-> & I & z & E & _ & O). apply ids_inj in E. subst z. auto.
        + intros (-> & I & O). split; [reflexivity|]. split; [exact I|]. exists v. auto.
      - intros w W. apply R in W. destruct W as (z & -> & I & _). exists z. auto.
    Qed.
    Definition tm : plang := l_cat (l_cat (l_symbol LM) (l_insert (LM, LM) (l_insert (RM, RM) t))) (l_symbol RM).
    Lemma tm_iff w : tm w <-> exists inner, w = (LM, LM) :: inner ++ [(RM, RM)] /\ t (drop_marks inner).
    Proof.
      assert (N1 : never (LM, LM) t) by (intros v V H; destruct (Ct v V _ H); discriminate).
      assert (N2 : never (RM, RM) t) by (intros v V H; destruct (Ct v V _ H); discriminate).
      unfold tm. split.
      - intros (a & b & -> & (c & d & -> & C & D) & Bb). apply l_symbol_iff in C, Bb; [|discriminate|discriminate]. subst c b.
        apply (insert2_iff RM LM t d (or_intror (conj eq_refl eq_refl)) N1 N2) in D. exists d. split; [reflexivity|exact D].
      - intros (inner & -> & T). exists ((LM, LM) :: inner), [(RM, RM)]. split; [reflexivity|]. split; [|apply l_symbol_iff; [discriminate|reflexivity]].
        exists [(LM, LM)], inner. split; [reflexivity|]. split; [apply l_symbol_iff; [discriminate|reflexivity]|].
        apply (insert2_iff RM LM t inner (or_intror (conj eq_refl eq_refl)) N1 N2). exact T.
    Qed.
    Lemma rt_iff ty u v : rel (replace_transducer t LM RM ty (ids (gamma al))) u v <-> exists w, replacing (side_of ty) tm (gamma al) w /\ u = read w /\ v = written w.
    Proof.
      rewrite rel_read. unfold replace_transducer. cbn zeta. fold tm.
      split; intros (w & W & E); exists w; (split; [|exact E]); apply (replace_iff tm ty (gamma al) w (gamma_eps al Ea)); exact W.
    Qed.
    Hypothesis Ot : forall m p, t m -> In p m -> snd p = EPS \/ In (snd p) al.
    Lemma written_gamma w : replacing read tm (gamma al) w -> incl (written w) (gamma al).
    Proof.
      intros R. induction R as [x I N|x m w I N M R IH].
      - pose proof (side_ids REPL_DOWN x (no_eps_incl x _ (gamma_eps al Ea) I)) as W. cbn [side_of] in W. unfold ids in W. rewrite W. exact I.
      - rewrite !written_app. pose proof (side_ids REPL_DOWN x (no_eps_incl x _ (gamma_eps al Ea) I)) as W. cbn [side_of] in W. unfold ids in W. rewrite W.
        apply tm_iff in M. destruct M as (inner & -> & T). rewrite written_tm. intros a Ha. apply in_app_iff in Ha. destruct Ha as [Ha|Ha]; [apply I; exact Ha|].
        apply in_app_iff in Ha. destruct Ha as [Ha|Ha]; [|apply IH; exact Ha]. destruct Ha as [<-|Ha]; [apply in_app_iff; right; left; reflexivity|].
        apply in_app_iff in Ha. destruct Ha as [Ha|[<-|[]]]; [|apply in_app_iff; right; right; left; reflexivity].
        unfold written in Ha. apply filter_In in Ha. destruct Ha as (Ha & Ne). apply in_map_iff in Ha. destruct Ha as (p & <- & Hp).
        destruct (pair_eqb p (LM, LM)) eqn:E1; [apply pair_eqb_eq in E1; subst; apply in_app_iff; right; left; reflexivity|].
        destruct (pair_eqb p (RM, RM)) eqn:E2; [apply pair_eqb_eq in E2; subst; apply in_app_iff; right; right; left; reflexivity|].
        destruct (Ot (drop_marks inner) p T) as [E|H]; [apply filter_In; rewrite E1, E2; auto| |apply in_app_iff; left; exact H].
        rewrite E in Ne. discriminate Ne.
    Qed.
    Lemma no_LR z : (forall y b s, z = y ++ LM :: b :: s -> is_mark b = false) -> ~ factor [LM; RM] z.
    Proof. intros F (x & y & E). cbn [app] in E. apply F in E. discriminate E. Qed.
    Lemma up_iff u v : replace_in_context (automaton l, automaton r) UP t false (ids al) u v <-> incl u al /\ rewritten t l r [] u v.
    Proof.
      unfold replace_in_context. cbn [fst snd]. cbn zeta. rewrite ids_gamma. unfold rcomp. split.
      - intros (v' & (z5 & (z4 & (z3 & (z2 & H1 & H2) & H3) & H4) & H5) & H6).
        apply cbt_iff in H2. destruct H2 as (<- & _ & _). apply rct_iff in H3. destruct H3 as (<- & _ & OR). apply lct_iff in H4. destruct H4 as (<- & _ & OL).
        apply ibt_iff in H1. destruct H1 as (I & <-). apply rt_iff in H5. destruct H5 as (w & W & -> & ->). apply rbt_iff in H6. destruct H6 as (_ & <-).
        cbn [side_of] in W. destruct (ok_facts l r (read w) OL OR) as (F1 & F2 & F3 & F4 & F5 & F6).
        split.
        + intros a Ha. apply filter_In in Ha. destruct Ha as (Ha & Na). apply I in Ha. apply in_app_iff in Ha. destruct Ha as [Ha|[<-|[<-|[]]]]; [exact Ha|discriminate|discriminate].
        + apply (forward t l r al (read w) Ct (gamma_eps al Ea) F1 F2 F3 F4 F5 F6 tm tm_iff w W []); [reflexivity|left; reflexivity].
      - intros (I & R).
        assert (Mu : unmarked u) by (destruct Ma as (M1 & M2); split; intros H; auto).
        destruct (marking_exists (left_here l) (right_here r)) with (u := u) (pre := @nil bstr) as (z & Z); [intros p; apply here_dec; exact Dl| |exact Mu|].
        { intros q. pose proof (here_dec rl (fun x => Dr (rev x)) (rev q)) as D. unfold rl in D. rewrite right_left in D. exact D. }
        pose proof (marking_erase _ _ _ _ _ Z) as Ez. pose proof (marking_incl _ _ _ _ _ al Z I) as Iz.
        destruct (marking_ok l r u z Z) as (OL & OR). destruct (ok_facts l r z OL OR) as (F1 & F2 & F3 & F4 & F5 & F6).
        destruct (backward t l r al z Ct (gamma_eps al Ea) Iz F1 F2 F3 F4 F5 F6 tm tm_iff [] u v R [] z eq_refl (or_introl eq_refl) eq_refl Ez) as (w & W & Rw & Ww).
        exists (written w). split; [|apply rbt_iff; split; [apply written_gamma; exact W|exact Ww]].
        exists z. split; [|apply (rt_iff REPL_UP); exists w; auto].
        exists z. split; [|apply lct_iff; auto]. exists z. split; [|apply rct_iff; auto]. exists z. split; [apply ibt_iff; auto|].
        apply cbt_iff. split; [reflexivity|]. split; [exact Iz|]. apply no_LR. exact F5.
    Qed.
  End Rules.
End Rel.
