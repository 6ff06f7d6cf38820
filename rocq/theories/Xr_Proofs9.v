(** Proofs about the replace rules: directed replacement divides a text in one way. *)
From Verif Require Import Base Xr_Model Xr_Spec Xr_Proofs1 Xr_Proofs2 Xr_Proofs3 Xr_Proofs4 Xr_Proofs5.

Section Division.
Variable rs : list rule.
Hypothesis Hu : forall r, In r rs -> firm r.
Hypothesis Hup : upward rs.
Lemma split_long {A} (P : list A -> list A -> Prop) w : (forall a b, P a b \/ ~ P a b) ->
  (exists a b, w = a ++ b /\ P a b /\ forall c d, b = c ++ d -> c <> [] -> ~ P (a ++ c) d) \/ forall a b, w = a ++ b -> ~ P a b.
Proof.
  intros D. revert P D. induction w as [|s w IH]; intros P D.
  - destruct (D [] []) as [H|H].
    + left. exists [], []. split; auto. split; auto. intros c d E Hc. symmetry in E. apply app_eq_nil in E. destruct E; congruence.
    + right. intros a b E. symmetry in E. apply app_eq_nil in E. destruct E as (-> & ->). auto.
  - destruct (IH (fun a b => P (s :: a) b)) as [(a & b & -> & H & M)|N]; auto.
    + left. exists (s :: a), b. auto.
    + destruct (D [] (s :: w)) as [H|H].
      * left. exists [], (s :: w). split; auto. split; auto. intros c d E Hc. destruct c as [|x c]; [congruence|]. injection E as <- ->.
        simpl. apply N. auto.
      * right. intros [|x a] b E; simpl in E; [subst b; auto|]. injection E as <- ->. auto.
Qed.
Lemma split_short {A} (P : list A -> list A -> Prop) w : (forall a b, P a b \/ ~ P a b) ->
  (exists a b, w = a ++ b /\ P a b /\ forall c d, a = c ++ d -> d <> [] -> ~ P c (d ++ b)) \/ forall a b, w = a ++ b -> ~ P a b.
Proof.
  intros D. revert P D. induction w as [|s w IH]; intros P D.
  - destruct (D [] []) as [H|H].
    + left. exists [], []. split; auto. split; auto. intros c d E Hc. symmetry in E. apply app_eq_nil in E. destruct E; congruence.
    + right. intros a b E. symmetry in E. apply app_eq_nil in E. destruct E as (-> & ->). auto.
  - destruct (D [] (s :: w)) as [H|H].
    + left. exists [], (s :: w). split; auto. split; auto. intros c d E Hc. symmetry in E. apply app_eq_nil in E. destruct E; congruence.
    + destruct (IH (fun a b => P (s :: a) b)) as [(a & b & -> & H' & M)|N]; auto.
      * left. exists (s :: a), b. split; auto. split; auto. intros c d E Hc. destruct c as [|x c]; [simpl in E; subst d; exact H|].
        simpl in E. injection E as <- ->. apply M; auto.
      * right. intros [|x a] b E; simpl in E; [subst b; auto|]. injection E as <- ->. auto.
Qed.
Lemma split_short_r {A} (P : list A -> list A -> Prop) w : (forall a b, P a b \/ ~ P a b) ->
  (exists a b, w = a ++ b /\ P a b /\ forall c d, b = c ++ d -> c <> [] -> ~ P (a ++ c) d) \/ forall a b, w = a ++ b -> ~ P a b.
Proof. apply split_long. Qed.
Definition Pll (u : text) (p : piece) (v : text) : Prop :=
  match p with Keep _ => True | Change x y => forall w z, v = w ++ z -> w <> [] -> ~ match_at rs u (x ++ w) z end.
Definition Psl (u : text) (p : piece) (v : text) : Prop :=
  match p with Keep _ => True | Change x y => forall w z, x = w ++ z -> z <> [] -> ~ match_at rs u w (z ++ v) end.
Definition Psr (u : text) (p : piece) (v : text) : Prop :=
  match p with Keep _ => True | Change x y => forall w z, x = w ++ z -> w <> [] -> ~ match_at rs (u ++ w) z v end.
Lemma ll_iff ps : longest_from_left rs ps <-> allp Pll [] ps [].
Proof.
  rewrite allp_nil. unfold longest_from_left. split.
  - intros H l [a|x y] r E; simpl; auto. intros w z E' N. eauto.
  - intros H l x y r w v E E' N. specialize (H l (Change x y) r E). simpl in H. eauto.
Qed.
Lemma sl_iff ps : shortest_from_left rs ps <-> allp Psl [] ps [].
Proof.
  rewrite allp_nil. unfold shortest_from_left. split.
  - intros H l [a|x y] r E; simpl; auto. intros w z E' N. eauto.
  - intros H l x y r w v E E' N. specialize (H l (Change x y) r E). simpl in H. eauto.
Qed.
Lemma sr_iff ps : shortest_from_right rs ps <-> allp Psr [] ps [].
Proof.
  rewrite allp_nil. unfold shortest_from_right. split.
  - intros H l [a|x y] r E; simpl; auto. intros w z E' N. eauto.
  - intros H l x y r w v E E' N. specialize (H l (Change x y) r E). simpl in H. eauto.
Qed.
Lemma exists_left (Q : text -> piece -> text -> Prop) :
  (forall u a v, Q u (Keep a) v) ->
  (forall u w, (exists x v, w = x ++ v /\ match_at rs u x v /\ forall y, Q u (Change x y) v) \/ forall x v, w = x ++ v -> ~ match_at rs u x v) ->
  forall n v u, List.length v <= n -> exists ps, read ps = v /\ allp (Plic rs) u ps [] /\ allp (Pfl rs) u ps [] /\ allp Q u ps [].
Proof using Hu.
  intros HK HQ. induction n as [|n IH]; intros v u Hn.
  - destruct v; [|simpl in Hn; lia]. exists []. simpl; auto.
  - destruct v as [|a v]; [exists []; simpl; auto|].
    destruct (HQ u (a :: v)) as [(x & w & E & (y & H) & Hy)|N].
    + assert (Hx : x <> []) by (eapply (appl_ne rs Hu); exact H). destruct (IH w (u ++ x)) as (ps & E1 & E2 & E3 & E4).
      { apply (f_equal (@List.length nat)) in E. rewrite app_length in E. destruct x; [congruence|]. simpl in *. lia. }
      exists (Change x y :: ps). simpl. rewrite E1, app_nil_r. split; auto.
    + destruct (IH v (u ++ [a])) as (ps & E1 & E2 & E3 & E4); [simpl in Hn; lia|]. exists (Keep a :: ps). simpl. rewrite E1, app_nil_r.
      repeat split; auto.
Qed.
Lemma exists_right (Q : text -> piece -> text -> Prop) :
  (forall u a v, Q u (Keep a) v) ->
  (forall w v, (exists u x, w = u ++ x /\ match_at rs u x v /\ forall y, Q u (Change x y) v) \/ forall u x, w = u ++ x -> ~ match_at rs u x v) ->
  forall n u v, List.length u <= n -> exists ps, read ps = u /\ allp (Plic rs) [] ps v /\ allp (Pfr rs) [] ps v /\ allp Q [] ps v.
Proof using Hu.
  intros HK HQ. induction n as [|n IH]; intros u v Hn.
  - destruct u; [|simpl in Hn; lia]. exists []. simpl; auto.
  - destruct u as [|a u _] using rev_ind; [exists []; simpl; auto|].
    destruct (HQ (u ++ [a]) v) as [(w & x & E & (y & H) & Hy)|N].
    + assert (Hx : x <> []) by (eapply (appl_ne rs Hu); exact H). destruct (IH w (x ++ v)) as (ps & E1 & E2 & E3 & E4).
      { rewrite E, app_length in Hn. destruct x; [congruence|]. simpl in *. lia. }
      exists (ps ++ [Change x y]). rewrite read_app, E1, !allp_app. simpl. rewrite !app_nil_r, E1. auto 10.
    + destruct (IH u (a :: v)) as (ps & E1 & E2 & E3 & E4); [rewrite app_length in Hn; simpl in Hn; lia|]. exists (ps ++ [Keep a]).
      rewrite read_app, E1, !allp_app. simpl. rewrite E1. auto 10.
Qed.
Lemma has_leftmost_longest x : exists ps, read ps = x /\ licensed rs ps /\ from_left rs ps /\ longest_from_left rs ps.
Proof using Hu Hup.
  destruct (exists_left Pll) with (n := List.length x) (v := x) (u := @nil nat) as (ps & E & H1 & H2 & H3); auto.
  - intros. exact I.
  - intros u w. destruct (split_long (fun a b => match_at rs u a b) w) as [(a & b & E & H & M)|N]; [intros; apply (dec_match rs Hu)| |right; auto].
    left. exists a, b. auto.
  - exists ps. rewrite (lic_iff rs Hup), fl_iff, ll_iff. auto.
Qed.
Lemma has_leftmost_shortest x : exists ps, read ps = x /\ licensed rs ps /\ from_left rs ps /\ shortest_from_left rs ps.
Proof using Hu Hup.
  destruct (exists_left Psl) with (n := List.length x) (v := x) (u := @nil nat) as (ps & E & H1 & H2 & H3); auto.
  - intros. exact I.
  - intros u w. destruct (split_short (fun a b => match_at rs u a b) w) as [(a & b & E & H & M)|N]; [intros; apply (dec_match rs Hu)| |right; auto].
    left. exists a, b. auto.
  - exists ps. rewrite (lic_iff rs Hup), fl_iff, sl_iff. auto.
Qed.
Lemma has_rightmost_shortest x : exists ps, read ps = x /\ licensed rs ps /\ from_right rs ps /\ shortest_from_right rs ps.
Proof using Hu Hup.
  destruct (exists_right Psr) with (n := List.length x) (v := @nil nat) (u := x) as (ps & E & H1 & H2 & H3); auto.
  - intros. exact I.
  - intros w v. destruct (split_short_r (fun a b => match_at rs a b v) w) as [(a & b & E & H & M)|N]; [intros; apply (dec_match rs Hu)| |right; auto].
    left. exists a, b. split; auto.
  - exists ps. rewrite (lic_iff rs Hup), fr_iff, sr_iff. auto.
Qed.
Definition Plr (u : text) (p : piece) (v : text) : Prop :=
  match p with Keep _ => True | Change x y => forall w z, u = w ++ z -> z <> [] -> ~ match_at rs w (z ++ x) v end.
Lemma lr_iff ps : longest_from_right rs ps <-> allp Plr [] ps [].
Proof.
  rewrite allp_nil. unfold longest_from_right. split.
  - intros H l [a|x y] r E; simpl; auto. intros w z E' N. eauto.
  - intros H l x y r w v E E' N. specialize (H l (Change x y) r E). simpl in H. eauto.
Qed.
Lemma has_rightmost_longest x : exists ps, read ps = x /\ licensed rs ps /\ from_right rs ps /\ longest_from_right rs ps.
Proof using Hu Hup.
  destruct (exists_right Plr) with (n := List.length x) (v := @nil nat) (u := x) as (ps & E & H1 & H2 & H3); auto.
  - intros. exact I.
  - intros w v. destruct (split_short (fun a b => match_at rs a b v) w) as [(a & b & E & H & M)|N]; [intros; apply (dec_match rs Hu)| |right; auto].
    left. exists a, b. split; auto.
  - exists ps. rewrite (lic_iff rs Hup), fr_iff, lr_iff. auto.
Qed.
(** Uniqueness. *)
Definition shape (p : piece) : nat + text := match p with Keep a => inl a | Change x _ => inr x end.
Lemma app_two {A} (a b c d : list A) : a ++ b = c ++ d -> (exists e, a = c ++ e /\ d = e ++ b) \/ (exists e, c = a ++ e /\ b = e ++ d).
Proof.
  revert c. induction a as [|x a IH]; intros [|y c] E; simpl in E.
  - left. exists []. simpl. auto.
  - right. exists (y :: c). auto.
  - left. exists (x :: a). auto.
  - injection E as -> E. destruct (IH c E) as [(e & -> & ->)|(e & -> & ->)]; [left|right]; exists e; auto.
Qed.
Lemma unique_left (Q : text -> piece -> text -> Prop) :
  (forall u x y v x' y' v', x ++ v = x' ++ v' -> appl rs u x y v -> appl rs u x' y' v' -> Q u (Change x y) v -> Q u (Change x' y') v' -> x = x') ->
  forall ps ps' u, read ps = read ps' -> allp (Plic rs) u ps [] -> allp (Pfl rs) u ps [] -> allp Q u ps [] ->
    allp (Plic rs) u ps' [] -> allp (Pfl rs) u ps' [] -> allp Q u ps' [] -> map shape ps = map shape ps'.
Proof using Hu.
  intros HQ. induction ps as [|p ps IH]; intros [|p' ps'] u E H1 H2 H3 H4 H5 H6; auto.
  - exfalso. simpl in E, H4. destruct p' as [a|x y]; simpl in *; [discriminate|]. destruct H4 as (H4 & _). apply (appl_ne rs Hu) in H4.
    destruct x; simpl in E; congruence.
  - exfalso. simpl in E, H1. destruct p as [a|x y]; simpl in *; [discriminate|]. destruct H1 as (H1 & _). apply (appl_ne rs Hu) in H1.
    destruct x; simpl in E; congruence.
  - simpl in H1, H2, H3, H4, H5, H6. rewrite !app_nil_r in *. destruct H1 as (H1 & H1'), H2 as (H2 & H2'), H3 as (H3 & H3'), H4 as (H4 & H4'), H5 as (H5 & H5'), H6 as (H6 & H6').
    destruct p as [a|x y], p' as [a'|x' y']; simpl in E, H1, H2, H3, H4, H5, H6 |- *.
    + injection E as <- E. f_equal. eapply IH; eauto.
    + exfalso. eapply H2; [exact E|]. exists y'. exact H4.
    + exfalso. eapply H5; [symmetry; exact E|]. exists y. exact H1.
    + assert (x = x') by (eapply HQ; eauto). subst x'. apply app_inv_head in E. f_equal. eapply IH; eauto.
Qed.
Lemma unique_right (Q : text -> piece -> text -> Prop) :
  (forall u x y v u' x' y', u ++ x = u' ++ x' -> appl rs u x y v -> appl rs u' x' y' v -> Q u (Change x y) v -> Q u' (Change x' y') v -> x = x') ->
  forall ps ps' v, read ps = read ps' -> allp (Plic rs) [] ps v -> allp (Pfr rs) [] ps v -> allp Q [] ps v ->
    allp (Plic rs) [] ps' v -> allp (Pfr rs) [] ps' v -> allp Q [] ps' v -> map shape ps = map shape ps'.
Proof using Hu.
  intros HQ. induction ps as [|p ps IH] using rev_ind; intros ps' v E H1 H2 H3 H4 H5 H6; destruct ps' as [|p' ps' _] using rev_ind; auto.
  - exfalso. rewrite read_app in E. apply allp_app in H4. destruct p' as [a|x y]; simpl in *; [destruct (read ps'); discriminate|].
    destruct H4 as (_ & H4 & _). apply (appl_ne rs Hu) in H4. destruct (read ps'); destruct x; simpl in E; congruence.
  - exfalso. rewrite read_app in E. apply allp_app in H1. destruct p as [a|x y]; simpl in *; [destruct (read ps); discriminate|].
    destruct H1 as (_ & H1 & _). apply (appl_ne rs Hu) in H1. destruct (read ps); destruct x; simpl in E; congruence.
  - apply allp_app in H1, H2, H3, H4, H5, H6. rewrite !read_app in E. simpl in E, H1, H2, H3, H4, H5, H6. rewrite !app_nil_r in *.
    destruct H1 as (H1' & H1 & _), H2 as (H2' & H2 & _), H3 as (H3' & H3 & _), H4 as (H4' & H4 & _), H5 as (H5' & H5 & _), H6 as (H6' & H6 & _).
    rewrite !map_app.
    destruct p as [a|x y], p' as [a'|x' y']; simpl in E, H1, H2, H3, H4, H5, H6, H1', H2', H3', H4', H5', H6' |- *.
    + apply app_inj_tail in E. destruct E as (E & <-). f_equal. eapply IH; eauto.
    + exfalso. eapply H2; [exact E|]. exists y'. exact H4.
    + exfalso. eapply H5; [symmetry; exact E|]. exists y. exact H1.
    + assert (x = x') by (eapply HQ; eauto). subst x'. apply app_inv_tail in E. f_equal. eapply IH; eauto.
Qed.
Lemma one_leftmost_longest ps ps' : read ps = read ps' -> licensed rs ps -> from_left rs ps -> longest_from_left rs ps ->
  licensed rs ps' -> from_left rs ps' -> longest_from_left rs ps' -> map shape ps = map shape ps'.
Proof using Hu Hup.
  rewrite !(lic_iff rs Hup), !fl_iff, !ll_iff. intros E H1 H2 H3 H4 H5 H6. eapply (unique_left Pll); eauto.
  intros u x y v x' y' v' E' A A' Q Q'. simpl in Q, Q'. apply app_two in E'. destruct E' as [(e & -> & ->)|(e & -> & ->)].
  - destruct e as [|c e]; [rewrite app_nil_r; auto|]. exfalso. eapply Q'; [reflexivity|discriminate|]. exists y. exact A.
  - destruct e as [|c e]; [rewrite app_nil_r; auto|]. exfalso. eapply Q; [reflexivity|discriminate|]. exists y'. exact A'.
Qed.
Lemma one_leftmost_shortest ps ps' : read ps = read ps' -> licensed rs ps -> from_left rs ps -> shortest_from_left rs ps ->
  licensed rs ps' -> from_left rs ps' -> shortest_from_left rs ps' -> map shape ps = map shape ps'.
Proof using Hu Hup.
  rewrite !(lic_iff rs Hup), !fl_iff, !sl_iff. intros E H1 H2 H3 H4 H5 H6. eapply (unique_left Psl); eauto.
  intros u x y v x' y' v' E' A A' Q Q'. simpl in Q, Q'. apply app_two in E'. destruct E' as [(e & -> & ->)|(e & -> & ->)].
  - destruct e as [|c e]; [rewrite app_nil_r; auto|]. exfalso. eapply Q; [reflexivity|discriminate|]. exists y'. exact A'.
  - destruct e as [|c e]; [rewrite app_nil_r; auto|]. exfalso. eapply Q'; [reflexivity|discriminate|]. exists y. exact A.
Qed.
Lemma one_rightmost_shortest ps ps' : read ps = read ps' -> licensed rs ps -> from_right rs ps -> shortest_from_right rs ps ->
  licensed rs ps' -> from_right rs ps' -> shortest_from_right rs ps' -> map shape ps = map shape ps'.
Proof using Hu Hup.
  rewrite !(lic_iff rs Hup), !fr_iff, !sr_iff. intros E H1 H2 H3 H4 H5 H6. eapply (unique_right Psr); eauto.
  intros u x y v u' x' y' E' A A' Q Q'. simpl in Q, Q'. apply app_two in E'. destruct E' as [(e & -> & ->)|(e & -> & ->)].
  - destruct e as [|c e]; auto. exfalso. eapply Q'; [reflexivity|discriminate|]. exists y. exact A.
  - destruct e as [|c e]; auto. exfalso. eapply Q; [reflexivity|discriminate|]. exists y'. exact A'.
Qed.
(** If what is written depends on what is changed only, the result is unique too. *)
Lemma same_written ps ps' : one_valued rs -> licensed rs ps -> licensed rs ps' -> map shape ps = map shape ps' -> written ps = written ps'.
Proof using Hup.
  intros V. rewrite !(lic_iff rs Hup). generalize (@nil nat) at 1 3 as u. generalize (@nil nat) as v. revert ps'. induction ps as [|p ps IH]; intros [|p' ps'] v u H1 H2 E; try discriminate; auto.
  simpl in E, H1, H2. injection E as E1 E. destruct H1 as (H1 & H1'), H2 as (H2 & H2').
  assert (ER : read1 p = read1 p') by (destruct p, p'; simpl in *; congruence). rewrite <- ER in H2'.
  simpl. rewrite (IH ps' v _ H1' H2' E). f_equal. destruct p as [a|x y], p' as [a'|x' y']; simpl in *; try congruence. injection E1 as <-.
  destruct H1 as (r & A1 & A2 & _), H2 as (r' & B1 & B2 & _). exact (V r r' x y y' A1 B1 A2 B2).
Qed.
End Division.
