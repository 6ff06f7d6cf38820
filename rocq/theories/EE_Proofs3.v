(** hfst-expand-equivalences: the file of extensions. *)
From Verif Require Import Base BT_Model EE_Spec EE_Model.

Lemma eqb_iff a b : Ascii.eqb a b = true <-> a = b. Proof. apply Ascii.eqb_eq. Qed.
Lemma at_tab_app l e : ~ In TAB e -> at_tab (l ++ e) = match at_tab l with Some (x, y) => Some (x, y ++ e) | None => None end.
Proof.
  intros N. induction l as [|c l IH].
  - cbn. induction e as [|c e IH]; [reflexivity|]. cbn. destruct (Ascii.eqb c TAB) eqn:E.
    + apply eqb_iff in E. exfalso. apply N. left. exact E.
    + rewrite IH; [reflexivity|]. intros H. apply N. right. exact H.
  - cbn. destruct (Ascii.eqb c TAB); [reflexivity|]. rewrite IH. destruct (at_tab l) as [[x y]|]; reflexivity.
Qed.
Lemma at_tab_some l x y : at_tab l = Some (x, y) <-> l = x ++ TAB :: y /\ ~ In TAB x.
Proof.
  revert x y. induction l as [|c l IH]; intros x y; cbn.
  - split; [discriminate|]. intros [E _]. destruct x; discriminate E.
  - destruct (Ascii.eqb c TAB) eqn:E.
    + apply eqb_iff in E. subst c. split.
      * intros H. injection H as <- <-. split; [reflexivity|intros []].
      * intros [H N]. destruct x as [|d x]; cbn in H; [injection H as ->; reflexivity|]. injection H as <- _. exfalso. apply N. left. reflexivity.
    + assert (Ne : c <> TAB) by (intros K; apply eqb_iff in K; congruence).
      destruct (at_tab l) as [[x' y']|].
      * split.
        -- intros H. injection H as <- <-. destruct (proj1 (IH x' y') eq_refl) as [-> N]. split; [reflexivity|]. intros [K|K]; contradiction.
        -- intros [H N]. destruct x as [|d x]; cbn in H; [injection H as H _; contradiction|]. injection H as <- H.
           assert (Q : Some (x', y') = Some (x, y)) by (apply IH; split; [exact H|]; intros K; apply N; right; exact K). injection Q as <- <-. reflexivity.
      * split; [discriminate|]. intros [H N]. destruct x as [|d x]; cbn in H; [injection H as H _; contradiction|]. injection H as <- H.
        assert (Q : None = Some (x, y)) by (apply IH; split; [exact H|]; intros K; apply N; right; exact K). discriminate Q.
Qed.
Lemma at_tab_none l : at_tab l = None <-> ~ In TAB l.
Proof.
  split.
  - intros E H. apply in_split in H. destruct H as (x & y & ->). revert E. induction x as [|c x IH]; cbn; [discriminate|].
    destruct (Ascii.eqb c TAB); [discriminate|]. destruct (at_tab (x ++ TAB :: y)) as [[]|]; [discriminate|]. intros _. apply IH. reflexivity.
  - intros N. destruct (at_tab l) as [[x y]|] eqn:E; [|reflexivity]. apply at_tab_some in E. destruct E as [-> _]. exfalso. apply N, in_or_app. right. left. reflexivity.
Qed.
Definition line_end (e : bstr) : Prop := e = [] \/ e = [NL].
Lemma end_no_tab e : line_end e -> ~ In TAB e.
Proof. intros [->| ->]; [intros []|intros [H|[]]; discriminate H]. Qed.
Lemma to_end_app l e : line_end e -> ~ In NL l -> to_end (l ++ e) = l.
Proof.
  intros L N. induction l as [|c l IH]; [destruct L as [->| ->]; reflexivity|]. cbn. destruct (Ascii.eqb c NL) eqn:E.
  - apply eqb_iff in E. exfalso. apply N. left. exact E.
  - rewrite IH; [reflexivity|]. intros H. apply N. right. exact H.
Qed.

Definition field_ok (t : bstr) : Prop := plain t /\ t <> [].
Lemma fields_spec from e : line_end e -> forall n l, length l <= n -> ~ In NL l ->
  (forall r, fields n from (l ++ e) = Ok r <-> exists t tos, l = t ++ tabbed tos /\ field_ok t /\ Forall field_ok tos /\ r = map (fun t => (from, t)) (t :: tos))
  /\ ((exists r, fields n from (l ++ e) = Ok r) \/ fields n from (l ++ e) = Throw).
Proof.
  intros L. induction n as [|n IH]; intros l Hn N.
  - assert (l = []) by (destruct l; [reflexivity|cbn in Hn; lia]). subst l. cbn [app].
    assert (E : fields 0 from e = Throw) by (destruct L as [->| ->]; reflexivity). rewrite E. split; [|right; reflexivity].
    intros r. split; [discriminate|]. intros (t & tos & H & (_ & F) & _). destruct t; [contradiction|discriminate H].
  - cbn [fields]. rewrite (at_tab_app l e (end_no_tab e L)). destruct (at_tab l) as [[x y]|] eqn:E.
    + apply at_tab_some in E. destruct E as [-> Nx]. destruct x as [|c x].
      * cbn [app]. split; [|right; reflexivity]. intros r. split; [discriminate|]. intros (t & tos & H & ((P & _) & F) & _).
        destruct t as [|d t]; [contradiction|]. cbn in H. injection H as <- _. exfalso. apply P. left. reflexivity.
      * assert (Ny : ~ In NL y) by (intros K; apply N, in_or_app; right; right; exact K).
        assert (Hy : length y <= n) by (rewrite app_length in Hn; cbn in Hn; lia).
        assert (Px : field_ok (c :: x)).
        { split; [|discriminate]. split; [exact Nx|]. intros K. apply N, in_or_app. left. exact K. }
        destruct (IH y Hy Ny) as [I1 I2]. split.
        -- intros r. split.
           ++ intros R. destruct (fields n from (y ++ e)) as [r'| | |] eqn:Q; try discriminate R. cbn in R. injection R as <-.
              destruct (proj1 (I1 r') eq_refl) as (t & tos & -> & Ft & Fs & ->). exists (c :: x), (t :: tos). repeat split.
              ** apply Px.
              ** apply Px.
              ** discriminate.
              ** constructor; assumption.
           ++ intros (t & tos & H & Ft & Fs & ->).
              destruct tos as [|t2 tos].
              ** cbn [tabbed flat_map] in H. rewrite app_nil_r in H. exfalso. destruct Ft as [[Pt _] _]. rewrite <- H in Pt. apply Pt, in_or_app. right. left. reflexivity.
              ** pose proof (proj2 (at_tab_some ((c :: x) ++ TAB :: y) (c :: x) y) (conj eq_refl Nx)) as Q.
                 rewrite (proj2 (at_tab_some ((c :: x) ++ TAB :: y) t (t2 ++ tabbed tos)) (conj H (proj1 (proj1 Ft)))) in Q.
                 symmetry in Q.
                 injection Q as <- ->. inversion Fs; subst. rewrite (proj2 (I1 (map (fun t => (from, t)) (t2 :: tos)))); [reflexivity|].
                 exists t2, tos. auto.
        -- destruct I2 as [[r ->]| ->]; [left; eexists; reflexivity|right; reflexivity].
    + apply at_tab_none in E. rewrite (to_end_app l e L N). destruct l as [|c l].
      * split; [|right; reflexivity]. intros r. split; [discriminate|]. intros (t & tos & H & (_ & F) & _). destruct t; [contradiction|discriminate H].
      * split; [|left; eexists; reflexivity]. intros r. split.
        -- intros R. injection R as <-. exists (c :: l), []. cbn [tabbed flat_map]. rewrite app_nil_r. repeat split; try assumption; [discriminate|constructor].
        -- intros (t & tos & H & Ft & Fs & ->). destruct tos as [|t2 tos].
           ++ cbn [tabbed flat_map] in H. rewrite app_nil_r in H. subst t. reflexivity.
           ++ exfalso. apply E. rewrite H. apply in_or_app. right. left. reflexivity.
Qed.
Lemma read_line_spec x e : line_end e -> ~ In NL x -> x ++ e <> [] ->
  (forall r, read_line (x ++ e) = Ok r <-> line_says x r) /\ ((exists r, read_line (x ++ e) = Ok r) \/ read_line (x ++ e) = Throw).
Proof.
  intros L N Ne. destruct x as [|c x].
  - destruct L as [->| ->]; [contradiction|]. cbn. split; [|left; eexists; reflexivity]. intros r. split.
    + intros R. injection R as <-. constructor.
    + intros S. remember (@nil ascii) as z eqn:Ez. destruct S as [|y P|from tos P F T Fs]; [reflexivity|discriminate Ez|]. destruct from; [congruence|discriminate Ez].
  - assert (Nc : Ascii.eqb c NL = false).
    { destruct (Ascii.eqb c NL) eqn:E; [|reflexivity]. apply eqb_iff in E. exfalso. apply N. left. exact E. }
    unfold read_line. rewrite (at_tab_app (c :: x) e (end_no_tab e L)). cbn [app]. rewrite Nc.
    destruct (at_tab (c :: x)) as [[from y]|] eqn:E.
    + apply at_tab_some in E. destruct E as [E Nf]. destruct from as [|d from].
      * cbn [app] in E. injection E as -> ->. split; [|right; reflexivity]. intros r. split; [discriminate|].
        intros S. remember (TAB :: y) as z eqn:Ez. destruct S as [|v P|from tos P F T Fs]; [discriminate Ez|discriminate Ez|]. destruct from as [|d from]; [congruence|]. cbn in Ez. injection Ez as Ez _.
        exfalso. apply (proj1 P). left. exact Ez.
      * assert (Ny : ~ In NL y) by (intros K; apply N; rewrite E; apply in_or_app; right; right; exact K).
        destruct (fields_spec (d :: from) e L (length (y ++ e)) y) as [F1 F2]; [rewrite app_length; lia|exact Ny|].
        split; [|exact F2]. intros r. rewrite F1. split.
        -- intros (t & tos & -> & Ft & Fs & ->). rewrite E.
           change ((d :: from) ++ TAB :: t ++ tabbed tos) with ((d :: from) ++ tabbed (t :: tos)).
           apply ls_fields; [|discriminate|discriminate|constructor; assumption].
           split; [exact Nf|]. intros K. apply N. rewrite E. apply in_or_app. left. exact K.
        -- intros S. remember (c :: x) as v eqn:Q. destruct S as [|z P|f tos P F T Fs]; [discriminate Q| |].
           ++ exfalso. rename E into Q'. rewrite Q' in Q. clear Q. rename Q' into Q. apply (proj1 P). change (B "#" ++ z) with ("#"%char :: z) in Q. change ((d :: from) ++ TAB :: y) with (d :: from ++ TAB :: y) in Q.
              injection Q as _ ->. apply in_or_app. right. left. reflexivity.
           ++ destruct tos as [|t tos]; [contradiction|]. inversion Fs; subst. exists t, tos.
              pose proof (proj2 (at_tab_some _ (d :: from) y) (conj E Nf)) as K.
              change (tabbed (t :: tos)) with (TAB :: t ++ tabbed tos) in K.
              rewrite (proj2 (at_tab_some (f ++ TAB :: t ++ tabbed tos) f (t ++ tabbed tos)) (conj eq_refl (proj1 P))) in K. symmetry in K.
              injection K as <- ->. auto.
    + apply at_tab_none in E. destruct (Ascii.eqb c "#"%char) eqn:Q.
      * apply eqb_iff in Q. subst c. split; [|left; eexists; reflexivity]. intros r. split.
        -- intros R. injection R as <-. apply (ls_comment x). split; [intros K; apply E; right; exact K|intros K; apply N; right; exact K].
        -- intros S. remember ("#"%char :: x) as v eqn:R. destruct S as [|z P|f tos P F T Fs]; [discriminate R|reflexivity|]. destruct tos as [|t tos]; [congruence|].
           exfalso. apply E. apply in_or_app. right. left. reflexivity.
      * split; [|right; reflexivity]. intros r. split; [discriminate|]. intros S. remember (c :: x) as v eqn:R. destruct S as [|z P|f tos P F T Fs]; [discriminate R| |].
        -- injection R as <- _. discriminate Q.
        -- destruct tos as [|t tos]; [congruence|]. exfalso. apply E. apply in_or_app. right. left. reflexivity.
Qed.

Lemma lines_line x : forall s cur, ~ In NL x -> lines_of (x ++ NL :: s) cur = (rev cur ++ x ++ [NL]) :: lines_of s [].
Proof.
  induction x as [|c x IH]; intros s cur N.
  - cbn. reflexivity.
  - cbn. destruct (Ascii.eqb c NL) eqn:E; [apply eqb_iff in E; exfalso; apply N; left; exact E|].
    rewrite IH by (intros K; apply N; right; exact K). cbn. rewrite <- app_assoc. reflexivity.
Qed.
Lemma lines_last x : forall cur, ~ In NL x -> lines_of x cur = match rev cur ++ x with [] => [] | l => [l] end.
Proof.
  induction x as [|c x IH]; intros cur N.
  - cbn. rewrite app_nil_r. destruct cur as [|d cur]; [reflexivity|]. cbn. destruct (rev cur); reflexivity.
  - cbn. destruct (Ascii.eqb c NL) eqn:E; [apply eqb_iff in E; exfalso; apply N; left; exact E|].
    rewrite IH by (intros K; apply N; right; exact K). cbn. rewrite <- app_assoc. cbn. destruct (rev cur); reflexivity.
Qed.
Lemma split_line s : ~ In NL s \/ exists x s', s = x ++ NL :: s' /\ ~ In NL x.
Proof.
  induction s as [|c s IH]; [left; intros []|]. destruct (ascii_dec c NL) as [->|N]; [right; exists [], s; split; [reflexivity|intros []]|].
  destruct IH as [IH|(x & s' & -> & Nx)]; [left; intros [K|K]; contradiction|].
  right. exists (c :: x), s'. split; [reflexivity|]. intros [K|K]; contradiction.
Qed.
Lemma split_unique x : forall s x' s', x ++ NL :: s = x' ++ NL :: s' -> ~ In NL x -> ~ In NL x' -> x = x' /\ s = s'.
Proof.
  induction x as [|c x IH]; intros s [|d x'] s' E N N'; cbn in E.
  - injection E as ->. auto.
  - injection E as E _. exfalso. apply N'. left. symmetry. exact E.
  - injection E as E _. exfalso. apply N. left. exact E.
  - injection E as <- E. destruct (IH s x' s' E) as [-> ->]; [intros K; apply N; right; exact K|intros K; apply N'; right; exact K|auto].
Qed.
Lemma read_tsv_spec : forall n s, length s <= n ->
  (forall r, read_tsv s = Ok r <-> file_says s r) /\ ((exists r, read_tsv s = Ok r) \/ read_tsv s = Throw).
Proof.
  induction n as [|n IH]; intros s Hn.
  - assert (s = []) by (destruct s; [reflexivity|cbn in Hn; lia]). subst s. cbn. split; [|left; eexists; reflexivity]. intros r. split.
    + intros R. injection R as <-. constructor.
    + intros F. inversion F as [|x l K|x l s l' N L F' E]; subst; [reflexivity|contradiction|]. destruct x; discriminate E.
  - destruct (split_line s) as [N|(x & s' & -> & N)].
    + unfold read_tsv. rewrite (lines_last s [] N). cbn [rev app]. destruct s as [|c s].
      * cbn. split; [|left; eexists; reflexivity]. intros r. split.
        -- intros R. injection R as <-. constructor.
        -- intros F. inversion F as [|x l K|x l s l' N' L F' E]; subst; [reflexivity|contradiction|]. destruct x; discriminate E.
      * destruct (read_line_spec (c :: s) [] (or_introl eq_refl) N) as [L1 L2]; [discriminate|]. rewrite app_nil_r in L1, L2.
        remember (c :: s) as x eqn:Ex. cbn [read_lines]. split.
        -- intros r. split.
           ++ intros R. destruct (read_line x) as [l| | |] eqn:Q; try discriminate R. cbn in R. injection R as <-. rewrite app_nil_r.
              apply fs_last; [subst x; discriminate|exact N|]. apply L1. reflexivity.
           ++ intros F. inversion F as [E1 E2|y l K N' L E1 E2|y l s0 l' N' L F' E1 E2].
              ** rewrite Ex in E1. discriminate E1.
              ** apply L1 in L. rewrite L. cbn. rewrite app_nil_r. reflexivity.
              ** exfalso. apply N. rewrite <- E1. apply in_or_app. right. left. reflexivity.
        -- destruct L2 as [[l ->]| ->]; [left; eexists; reflexivity|right; reflexivity].
    + unfold read_tsv. rewrite (lines_line x s' [] N). cbn [rev app read_lines].
      destruct (read_line_spec x [NL] (or_intror eq_refl) N) as [L1 L2]; [destruct x; discriminate|].
      destruct (IH s') as [I1 I2]; [rewrite app_length in Hn; cbn in Hn; lia|]. unfold read_tsv in I1, I2. split.
      * intros r. split.
        -- intros R. destruct (read_line (x ++ [NL])) as [l| | |] eqn:Q; try discriminate R. cbn in R.
           destruct (read_lines (lines_of s' [])) as [l'| | |] eqn:Q2; try discriminate R. cbn in R. injection R as <-.
           apply fs_line; [exact N|apply L1; reflexivity|apply I1; reflexivity].
        -- intros F. inversion F as [E1 E2|y l K N' L E1 E2|y l s0 l' N' L F' E1 E2].
           ++ destruct x; discriminate E1.
           ++ exfalso. apply N'. apply in_or_app. right. left. reflexivity.
           ++ destruct (split_unique _ _ _ _ E1 N' N) as [-> ->]. apply L1 in L. rewrite L. cbn. apply I1 in F'. rewrite F'. reflexivity.
      * destruct L2 as [[l ->]| ->]; [|right; reflexivity]. cbn. destruct I2 as [[l' ->]| ->]; [left; eexists; reflexivity|right; reflexivity].
Qed.
