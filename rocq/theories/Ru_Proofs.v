(** Proofs about the rule functions. *)
From Coq Require Import Lia.
From Verif Require Import Base BT_Model Ru_Model Ru_Spec.

Notation EE := (EPS, EPS).
Notation keep := (fun q : pair => negb (pair_eqb q EE)).
Lemma pair_eqb_eq (p q : pair) : pair_eqb p q = true <-> p = q.
Proof.
  unfold pair_eqb. rewrite andb_true_iff, !bstr_eqb_eq. destruct p, q; simpl. split; [intros [-> ->]; reflexivity|intros E; injection E as -> ->; auto].
Qed.
Definition pair_eq_dec (p q : pair) : {p = q} + {p <> q}.
Proof. decide equality; apply bstr_eq_dec. Defined.
Lemma filter_out_id (x : pair) w : ~ In x w -> filter (fun q => negb (pair_eqb q x)) w = w.
Proof.
  induction w as [|p w IH]; intros N; [reflexivity|]. cbn [filter].
  destruct (pair_eqb p x) eqn:E; [apply pair_eqb_eq in E; exfalso; apply N; left; exact E|]. cbn [negb].
  f_equal. apply IH. intros H. apply N. right. exact H.
Qed.
Lemma l_any_over al w : ~ In EE al -> (l_any al w <-> over al w).
Proof.
  intros N. unfold l_any, over. split.
  - intros (v & F & ->) p H. apply filter_In in H. destruct H as (H & _). rewrite Forall_forall in F. auto.
  - intros H. exists w. split; [apply Forall_forall; exact H|]. symmetry. apply filter_out_id. intros K. apply N. auto.
Qed.
Lemma l_one_In ps w : ~ In EE ps -> (l_one ps w <-> exists p, In p ps /\ w = [p]).
Proof.
  intros N. unfold l_one. split; intros (p & Hp & ->); exists p; (split; [exact Hp|]).
  - apply (filter_out_id EE [p]). intros [->|[]]. exact (N Hp).
  - symmetry. apply (filter_out_id EE [p]). intros [->|[]]. exact (N Hp).
Qed.
Lemma over_app al u v : over al (u ++ v) <-> over al u /\ over al v.
Proof. unfold over. split; [intros H; split; intros p Hp; apply H; apply in_app_iff; auto|]. intros (H1 & H2) p Hp. apply in_app_iff in Hp. destruct Hp; auto. Qed.
Lemma decided_splits (P : list pair -> list pair -> Prop) : (forall u v, P u v \/ ~ P u v) ->
  forall w, (exists u v, w = u ++ v /\ P u v) \/ ~ (exists u v, w = u ++ v /\ P u v).
Proof.
  intros D w.
  assert (G : forall b a, (exists u v, b = u ++ v /\ P (a ++ u) v) \/ ~ (exists u v, b = u ++ v /\ P (a ++ u) v)).
  { induction b as [|x b IH]; intros a.
    - destruct (D a []) as [H|H]; [left; exists [], []; split; [reflexivity|rewrite app_nil_r; exact H]|]. right. intros (u & v & E & K).
      symmetry in E. apply app_eq_nil in E. destruct E as (-> & ->). rewrite app_nil_r in K. auto.
    - destruct (D a (x :: b)) as [H|H]; [left; exists [], (x :: b); split; [reflexivity|rewrite app_nil_r; exact H]|].
      destruct (IH (a ++ [x])) as [(u & v & -> & K)|N].
      + left. exists (x :: u), v. split; [reflexivity|]. rewrite <- app_assoc in K. exact K.
      + right. intros (u & v & E & K). destruct u as [|y u].
        * cbn [app] in E. subst v. rewrite app_nil_r in K. auto.
        * cbn [app] in E. injection E as <- ->. apply N. exists u, v. split; [reflexivity|]. rewrite <- app_assoc. exact K. }
  destruct (G w []) as [H|H]; [left; exact H|right; exact H].
Qed.
Lemma decided_ends l : decided l -> forall x, ends_in l x \/ ~ ends_in l x.
Proof. intros D x. apply (decided_splits (fun u v => l v)). auto. Qed.
Lemma decided_starts l : decided l -> forall x, starts_with l x \/ ~ starts_with l x.
Proof. intros D x. apply (decided_splits (fun u v => l u)). auto. Qed.

(** * Two-level rules *)
Lemma two_level_if_iff l r mappings al w : ~ In EE al -> ~ In EE mappings ->
  (two_level_if (l, r) mappings al w <-> over al w /\ obligatory l r mappings w).
Proof.
  intros Na Nm. unfold two_level_if. cbn [fst snd].
  set (ita := flat_map (fun m => filter (fun p => bstr_eqb (fst p) (fst m)) al) mappings).
  assert (Hi : forall p, In p ita <-> In p al /\ exists o, In (fst p, o) mappings).
  { intros p. unfold ita. rewrite in_flat_map. split.
    - intros (m & Hm & Hp). apply filter_In in Hp. destruct Hp as (Hp & E). apply bstr_eqb_eq in E. split; [exact Hp|].
      exists (snd m). rewrite E. destruct m; exact Hm.
    - intros (Hp & o & Ho). exists (fst p, o). split; [exact Ho|]. apply filter_In. split; [exact Hp|]. apply bstr_eqb_eq. reflexivity. }
  assert (Ni : ~ In EE ita) by (intros H; apply Hi in H; apply Na; apply H).
  unfold l_sub at 1. rewrite l_any_over by exact Na. split.
  - intros (O & N). split; [exact O|]. intros x i o y -> (u & v & -> & Hv) (s & t & -> & Hs) (o' & Ho').
    destruct (in_dec pair_eq_dec (i, o) mappings) as [H|H]; [exact H|exfalso].
    apply over_app in O. destruct O as (O1 & O2). apply over_app in O1. destruct O1 as (O0 & O1).
    assert (Op : In (i, o) al) by (apply O2; left; reflexivity).
    assert (O3 : over al t) by (intros p Hp; apply O2; right; apply in_app_iff; auto).
    apply N. exists ((u ++ v) ++ [(i, o)]), (s ++ t). split; [rewrite <- !app_assoc; reflexivity|]. split.
    + exists (u ++ v), [(i, o)]. split; [reflexivity|]. split.
      * exists u, v. split; [reflexivity|]. split; [apply l_any_over; assumption|exact Hv].
      * split.
        -- apply l_one_In; [exact Ni|]. exists (i, o). split; [|reflexivity]. apply Hi. split; [exact Op|]. exists o'. exact Ho'.
        -- split; [apply l_any_over; [exact Na|]; intros p [<-|[]]; exact Op|].
           rewrite l_one_In by exact Nm. intros (p & Hp & E). apply H. assert (E' : (i, o) = p) by congruence. rewrite E'. exact Hp.
    + exists s, t. split; [reflexivity|]. split; [exact Hs|]. apply l_any_over; assumption.
  - intros (O & Ob). split; [exact O|]. intros (a & b & -> & (u & c & -> & (x & v & -> & Hx & Hv) & (Hc & Hc' & Hcn)) & (s & t & -> & Hs & Ht)).
    apply l_one_In in Hc; [|exact Ni]. destruct Hc as ([i o] & Hp & ->). apply Hcn. apply l_one_In; [exact Nm|].
    exists (i, o). split; [|reflexivity]. apply Hi in Hp. destruct Hp as (_ & o' & Ho'). cbn [fst] in Ho'.
    apply (Ob (x ++ v) i o (s ++ t)).
    + rewrite <- !app_assoc. reflexivity.
    + exists x, v. auto.
    + exists s, t. auto.
    + exists o'. exact Ho'.
Qed.
Lemma two_level_only_if_iff l r mappings al w : ~ In EE al -> ~ In EE mappings -> decided l -> decided r ->
  (two_level_only_if (l, r) mappings al w <-> over al w /\ only_there l r mappings w).
Proof.
  intros Na Nm Dl Dr. unfold two_level_only_if. cbn [fst snd]. unfold l_sub at 1. rewrite l_any_over by exact Na. split.
  - intros (O & N). split; [exact O|]. intros x p y -> Hp.
    apply over_app in O. destruct O as (O1 & O2).
    assert (Oy : over al y) by (intros q Hq; apply O2; right; exact Hq).
    split.
    + destruct (decided_ends l Dl x) as [H|H]; [exact H|exfalso]. apply N. left.
      exists (x ++ [p]), y. split; [rewrite <- app_assoc; reflexivity|]. split; [|apply l_any_over; assumption].
      exists x, [p]. split; [reflexivity|]. split; [|apply l_one_In; [exact Nm|]; exists p; auto].
      split; [apply l_any_over; assumption|]. intros (u & v & -> & _ & Hv). apply H. exists u, v. auto.
    + destruct (decided_starts r Dr y) as [H|H]; [exact H|exfalso]. apply N. right.
      exists (x ++ [p]), y. split; [rewrite <- app_assoc; reflexivity|]. split.
      * exists x, [p]. split; [reflexivity|]. split; [apply l_any_over; assumption|apply l_one_In; [exact Nm|]; exists p; auto].
      * split; [apply l_any_over; assumption|]. intros (u & v & -> & Hu & _). apply H. exists u, v. auto.
  - intros (O & T). split; [exact O|]. intros [(a & y & -> & (x & c & -> & Hx & Hc) & Hy)|(a & y & -> & (x & c & -> & Hx & Hc) & Hy)].
    + apply l_one_In in Hc; [|exact Nm]. destruct Hc as (p & Hp & ->). rewrite <- app_assoc in T.
      destruct (T x p y eq_refl Hp) as ((u & v & -> & Hv) & _). destruct Hx as (Hx & Hn). apply Hn.
      exists u, v. split; [reflexivity|]. split; [|exact Hv]. apply l_any_over; [exact Na|]. apply l_any_over in Hx; [|exact Na].
      apply over_app in Hx. apply Hx.
    + apply l_one_In in Hc; [|exact Nm]. destruct Hc as (p & Hp & ->). rewrite <- app_assoc in T.
      destruct (T x p y eq_refl Hp) as (_ & (u & v & -> & Hv)). destruct Hy as (Hy & Hn). apply Hn.
      exists u, v. split; [reflexivity|]. split; [exact Hv|]. apply l_any_over; [exact Na|]. apply l_any_over in Hy; [|exact Na].
      apply over_app in Hy. apply Hy.
Qed.

Ltac asc := repeat first [rewrite <- app_assoc | progress (cbn [app])]; reflexivity.

(** * Restriction and coercion *)
Notation MM := (MARK, MARK).
Lemma MM_EE : MM <> EE.
Proof. discriminate. Qed.
Lemma l_symbol_mark w : l_symbol MARK w <-> w = [MM].
Proof.
  unfold l_symbol. rewrite l_one_In; [|intros [E|[]]; exact (MM_EE E)]. split; [intros (p & [<-|[]] & ->); reflexivity|].
  intros ->. exists MM. split; [left; reflexivity|reflexivity].
Qed.
(** A string with two markers. *)
Definition marked (x m y : list pair) : list pair := x ++ MM :: m ++ MM :: y.
Lemma split_at_mark (x y x' y' : list pair) : ~ In MM x -> ~ In MM x' -> x ++ MM :: y = x' ++ MM :: y' -> x = x' /\ y = y'.
Proof.
  revert x'; induction x as [|a x IH]; intros [|b x'] N N' E.
  - cbn [app] in E. injection E as ->. auto.
  - cbn [app] in E. injection E as <- _. exfalso. apply N'. left. reflexivity.
  - cbn [app] in E. injection E as -> _. exfalso. apply N. left. reflexivity.
  - cbn [app] in E. injection E as -> E. destruct (IH x') as (-> & ->); auto.
    + intros H. apply N. right. exact H.
    + intros H. apply N'. right. exact H.
Qed.
Lemma marked_inj x m y x' m' y' : ~ In MM x -> ~ In MM m -> ~ In MM x' -> ~ In MM m' ->
  marked x m y = marked x' m' y' -> x = x' /\ m = m' /\ y = y'.
Proof.
  intros N1 N2 N3 N4 E. apply split_at_mark in E; [|assumption|assumption]. destruct E as (-> & E).
  apply split_at_mark in E; [|assumption|assumption]. destruct E as (-> & ->). auto.
Qed.
Lemma erase_marked x m y : ~ In MM x -> ~ In MM m -> ~ In MM y ->
  filter (fun q => negb (pair_eqb q MM)) (marked x m y) = x ++ m ++ y.
Proof.
  intros N1 N2 N3. unfold marked. rewrite filter_app. cbn [filter]. rewrite filter_app. cbn [filter].
  rewrite (proj2 (pair_eqb_eq MM MM) eq_refl). cbn [negb]. rewrite !filter_out_id by assumption. reflexivity.
Qed.
Section Restriction.
  Variables (contexts : list (plang * plang)) (mapping tmp : plang) (al : list pair).
  Hypothesis Na : ~ In EE al.
  Hypothesis Ma : ~ In MM al.
  Hypothesis Mm : never MM mapping.
  Hypothesis Mt : never MM tmp.
  Hypothesis Mc : forall c, In c contexts -> never MM (fst c) /\ never MM (snd c).
  Let l1 := restriction_center mapping al.
  Let l2 := fold_left (fun acc c => l_or acc (restriction_context tmp al c)) contexts l_none.
  Lemma over_unmarked w : over al w -> ~ In MM w.
  Proof. intros O H. apply Ma. apply O. exact H. Qed.
  Lemma center_iff w : l1 w <-> exists x m y, w = marked x m y /\ over al x /\ mapping m /\ over al y.
  Proof.
    unfold l1, restriction_center. split.
    - intros (a & y & -> & (b & d & -> & (c & m & -> & (e & f & -> & (g & x & -> & G & X) & F) & M) & D) & Y).
      unfold l_eps in G. subst g. apply l_symbol_mark in F, D. subst f d. apply l_any_over in X, Y; [|exact Na|exact Na].
      exists x, m, y. split; [|auto]. unfold marked. cbn [app]. rewrite <- !app_assoc. reflexivity.
    - intros (x & m & y & -> & X & M & Y). exists (x ++ MM :: m ++ [MM]), y. split; [unfold marked; rewrite <- app_assoc; cbn [app]; rewrite <- app_assoc; reflexivity|].
      split; [|apply l_any_over; assumption]. exists (x ++ MM :: m), [MM]. split; [rewrite <- app_assoc; reflexivity|].
      split; [|apply l_symbol_mark; reflexivity]. exists (x ++ [MM]), m. split; [rewrite <- app_assoc; reflexivity|]. split; [|exact M].
      exists x, [MM]. split; [reflexivity|]. split; [|apply l_symbol_mark; reflexivity]. exists [], x. split; [reflexivity|]. split; [reflexivity|].
      apply l_any_over; assumption.
  Qed.
  Lemma context_iff c w : restriction_context tmp al c w <->
    exists u v m s t, w = marked (u ++ v) m (s ++ t) /\ over al u /\ fst c v /\ tmp m /\ snd c s /\ over al t.
  Proof.
    unfold restriction_context. split.
    - intros (a & t & -> & (b & s & -> & (d & e & -> & (f & m & -> & (g & h & -> & (i & v & -> & (j & u & -> & J & U) & V) & H) & M) & E) & S) & T).
      unfold l_eps in J. subst j. apply l_symbol_mark in H, E. subst h e. apply l_any_over in U, T; [|exact Na|exact Na].
      exists u, v, m, s, t. split; [|auto 6]. unfold marked. asc.
    - intros (u & v & m & s & t & -> & U & V & M & S & T).
      exists ((u ++ v) ++ MM :: m ++ MM :: s), t. split; [unfold marked; asc|].
      split; [|apply l_any_over; assumption]. exists ((u ++ v) ++ MM :: m ++ [MM]), s. split; [asc|].
      split; [|exact S]. exists ((u ++ v) ++ MM :: m), [MM]. split; [asc|].
      split; [|apply l_symbol_mark; reflexivity]. exists ((u ++ v) ++ [MM]), m. split; [asc|]. split; [|exact M].
      exists (u ++ v), [MM]. split; [reflexivity|]. split; [|apply l_symbol_mark; reflexivity].
      exists u, v. split; [reflexivity|]. split; [|exact V]. exists [], u. split; [reflexivity|]. split; [reflexivity|]. apply l_any_over; assumption.
  Qed.
  Lemma contexts_iff w : l2 w <-> exists c, In c contexts /\ restriction_context tmp al c w.
  Proof.
    unfold l2. enough (G : forall cs acc, fold_left (fun acc c => l_or acc (restriction_context tmp al c)) cs acc w <->
      acc w \/ exists c, In c cs /\ restriction_context tmp al c w) by (rewrite G; unfold l_none; tauto).
    induction cs as [|c cs IH]; intros acc; cbn [fold_left].
    - split; [tauto|]. intros [H|(c & [] & _)]. exact H.
    - rewrite IH. unfold l_or. split.
      + intros [[H|H]|(d & Hd & H)]; [left; exact H|right; exists c; split; [left; reflexivity|exact H]|right; exists d; split; [right; exact Hd|exact H]].
      + intros [H|(d & [->|Hd] & H)]; [left; left; exact H|left; right; exact H|right; exists d; auto].
  Qed.
  Lemma in_context_marked x m y : over al x -> over al y -> ~ In MM m ->
    (l2 (marked x m y) <-> in_context contexts x y /\ tmp m).
  Proof.
    intros Ox Oy Nm. rewrite contexts_iff. split.
    - intros (c & Hc & H). apply context_iff in H. destruct H as (u & v & m' & s & t & E & U & V & M & S & T).
      assert (Nu : ~ In MM (u ++ v)).
      { intros K. apply in_app_iff in K. destruct K as [K|K]; [exact (over_unmarked u U K)|exact (proj1 (Mc c Hc) v V K)]. }
      apply marked_inj in E; [|apply over_unmarked; exact Ox|exact Nm|exact Nu|apply Mt; exact M]. destruct E as (-> & -> & ->).
      split; [|exact M]. exists c. split; [exact Hc|]. split; [exists u, v; auto|exists s, t; auto].
    - intros ((c & Hc & (u & v & -> & V) & (s & t & -> & S)) & M). exists c. split; [exact Hc|]. apply context_iff.
      exists u, v, m, s, t. split; [reflexivity|]. apply over_app in Ox, Oy. destruct Ox, Oy. auto 6.
  Qed.
  Lemma center_marked x m y : over al x -> over al y -> ~ In MM m -> (l1 (marked x m y) <-> mapping m).
  Proof.
    intros Ox Oy Nm. rewrite center_iff. split.
    - intros (x' & m' & y' & E & X & M & Y).
      apply marked_inj in E; [|apply over_unmarked; exact Ox|exact Nm|apply over_unmarked; exact X|apply Mm; exact M].
      destruct E as (-> & -> & ->). exact M.
    - intros M. exists x, m, y. auto.
  Qed.
  Lemma right_iff w : (forall c, In c contexts -> decided (fst c) /\ decided (snd c)) -> (forall m, over al m -> mapping m -> tmp m) ->
    (l_sub (l_any al) (l_erase MARK (l_sub l1 l2)) w <-> over al w /\ restricted contexts mapping w).
  Proof.
    intros D T. unfold l_sub at 1. rewrite l_any_over by exact Na. split.
    - intros (O & N). split; [exact O|]. intros x m y -> M.
      apply over_app in O. destruct O as (Ox & O). apply over_app in O. destruct O as (Om & Oy).
      assert (Dec : in_context contexts x y \/ ~ in_context contexts x y).
      { clear -D. unfold in_context. induction contexts as [|c cs IH]; [right; intros (c & [] & _)|].
        destruct IH as [(d & Hd & H)|H]; [intros d Hd; apply D; right; exact Hd|left; exists d; split; [right; exact Hd|exact H]|].
        destruct (D c (or_introl eq_refl)) as (D1 & D2).
        destruct (decided_ends _ D1 x) as [E|E]; [destruct (decided_starts _ D2 y) as [F|F]|].
        - left. exists c. split; [left; reflexivity|]. auto.
        - right. intros (d & [->|Hd] & K); [tauto|]. apply H. exists d. auto.
        - right. intros (d & [->|Hd] & K); [tauto|]. apply H. exists d. auto. }
      destruct Dec as [H|H]; [exact H|exfalso]. apply N. exists (marked x m y). split.
      + split; [apply center_marked; auto; apply over_unmarked; exact Om|].
        rewrite in_context_marked by (auto; apply over_unmarked; exact Om). tauto.
      + symmetry. apply erase_marked; apply over_unmarked; assumption.
    - intros (O & R). split; [exact O|]. intros (v & (V1 & V2) & ->). apply center_iff in V1. destruct V1 as (x & m & y & -> & X & M & Y).
      rewrite erase_marked in O, R by (first [apply over_unmarked; assumption|exact (Mm m M)]).
      apply over_app in O. destruct O as (_ & O). apply over_app in O. destruct O as (Om & _).
      apply V2. apply (proj2 (in_context_marked x m y X Y (Mm m M))). split; [|apply T; assumption]. eapply R; [reflexivity|exact M].
  Qed.
  Lemma left_iff w : decided mapping ->
    (l_sub (l_any al) (l_erase MARK (l_sub l2 l1)) w <-> over al w /\ coerced contexts tmp mapping w).
  Proof.
    intros D. unfold l_sub at 1. rewrite l_any_over by exact Na. split.
    - intros (O & N). split; [exact O|]. intros x m y -> C M.
      apply over_app in O. destruct O as (Ox & O). apply over_app in O. destruct O as (Om & Oy).
      destruct (D m) as [H|H]; [exact H|exfalso]. apply N. exists (marked x m y). split.
      + split; [apply in_context_marked; auto; apply over_unmarked; exact Om|].
        rewrite center_marked by (auto; apply over_unmarked; exact Om). exact H.
      + symmetry. apply erase_marked; apply over_unmarked; assumption.
    - intros (O & R). split; [exact O|]. intros (v & (V1 & V2) & ->). pose proof V1 as V0. apply contexts_iff in V1. destruct V1 as (c & Hc & V1).
      apply context_iff in V1. destruct V1 as (u & v' & m & s & t & -> & U & V & M & S & T).
      assert (Nu : ~ In MM (u ++ v')).
      { intros K. apply in_app_iff in K. destruct K as [K|K]; [exact (over_unmarked u U K)|exact (proj1 (Mc c Hc) v' V K)]. }
      assert (Ns : ~ In MM (s ++ t)).
      { intros K. apply in_app_iff in K. destruct K as [K|K]; [exact (proj2 (Mc c Hc) s S K)|exact (over_unmarked t T K)]. }
      assert (Nm : ~ In MM m) by (apply Mt; exact M).
      rewrite erase_marked in O, R by assumption.
      apply over_app in O. destruct O as (Ox & O). apply over_app in O. destruct O as (Om & Oy).
      apply V2. apply center_marked; auto. eapply R; [reflexivity| |exact M].
      exists c. split; [exact Hc|]. split; [exists u, v'; auto|exists s, t; auto].
  Qed.
End Restriction.
