(** Negation, input projection, priority union and lenient composition. *)
From Verif Require Import Base Flags_Model BT_Model BT_Spec BT_Proofs BT_Proofs2 BT_Proofs3 BT_Proofs4 BT_Proofs5 BT_Props Harm_Model Harm_Spec Harm_Proofs Harm_Props Co_Spec Co_Model Co_Proofs Co_Proofs2 Co_Proofs3 Co_Proofs4 Co_Props PU_Spec PU_Model PU_Proofs PU_Proofs2.

Lemma nth_states {A} (l : list (list A)) s : In (nth s l []) l \/ nth s l [] = [].
Proof. destruct (nth_in_or_default s l []); auto. Qed.
Lemma is_automaton_spec g : is_automaton g = true <-> automaton g.
Proof.
  unfold is_automaton, automaton. rewrite forallb_forall. split.
  - intros H s a Ha. destruct (nth_states (sts g) s) as [K|K]; [|rewrite K in Ha; destruct Ha]. specialize (H _ K). rewrite forallb_forall in H. apply H in Ha.
    apply andb_true_iff in Ha. destruct Ha as [E N]. apply bstr_eqb_eq in E. apply negb_true_iff in N. split; [exact E|]. intros X. apply bstr_eqb_neq in N. auto.
  - intros H l Hl. apply forallb_forall. intros a Ha. apply (In_nth _ _ []) in Hl. destruct Hl as (s & _ & <-). destruct (H s a Ha) as [E N].
    apply andb_true_iff. split; [apply bstr_eqb_eq, E|]. apply negb_true_iff, bstr_eqb_neq, N.
Qed.

(** Automata relate strings to themselves. *)
Definition twice (x : list bstr) : list (bstr * bstr) := map (fun a => (a, a)) x.
Lemma twice_fst x : map fst (twice x) = x. Proof. unfold twice. rewrite map_map. apply map_id. Qed.
Lemma twice_snd x : map snd (twice x) = x. Proof. unfold twice. rewrite map_map. apply map_id. Qed.
Lemma automaton_pairs g l w : automaton g -> identities_paired g -> pair_string g l w -> exists x, l = twice x /\ no_epsilons x = x.
Proof.
  intros A P H. apply pair_string_labels in H; [|exact P]. destruct H as (k & (c & Ac & ->) & F).
  assert (Q : forall p, In p (without_empty c) -> paired p /\ p <> EE /\ fst p = snd p /\ fst p <> UNK).
  { intros p Hp. apply we_In in Hp. destruct Hp as [Hp NE]. destruct (path_labels g c w Ac p Hp) as (s & a & Ha & ->). destruct (A s a Ha). split; [exact (P s a Ha)|auto]. }
  clear Ac. revert Q F. generalize (without_empty c) as k. intros k Q F. induction F as [|[a b] [ca cb] k l M F IH]; [exists []; auto|].
  destruct IH as (x & -> & E); [intros p Hp; apply Q; right; exact Hp|]. destruct (Q (a, b) (or_introl eq_refl)) as (Pp & NE & E1 & U). cbn [fst snd] in *. subst b.
  apply means_iff in M; [|exact Pp]. assert (K : ca = cb /\ ca <> EPS).
  { destruct M as [(-> & _ & -> & O)|(_ & _ & [[K _]|(_ & _ & ->)] & [[K' _]|(_ & _ & ->)] & _)]; try congruence.
    - split; [reflexivity|]. apply (outside_ne _ _ O).
    - split; [reflexivity|]. intros ->. apply NE. reflexivity. }
  destruct K as [-> K]. exists (cb :: x). split; [reflexivity|]. rewrite ne_keep by exact K. congruence.
Qed.
Lemma automaton_related g x y w : automaton g -> identities_paired g -> related g x y w <-> x = y /\ pair_string g (twice x) w.
Proof.
  intros A P. rewrite related_pairs. split.
  - intros (l & H & -> & ->). destruct (automaton_pairs g l w A P H) as (x & -> & E). rewrite twice_fst, twice_snd, E. auto.
  - intros [<- H]. destruct (automaton_pairs g _ w A P H) as (x' & E & E'). assert (x = x') as <- by (rewrite <- (twice_fst x), E; apply twice_fst).
    exists (twice x). rewrite twice_fst, twice_snd, E'. auto.
Qed.

(** * Negation *)
Lemma reserved_internal x : special x -> internal_symbol x.
Proof. intros [->|[->| ->]]; [exists (B "EPSILON_SYMBOL")|exists (B "UNKNOWN_SYMBOL")|exists (B "IDENTITY_SYMBOL")]; reflexivity. Qed.
Lemma flag_not_special x : is_diacritic x = true -> ~ special x.
Proof. intros D [->|[->| ->]]; discriminate D. Qed.
Lemma idstar_sound g s : sound g -> idstar g s -> sound s /\ automaton s.
Proof.
  intros (_ & _ & N) ((ST & L & _) & A). assert (Q : forall t a, In a (nth t (sts s) []) -> isy a = osy a /\ (isy a = EPS \/ isy a = IDN \/ In (isy a) (flags_of g))).
  { intros t a Ha. destruct (L t a Ha) as [[-> ->]|[E|E]]; [auto|injection E as <- <-; auto|]. apply in_map_iff in E. destruct E as (x & E & Hx). injection E as <- <-. auto. }
  assert (NU : ~ In UNK (flags_of g)) by (intros K; apply filter_In in K; destruct K as [_ K]; discriminate K).
  split.
  - split; [split; [exact ST|split]|split; [|split]].
    + intros t a Ha. destruct (Q t a Ha) as [<- K]. fold EPS UNK IDN in A. rewrite A. tauto.
    + unfold specials_ok. rewrite !A. split; [left; reflexivity|]. split; [right; left; reflexivity|right; right; left; reflexivity].
    + intros t a Ha. destruct (Q t a Ha) as [<- K]. tauto.
    + rewrite A. intros [K|[K|[K|K]]]; try discriminate. apply filter_In in K. apply (proj1 N), K.
    + intros t a Ha. destruct (Q t a Ha) as [<- K]. assert (isy a <> []); [|auto]. intros E. rewrite E in K. destruct K as [K|[K|K]]; try discriminate.
      apply filter_In in K. apply (proj1 N), K.
  - intros t a Ha. destruct (Q t a Ha) as [<- K]. split; [reflexivity|]. intros E. change (B "@_UNKNOWN_SYMBOL_@") with UNK in E. rewrite E in K. destruct K as [K|[K|K]]; try discriminate. tauto.
Qed.
Lemma idstar_strings g s t : sound g -> idstar g s -> knowing_internal_symbols_of g s t ->
  forall x w, pair_string t (twice x) w <-> w = 0%Z /\ Forall (negated_over g) x.
Proof.
  intros Sg I K x w. destruct (idstar_sound g s Sg I) as ((_ & Ps & _) & _). destruct I as ((_ & L & S) & A). destruct K as (K1 & K2 & K3).
  assert (Pt : identities_paired t) by (intros q a Ha; rewrite K1 in Ha; exact (Ps q a Ha)).
  assert (St : forall k, label_string t k w <-> Forall (fun p => In p ((IDN, IDN) :: map (fun y => (y, y)) (flags_of g))) k /\ w = 0%Z).
  { intros k. rewrite <- S. split; intros (c & Ac & ->); exists c; (split; [|reflexivity]); eapply accepts_same; try exact Ac; congruence. }
  rewrite pair_string_labels by exact Pt.
  assert (O : forall y, outside (alpha t) y <-> ordinary y /\ ~ (internal_symbol y /\ In y (alpha g))).
  { intros y. unfold outside. rewrite K3, A. split; intros [Oy H]; (split; [exact Oy|]); destruct Oy as (Sy & Dy & _); intros H'.
    - apply H. right. exact H'.
    - destruct H' as [[->|[->|[->|H']]]|H']; [apply Sy; left; reflexivity|apply Sy; right; left; reflexivity|apply Sy; right; right; reflexivity| |tauto].
      apply filter_In in H'. destruct H' as [_ H']. congruence. }
  split.
  - intros (k & Lk & F). apply St in Lk. destruct Lk as [Lk ->]. split; [reflexivity|]. revert k Lk F. induction x as [|y x IH]; intros k Lk F; [constructor|].
    cbn [twice map] in F. inversion F as [|p ? k' ? M F']; subst. inversion Lk as [|? ? Hp Lk']; subst. constructor; [|exact (IH _ Lk' F')].
    destruct Hp as [<-|Hp].
    + inversion M as [z Oz| | | |i o N1 N2 N3]; subst; [left; apply O; assumption|]. exfalso. apply N3. auto.
    + apply in_map_iff in Hp. destruct Hp as (f & <- & Hf). right. apply filter_In in Hf. destruct Hf as [If Df].
      inversion M; subst; first [discriminate Df|split; assumption].
  - intros [-> F]. assert (Q : exists k, Forall (fun p => In p ((IDN, IDN) :: map (fun y => (y, y)) (flags_of g))) k /\ Forall2 (means (alpha t)) k (twice x)).
    { induction F as [|y x Hy F IH]; [exists []; split; constructor|]. destruct IH as (k & H1 & H2). destruct Hy as [Hy|[Dy Iy]].
      - exists ((IDN, IDN) :: k). split; [constructor; [left; reflexivity|exact H1]|]. constructor; [|exact H2]. apply means_identity, O, Hy.
      - exists ((y, y) :: k). split; [constructor; [right; apply in_map_iff; exists y; split; [reflexivity|apply filter_In; auto]|exact H1]|].
        constructor; [|exact H2]. apply means_itself; [intros ->; discriminate Dy|intros ->; discriminate Dy|intros [-> _]; discriminate Dy]. }
    destruct Q as (k & H1 & H2). exists k. split; [apply St; auto|exact H2].
Qed.
Lemma self_knows o g : (forall x, internal_symbol x -> In x (alpha o) -> In x (alpha g)) -> knowing_internal_symbols_of o g g.
Proof. intros H. split; [reflexivity|]. split; [reflexivity|]. intros x. split; [auto|]. intros [K|[K1 K2]]; auto. Qed.
Lemma negate_result g r : sound g -> negate g r ->
  (automaton g -> exists h, r = Ok h /\ sound h /\ automaton h /\ (forall x, In x (alpha h) <-> In x (alpha g)) /\
     forall x y w, related h x y w <-> x = y /\ w = 0%Z /\ Forall (negated_over g) x /\ ~ exists v, related g x x v)
  /\ (~ automaton g -> r = Throw).
Proof.
  intros Sg R. unfold negate in R. destruct (is_automaton g) eqn:Au.
  - apply is_automaton_spec in Au. split; [|tauto]. intros _. destruct R as (s & I & R). destruct (idstar_sound g s Sg I) as [Ss As].
    pose proof (inserted_knows s g) as Ks. assert (SPg : forall y, special y -> In y (alpha g)).
    { destruct Sg as ((_ & _ & S1 & S2 & S3) & _). intros y [->|[->| ->]]; assumption. }
    assert (Is : forall y, In y (alpha s) -> In y (alpha g)).
    { intros y Hy. apply (proj2 I) in Hy. destruct Hy as [->|[->|[->|Hy]]]; [apply SPg; left; reflexivity|apply SPg; right; left; reflexivity|apply SPg; right; right; reflexivity|].
      apply filter_In in Hy. apply Hy. }
    assert (Kg : knowing_internal_symbols_of s g g) by (apply self_knows; auto).
    destruct (subtract_result s g _ g Ss Sg Ks Kg r R) as (h & -> & Sh & Ah & Auh & H1 & H2). exists h. split; [reflexivity|]. split; [exact Sh|]. split; [apply Auh, As|].
    split; [intros y; rewrite Ah; split; [intros [K|K]; auto|auto]|].
    pose proof (idstar_strings g s _ Sg I Ks) as E. intros x y w. rewrite (automaton_related h); [|apply Auh, As|apply Sh].
    assert (Eg : (exists v, related g x x v) <-> exists v, pair_string g (twice x) v).
    { split; intros (v & H); exists v; [apply automaton_related in H; [apply H|exact Au|apply Sg]|]. apply automaton_related; [exact Au|apply Sg|]. auto. }
    rewrite Eg. split.
    + intros [<- H]. destruct (H1 _ _ H) as [Ht N]. apply E in Ht. tauto.
    + intros (<- & -> & F & N). split; [reflexivity|]. assert (Ht : pair_string (insert_missing_special_symbols s g) (twice x) 0) by (apply E; auto).
      destruct (H2 _ _ Ht N) as (w' & Hm & L). destruct (H1 _ _ Hm) as [Ht' _]. apply E in Ht'. destruct Ht' as [-> _]. exact Hm.
  - subst r. split; [|reflexivity]. intros A. apply is_automaton_spec in A. congruence.
Qed.

(** * Input projection *)
Definition inp (p : bstr * bstr) : bstr * bstr := let x := if bstr_eqb (fst p) UNK then IDN else fst p in (x, x).
Lemma nth_project g s : nth s (sts (input_project g)) [] = map input_arc (nth s (sts g) []).
Proof. cbn [input_project with_sts sts]. change (@nil arc) with (map input_arc []) at 1. apply map_nth. Qed.
Lemma project_run g s l w t : run (input_project g) s l w t <-> exists k, run g s k w t /\ l = map inp k.
Proof.
  split.
  - intros R. induction R as [s|s a l w t Ha R IH]; [exists []; split; [constructor|reflexivity]|]. destruct IH as (k & Rk & ->).
    rewrite nth_project in Ha. apply in_map_iff in Ha. destruct Ha as (b & <- & Hb). cbn [input_arc tgt] in Rk. exists ((isy b, osy b) :: k).
    split; [exact (run_cons g s b k w t Hb Rk)|reflexivity].
  - intros (k & R & ->). induction R as [s|s a k w t Ha R IH]; [constructor|]. cbn [map].
    apply (run_cons (input_project g) s (input_arc a)); [|exact IH]. rewrite nth_project. apply in_map, Ha.
Qed.
Lemma project_accepts g l w : accepts (input_project g) l w <-> exists k, accepts g k w /\ l = map inp k.
Proof.
  split.
  - intros (t & v & f & R & F & E). apply project_run in R. destruct R as (k & R & ->). exists k. split; [exists t, v, f; auto|reflexivity].
  - intros (k & (t & v & f & R & F & E) & ->). exists t, v, f. split; [apply project_run; eauto|auto].
Qed.
Lemma project_sound g : sound g -> sound (input_project g) /\ automaton (input_project g).
Proof.
  intros ((ST & Y & SP) & P & N). assert (Q : forall s a, In a (nth s (sts (input_project g)) []) -> exists b, In b (nth s (sts g) []) /\ a = input_arc b).
  { intros s a Ha. rewrite nth_project in Ha. apply in_map_iff in Ha. destruct Ha as (b & <- & Hb). eauto. }
  split; [split; [split; [|split; [|exact SP]]|split; [|split; [apply N|]]]|].
  - apply structure_sts; [exact ST|apply map_length|]. intros s a Ha. destruct (Q s a Ha) as (b & Hb & ->). exists b. auto.
  - intros s a Ha. destruct (Q s a Ha) as (b & Hb & ->). unfold input_arc. cbn [isy osy input_project with_sts alpha].
    destruct (bstr_eqb (isy b) UNK); [split; apply SP|split; apply (Y s b Hb)].
  - intros s a Ha. destruct (Q s a Ha) as (b & Hb & ->). unfold input_arc. cbn [isy osy]. tauto.
  - intros s a Ha. destruct (Q s a Ha) as (b & Hb & ->). unfold input_arc. cbn [isy osy]. destruct (bstr_eqb (isy b) UNK); [split; discriminate|].
    split; apply (proj2 N s b Hb).
  - intros s a Ha. destruct (Q s a Ha) as (b & Hb & ->). unfold input_arc. cbn [isy osy]. split; [reflexivity|].
    destruct (bstr_eqb (isy b) UNK) eqn:E; [discriminate|]. apply bstr_eqb_neq, E.
Qed.
Lemma project_means al k l : Forall paired k -> Forall2 (means al) k l -> Forall2 (means al) (map inp k) (twice (map fst l)).
Proof.
  intros P F. induction F as [|[a b] [ca cb] k l M F IH]; [constructor|]. inversion P as [|? ? Pp P']; subst. constructor; [|exact (IH P')].
  cbn [fst]. unfold inp. cbn [fst]. apply means_iff in M; [|exact Pp]. destruct M as [(-> & -> & -> & O)|(Na & Nb & Ma & Mb & N)].
  - apply means_identity, O.
  - destruct Ma as [[-> O]|(U & I & ->)]; [apply means_identity, O|]. destruct (bstr_eqb a UNK) eqn:E; [apply bstr_eqb_eq in E; congruence|].
    apply means_itself; [exact U|exact U|]. intros [K _]. apply I. exact K.
Qed.
Lemma project_back al k c : Forall paired k -> Forall2 (means al) (map inp k) c -> exists l, Forall2 (means al) k l /\ c = twice (map fst l).
Proof.
  revert c. induction k as [|[a b] k IH]; intros c P F; [inversion F; subst; exists []; split; [constructor|reflexivity]|]. inversion P as [|? ? Pp P']; subst.
  inversion F as [|? [ca cb] ? c' M F']; subst. destruct (IH c' P' F') as (l & Fl & ->). unfold inp in M. cbn [fst] in M.
  assert (Q : ca = cb /\ exists d, means al (a, b) (ca, d)).
  { destruct (bstr_eqb a UNK) eqn:E.
    - apply bstr_eqb_eq in E. subst a. apply means_iff in M; [|unfold paired; cbn; tauto]. destruct M as [(_ & _ & -> & O)|(K & _)]; [|congruence]. split; [reflexivity|].
      assert (Nb : b <> IDN) by (intros ->; unfold paired in Pp; cbn [fst snd] in Pp; destruct Pp as [_ Pp]; specialize (Pp eq_refl); discriminate).
      destruct (bstr_eq_dec b UNK) as [->|Ub].
      + destruct (fresh al cb cb) as (y & Oy & Ny & _). exists y. apply means_unknowns; auto.
      + exists b. apply means_unknown_in; assumption.
    - apply bstr_eqb_neq in E. apply means_iff in M; [|unfold paired; cbn; tauto]. destruct M as [(-> & _ & -> & O)|(Na & _ & [[K _]|(_ & _ & ->)] & [[K' _]|(_ & _ & ->)] & _)]; try congruence.
      + split; [reflexivity|]. assert (b = IDN) as -> by (apply Pp; reflexivity). exists cb. apply means_identity, O.
      + split; [reflexivity|]. assert (Nb : b <> IDN) by (intros X; apply Na, Pp; exact X). destruct (bstr_eq_dec b UNK) as [->|Ub].
        * destruct (fresh al a a) as (y & Oy & _). exists y. apply means_unknown_out; assumption.
        * exists b. apply means_itself; [assumption|assumption|]. intros [K _]. apply Na, K. }
  destruct Q as [<- (d & Md)]. exists ((ca, d) :: l). split; [constructor; assumption|reflexivity].
Qed.
Lemma twice_ne x : without_empty (twice x) = twice (no_epsilons x).
Proof.
  induction x as [|a x IH]; [reflexivity|]. cbn [twice map]. rewrite ne_cons. destruct (neps a) eqn:E.
  - rewrite we_keep; [unfold twice in *; cbn [map]; f_equal; exact IH|]. apply neps_t in E. congruence.
  - apply neps_f in E. subst a. rewrite we_empty. exact IH.
Qed.
Lemma project_strings g x w : sound g -> pair_string (input_project g) (twice x) w <-> exists z, related g x z w.
Proof.
  intros Sg. pose proof Sg as (_ & P & _). split.
  - intros (c & (m & A & F) & E). apply project_accepts in A. destruct A as (k & A & ->). cbn [input_project with_sts alpha] in F.
    destruct (project_back _ _ _ (path_paired g k w P A) F) as (l & Fl & ->). rewrite twice_ne in E. apply (f_equal (map fst)) in E. rewrite !twice_fst in E.
    exists (no_epsilons (map snd l)), l. split; [exists k; auto|auto].
  - intros (z & l & (m & A & F) & -> & _). exists (twice (map fst l)). split; [|symmetry; apply twice_ne]. exists (map inp m).
    split; [apply project_accepts; eauto|]. apply project_means; [exact (path_paired g m w P A)|exact F].
Qed.
