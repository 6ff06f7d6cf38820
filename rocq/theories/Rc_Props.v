(** Theorems about replacement in context. *)
From Coq Require Import Lia.
From Verif Require Import Base BT_Model Ru_Model Ru_Spec Ru_Proofs Ru_Proofs2 Rc_Model Rc_Spec Rc_Proofs Rc_Proofs2 Rc_Proofs3.

(** What is asked of the arguments: an alphabet of identity pairs without epsilon and markers,
    contexts without markers, a mapping without markers whose outputs are in the alphabet.
    ([\/ ~] holds of every language of a transducer and replaces the excluded middle.) *)
Definition marker_free (x : str) : Prop := ~ In (B "@_LEFT_MARKER_@") x /\ ~ In (B "@_RIGHT_MARKER_@") x.
Definition arguments_ok (l r : str -> Prop) (t : plang) (alphabet : str) : Prop :=
  ~ In EPS alphabet /\ marker_free alphabet /\ (forall x, l x -> marker_free x) /\ (forall x, r x -> marker_free x) /\
  (forall x, l x \/ ~ l x) /\ (forall x, r x \/ ~ r x) /\
  (forall m, t m -> marker_free (map fst m) /\ marker_free (map snd m)) /\
  (forall m p, t m -> In p m -> snd p = EPS \/ In (snd p) alphabet).
Lemma free_clean m : marker_free (map fst m) /\ marker_free (map snd m) -> clean m.
Proof.
  intros ((A1 & A2) & (B1 & B2)) p Hp. split.
  - destruct (is_mark (fst p)) eqn:E; [exfalso|reflexivity]. apply is_mark_iff in E. assert (H := in_map fst m p Hp). destruct E as [E|E]; rewrite E in H; auto.
  - destruct (is_mark (snd p)) eqn:E; [exfalso|reflexivity]. apply is_mark_iff in E. assert (H := in_map snd m p Hp). destruct E as [E|E]; rewrite E in H; auto.
Qed.

(** * C77 *)
(** replace_up(context, mapping, false, alphabet) relates [u] to the strings it is rewritten to. *)
Theorem C77_replace_up : forall l r t alphabet u v, arguments_ok l r t alphabet ->
  (replace_in_context (automaton l, automaton r) UP t false (map (fun a => (a, a)) alphabet) u v <->
   incl u alphabet /\ rewritten t l r [] u v).
Proof.
  intros l r t al u v (H1 & H2 & H3 & H4 & H5 & H6 & H7 & H8). apply (up_iff al H1 H2 l r t H3 H4 H5 H6); [|exact H8].
  intros m M. apply free_clean. exact (H7 m M).
Qed.
Print Assumptions C77_replace_up.
(** Every string over the alphabet has a result. *)
Lemma tm_dec (t : plang) : (forall m, t m -> clean m) -> (forall x, (exists m, t m /\ read m = x) \/ ~ (exists m, t m /\ read m = x)) ->
  forall u, (exists m, tm t m /\ read m = u) \/ ~ (exists m, tm t m /\ read m = u).
Proof.
  intros Ct D u.
  assert (K : forall m, tm t m -> exists mid, read m = LM :: mid ++ [RM] /\ exists m0, t m0 /\ read m0 = erase mid).
  { intros m M. apply (tm_iff t Ct) in M. destruct M as (inner & -> & T). exists (read inner). split; [apply read_tm|]. exists (drop_marks inner). split; [exact T|].
    apply drop_sides. apply Ct. exact T. }
  destruct u as [|c u]; [right; intros (m & M & E); destruct (K m M) as (mid & E' & _); congruence|].
  destruct (bstr_eq_dec c LM) as [->|Nc]; [|right; intros (m & M & E); destruct (K m M) as (mid & E' & _); rewrite E in E'; injection E' as E' _; auto].
  destruct u as [|d u _] using rev_ind; [right; intros (m & M & E); destruct (K m M) as (mid & E' & _); rewrite E in E'; injection E' as E'; destruct mid; discriminate|].
  destruct (bstr_eq_dec d RM) as [->|Nd]; [|right; intros (m & M & E); destruct (K m M) as (mid & E' & _); rewrite E in E'; injection E' as E'; apply app_inj_tail in E'; destruct E'; auto].
  destruct (D (erase u)) as [(m0 & T & E)|N].
  - left. destruct (lift m0 u (Ct m0 T) (eq_sym E)) as (inner & Di & Ri). exists ((LM, LM) :: inner ++ [(RM, RM)]).
    split; [apply (tm_iff t Ct); exists inner; rewrite Di; auto|]. rewrite read_tm, Ri. reflexivity.
  - right. intros (m & M & E). destruct (K m M) as (mid & E' & m0 & T & E0). rewrite E in E'. injection E' as E'. apply app_inj_tail in E'. destruct E' as (<- & _).
    apply N. exists m0. auto.
Qed.
Theorem C77_total : forall l r t alphabet, arguments_ok l r t alphabet ->
  (forall x, (exists m, t m /\ read m = x) \/ ~ (exists m, t m /\ read m = x)) ->
  forall u, incl u alphabet ->
  exists v, replace_in_context (automaton l, automaton r) UP t false (map (fun a => (a, a)) alphabet) u v.
Proof.
  intros l r t al A D u I. enough (G : exists v, rewritten t l r [] u v) by (destruct G as (v & G); exists v; apply C77_replace_up; auto).
  destruct A as (H1 & H2 & H3 & H4 & H5 & H6 & H7 & H8).
  assert (Ct : forall m, t m -> clean m) by (intros m M; apply free_clean; exact (H7 m M)).
  destruct (marking_exists (left_here l) (right_here r)) with (u := u) (pre := @nil bstr) as (z & Z).
  - intros p. apply here_dec. exact H5.
  - intros q. pose proof (here_dec (fun x => r (rev x)) (fun x => H6 (rev x)) (rev q)) as K. rewrite right_left in K. exact K.
  - destruct H2 as (M1 & M2). split; intros K; auto.
  - pose proof (marking_erase _ _ _ _ _ Z) as Ez. pose proof (marking_incl _ _ _ _ _ al Z I) as Iz.
    destruct (marking_ok l r u z Z) as (OL & OR). destruct (ok_facts l r z OL OR) as (F1 & F2 & F3 & F4 & F5 & F6).
    destruct (replacing_total (tm t) REPL_UP (gamma al) (gamma_eps al H1) (tm_dec t Ct D)) with (u := z) as (w & W & Rw); [|exact Iz|].
    + intros m M. apply (tm_iff t Ct) in M. destruct M as (inner & -> & _). cbn [side_of]. rewrite read_tm. discriminate.
    + cbn [side_of] in W, Rw. exists (erase (written w)). rewrite <- Ez, <- Rw.
      apply (forward t l r al z Ct (gamma_eps al H1) F1 F2 F3 F4 F5 F6 (tm t) (tm_iff t Ct) w W []); [symmetry; exact Rw|left; reflexivity].
Qed.
Print Assumptions C77_total.
(** A string in which nothing can be replaced is related to itself only. *)
Theorem C77_unchanged : forall l r t alphabet u v, arguments_ok l r t alphabet -> incl u alphabet -> untouched t l r [] u [] ->
  (replace_in_context (automaton l, automaton r) UP t false (map (fun a => (a, a)) alphabet) u v <-> v = u).
Proof.
  intros l r t al u v A I U. rewrite C77_replace_up by exact A. split.
  - intros (_ & R). inversion R as [b x U' Eb Ex Ev|b x m rest out U' Rp R' Eb Ex Ev]; [reflexivity|].
    exfalso. apply (U x m rest); [auto|]. rewrite app_nil_r. exact Rp.
  - intros ->. split; [exact I|]. constructor. exact U.
Qed.
Print Assumptions C77_unchanged.
(** A string in which something can be replaced is changed by the mapping at least once. *)
Theorem C77_obligatory : forall l r t alphabet u v, arguments_ok l r t alphabet ->
  replace_in_context (automaton l, automaton r) UP t false (map (fun a => (a, a)) alphabet) u v ->
  (exists x m y, u = x ++ read m ++ y /\ replaceable t l r x m y) ->
  exists x m y out, u = x ++ read m ++ y /\ replaceable t l r x m y /\ v = x ++ written m ++ out.
Proof.
  intros l r t al u v A R (x0 & m0 & y0 & Eu & Rp0). apply C77_replace_up in R; [|exact A]. destruct R as (_ & R).
  inversion R as [b x U' Eb Ex Ev|b x m rest out U' Rp R' Eb Ex Ev]; subst.
  - exfalso. apply (U' x0 m0 y0 eq_refl). rewrite app_nil_r. exact Rp0.
  - exists x, m, rest, out. auto.
Qed.
Print Assumptions C77_obligatory.
(** The optional variant adds the unchanged strings. *)
Theorem C77_optional : forall l r t alphabet u v, arguments_ok l r t alphabet ->
  (replace_in_context (automaton l, automaton r) UP t true (map (fun a => (a, a)) alphabet) u v <->
   incl u alphabet /\ (rewritten t l r [] u v \/ v = u)).
Proof.
  intros l r t al u v A.
  assert (Q : forall u v, replace_in_context (automaton l, automaton r) UP t true (map (fun a => (a, a)) al) u v <->
    replace_in_context (automaton l, automaton r) UP t false (map (fun a => (a, a)) al) u v \/ rel (l_any (ids al)) u v) by (intros; reflexivity).
  rewrite Q, C77_replace_up by exact A. destruct A as (H1 & _).
  assert (P : rel (l_any (ids al)) u v <-> incl u al /\ v = u).
  { rewrite rel_read. split.
    - intros (w & W & -> & ->). apply (l_any_over _ w (no_EE_ids al H1)) in W. apply over_ids in W. destruct W as (x & -> & Ix).
      pose proof (side_ids REPL_UP x (no_eps_incl x al H1 Ix)) as R1. pose proof (side_ids REPL_DOWN x (no_eps_incl x al H1 Ix)) as R2. cbn [side_of] in R1, R2. rewrite R1, R2. auto.
    - intros (I & ->). exists (ids u). pose proof (side_ids REPL_UP u (no_eps_incl u al H1 I)) as R1. pose proof (side_ids REPL_DOWN u (no_eps_incl u al H1 I)) as R2. cbn [side_of] in R1, R2.
      split; [|auto]. apply (l_any_over _ _ (no_EE_ids al H1)). apply over_ids. exists u. auto. }
  rewrite P. tauto.
Qed.
Print Assumptions C77_optional.

(** * Limits *)
Definition just (u : str) : str -> Prop := fun x => x = u.
Definition just_pairs (w : list pair) : plang := fun v => v = w.
Lemma just_dec u x : just u x \/ ~ just u x.
Proof. destruct (list_eq_dec bstr_eq_dec x u) as [E|E]; [left|right]; exact E. Qed.
Ltac nomark := repeat match goal with
  | H : In _ [] |- _ => destruct H
  | H : In _ (_ :: _) |- _ => destruct H as [H|H]; [discriminate|] end.
Ltac free := split; cbn [map fst snd]; intros ?H; nomark.
(** Insertions are never made in context: a mapping of the empty string changes nothing, although
    both contexts are there. *)
Theorem C77_insertion_refuted : exists l r t alphabet, arguments_ok l r t alphabet /\ t [(EPS, B "b")] /\
  (forall u v, replace_in_context (automaton l, automaton r) UP t false (map (fun a => (a, a)) alphabet) u v <-> incl u alphabet /\ v = u) /\
  l [B "a"] /\ r [].
Proof.
  exists (just [B "a"]), (just []), (just_pairs [(EPS, B "b")]), [B "a"; B "b"].
  assert (A : arguments_ok (just [B "a"]) (just []) (just_pairs [(EPS, B "b")]) [B "a"; B "b"]).
  { split; [intros H; nomark|]. split; [free|]. split; [intros x ->; free|]. split; [intros x ->; free|]. split; [apply just_dec|]. split; [apply just_dec|].
    split; [intros m ->; split; free|]. intros m p -> [<-|[]]. right. right. left. reflexivity. }
  split; [exact A|]. split; [reflexivity|]. split; [|split; reflexivity]. intros u v. split.
  - intros H. pose proof H as H'. apply C77_replace_up in H'; [|exact A]. destruct H' as (I & _). split; [exact I|].
    apply C77_unchanged in H; [exact H|exact A|exact I|]. intros x1 m x2 _ (-> & N & _). apply N. reflexivity.
  - intros (I & ->). apply C77_unchanged; [exact A|exact I| |reflexivity]. intros x1 m x2 _ (-> & N & _). apply N. reflexivity.
Qed.
Print Assumptions C77_insertion_refuted.
(** If an output of the mapping is not in the alphabet, the strings it would replace have no
    result at all. *)
Theorem C77_output_refuted : exists l r t alphabet u, ~ In EPS alphabet /\ incl u alphabet /\ t [(B "a", B "b")] /\ l [] /\ r [] /\
  forall v, ~ replace_in_context (automaton l, automaton r) UP t false (map (fun a => (a, a)) alphabet) u v.
Proof.
  exists (just []), (just []), (just_pairs [(B "a", B "b")]), [B "a"], [B "a"].
  assert (H1 : ~ In EPS [B "a"]) by (intros H; nomark). assert (H2 : unmarked [B "a"]) by free.
  assert (Nl : forall x, just [] x -> unmarked x) by (intros x ->; free).
  assert (Ct : forall m, just_pairs [(B "a", B "b")] m -> clean m) by (intros m -> p [<-|[]]; split; reflexivity).
  split; [exact H1|]. split; [intros x Hx; exact Hx|]. split; [reflexivity|]. split; [reflexivity|]. split; [reflexivity|]. intros v R.
  unfold replace_in_context in R. cbn [fst snd] in R. cbn zeta in R. fold (ids [B "a"]) in R. rewrite ids_gamma in R. unfold rcomp in R.
  destruct R as (v' & (z5 & (z4 & (z3 & (z2 & R1 & R2) & R3) & R4) & R5) & R6).
  apply cbt_iff in R2; [|exact H1]. destruct R2 as (<- & _ & _).
  apply (rct_iff [B "a"] H1 (just []) Nl (just_dec [])) in R3. destruct R3 as (<- & _ & OR).
  apply (lct_iff [B "a"] H1 (just []) Nl (just_dec [])) in R4. destruct R4 as (<- & _ & OL).
  apply ibt_iff in R1; [|exact H1|exact H2]. destruct R1 as (I & Eu). apply (rt_iff [B "a"] H1) in R5. destruct R5 as (w & W & -> & ->).
  apply rbt_iff in R6; [|exact H1|exact H2]. destruct R6 as (Iw & _). cbn [side_of] in W.
  destruct (ok_facts (just []) (just []) (read w) OL OR) as (F1 & F2 & F3 & F4 & F5 & F6).
  pose proof (forward _ (just []) (just []) [B "a"] (read w) Ct (gamma_eps _ H1) F1 F2 F3 F4 F5 F6 _ (tm_iff _ Ct) w W [] eq_refl (or_introl eq_refl)) as Rw.
  rewrite Eu in Rw. remember (erase (written w)) as v2 eqn:Ev. 
  assert (V2 : incl v2 [B "a"]).
  { intros x Hx. rewrite Ev in Hx. apply filter_In in Hx. destruct Hx as (Hx & N). apply Iw in Hx. cbn in Hx. destruct Hx as [<-|[<-|[<-|[]]]]; [left; reflexivity|discriminate|discriminate]. }
  inversion Rw as [b x U' Eb Ex Ev'|b x m rest out U' (T & Nm & Hl & Hr) R' Eb Ex Ev']; subst b.
  - apply (U' [] [(B "a", B "b")] []); [subst x; reflexivity|]. split; [reflexivity|]. split; [discriminate|]. split; [exists [], []; split; reflexivity|exists [], []; split; reflexivity].
  - unfold just_pairs in T. subst m. assert (K : In (B "b") v2) by (rewrite <- Ev'; apply in_app_iff; right; left; reflexivity).
    apply V2 in K. destruct K as [K|[]]. discriminate K.
Qed.
Print Assumptions C77_output_refuted.
(** replace_right, which looks for the left context in the output, has no result for a string
    from which something should be deleted: the deleted string leaves its two markers side by
    side. *)
Theorem C77_right_deletion_refuted : exists l r t alphabet u, arguments_ok l r t alphabet /\ incl u alphabet /\ t [(B "a", EPS)] /\ l [] /\ r [] /\
  forall v, ~ replace_in_context (automaton l, automaton r) RIGHT t false (map (fun a => (a, a)) alphabet) u v.
Proof.
  exists (just []), (just []), (just_pairs [(B "a", EPS)]), [B "a"], [B "a"].
  assert (H1 : ~ In EPS [B "a"]) by (intros H; nomark). assert (H2 : unmarked [B "a"]) by free.
  assert (Nl : forall x, just [] x -> unmarked x) by (intros x ->; free).
  assert (Ct : forall m, just_pairs [(B "a", EPS)] m -> clean m) by (intros m -> p [<-|[]]; split; reflexivity).
  split; [|split; [intros x Hx; exact Hx|split; [reflexivity|split; [reflexivity|split; [reflexivity|]]]]].
  { split; [exact H1|]. split; [free|]. split; [intros x ->; free|]. split; [intros x ->; free|]. split; [apply just_dec|]. split; [apply just_dec|].
    split; [intros m ->; split; free|]. intros m p -> [<-|[]]. left. reflexivity. }
  intros v R.
  unfold replace_in_context in R. cbn [fst snd] in R. cbn zeta in R. fold (ids [B "a"]) in R. rewrite ids_gamma in R. unfold rcomp in R.
  destruct R as (v' & (z5 & (z4 & (z3 & (z2 & R1 & R2) & R3) & R5) & R4) & R6).
  apply cbt_iff in R2; [|exact H1]. destruct R2 as (<- & _ & _).
  apply (rct_iff [B "a"] H1 (just []) Nl (just_dec [])) in R3. destruct R3 as (<- & _ & OR).
  apply (lct_iff [B "a"] H1 (just []) Nl (just_dec [])) in R4. destruct R4 as (<- & _ & OL).
  apply ibt_iff in R1; [|exact H1|exact H2]. destruct R1 as (I & Eu). apply (rt_iff [B "a"] H1) in R5. destruct R5 as (w & W & -> & ->).
  cbn [side_of] in W. destruct W as [x Ix N|x m w Ix N M R].
  - fold (ids x) in *. pose proof (side_ids REPL_UP x (no_eps_incl x _ (gamma_eps _ H1) Ix)) as E1. pose proof (side_ids REPL_DOWN x (no_eps_incl x _ (gamma_eps _ H1) Ix)) as E2.
    cbn [side_of] in E1, E2. rewrite E1 in *. rewrite E2 in *.
    destruct (ok_facts (just []) (just []) x OL OR) as (F1 & F2 & F3 & F4 & F5 & F6).
    pose proof (untouched_cut _ (just []) (just []) x Ct F3 F4 F5 F6 _ (tm_iff _ Ct) [] x []) as U. rewrite app_nil_r in U.
    specialize (U eq_refl (or_introl eq_refl) (or_introl eq_refl) N). rewrite Eu in U.
    apply (U [] [(B "a", EPS)] []); [reflexivity|]. split; [reflexivity|]. split; [discriminate|]. split; exists [], []; split; reflexivity.
  - apply (tm_iff _ Ct) in M. destruct M as (inner & -> & T). rewrite !written_app, written_tm in OL.
    assert (Ei : erase (written inner) = []).
    { destruct (drop_sides inner (Ct _ T)) as (_ & Wd). rewrite <- Wd. unfold just_pairs in T. rewrite T. reflexivity. }
    assert (K : exists b s, (LM :: written inner ++ [RM]) ++ written w = LM :: b :: s /\ is_mark b = true).
    { destruct (written inner) as [|c s]; [exists RM, (written w); split; reflexivity|]. exists c, ((s ++ [RM]) ++ written w). split; [asc|].
      rewrite erase_cons in Ei. destruct (is_mark c); [reflexivity|discriminate]. }
    destruct K as (b & s & K & Mb). rewrite K in OL.
    apply (ok_after _ LM RM eq_refl eq_refl ltac:(discriminate) _ _ b s OL eq_refl Mb). apply is_mark_iff. exact Mb.
Qed.
Print Assumptions C77_right_deletion_refuted.
(** The hypotheses hold of a real rule: a becomes b between c and c, and cac is rewritten to cbc. *)
Example C77_witness : let al := [B "a"; B "b"; B "c"] in let t := just_pairs [(B "a", B "b")] in let l := just [B "c"] in
  arguments_ok l l t al /\
  replace_in_context (automaton l, automaton l) UP t false (map (fun a => (a, a)) al) [B "a"; B "c"; B "a"; B "c"] [B "a"; B "c"; B "b"; B "c"].
Proof.
  intros al t l. assert (A : arguments_ok l l t al).
  { unfold al, t, l. split; [intros H; nomark|]. split; [free|]. split; [intros x ->; free|]. split; [intros x ->; free|]. split; [apply just_dec|]. split; [apply just_dec|].
    split; [intros m ->; split; free|]. intros m p -> [<-|[]]. right. right. left. reflexivity. }
  split; [exact A|]. apply C77_replace_up; [exact A|]. split; [intros x Hx; cbn in *; intuition|].
  apply (rw_more t l l [] [B "a"; B "c"] [(B "a", B "b")] [B "c"] [B "c"]).
  - intros x1 m x2 E (T & _ & (p & q & Ep & Q) & _). unfold l, just in Q. subst q. unfold t, just_pairs in T. subst m. change (read [(B "a", B "b")]) with [B "a"] in E.
    cbn [app] in Ep. destruct x1 as [|c [|d x1]]; cbn [app] in E.
    + destruct p; discriminate.
    + injection E as <- E _. discriminate E.
    + injection E as _ _ E. destruct x1; discriminate.
  - split; [reflexivity|]. split; [discriminate|]. split; [exists [B "a"], [B "c"]; split; reflexivity|exists [B "c"], []; split; reflexivity].
  - apply rw_end. intros x1 m x2 E (T & _ & _). unfold t, just_pairs in T. subst m. change (read [(B "a", B "b")]) with [B "a"] in E.
    destruct x1 as [|c x1]; cbn [app] in E; [discriminate|]. injection E as _ E. destruct x1; discriminate.
Qed.
