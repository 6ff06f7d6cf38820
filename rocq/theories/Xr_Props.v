(** Properties of the replace rules of xfst and regular expressions. *)
From Verif Require Import Base Xr_Model Xr_Spec Xr_Proofs1 Xr_Proofs2 Xr_Proofs3 Xr_Proofs4 Xr_Proofs5 Xr_Proofs6 Xr_Proofs7 Xr_Proofs8 Xr_Proofs9.

(** Examples.  The user's symbols a, b, c, x are 0, 1, 2, 3. *)
Definition lits (ws : list word) : lang := fun w => In w ws.
Lemma lits_decided ws : decided (lits ws).
Proof. intros w. unfold lits. destruct (in_dec (list_eq_dec sym_eq_dec) w ws); auto. Qed.
Lemma lits_eps ws : is_epsilon (lits ws) \/ ~ is_epsilon (lits ws).
Proof.
  destruct (in_dec (list_eq_dec sym_eq_dec) [] ws) as [H|H]; [|right; intros E; apply H; apply E; auto].
  assert (D : (exists w, In w ws /\ w <> []) \/ ~ exists w, In w ws /\ w <> []).
  { apply dec_list. intros w _. destruct w; [right; auto | left; discriminate]. }
  destruct D as [(w & H1 & H2)|N]; [right; intros E; apply H2; apply E; auto|]. left. intros w. split; [|intros ->; auto].
  intros Hw. destruct w; auto. exfalso. apply N. exists (s :: w). split; auto. discriminate.
Qed.
Definition boundary_in (ws : list word) : bool := existsb (existsb (fun s => match s with Bd => true | _ => false end)) ws.
Definition literal (b : bool) (ws : list word) : bool :=
  forallb (forallb (fun s => match s with Pl _ => true | Bd => b | _ => false end)) ws.
Definition context_of (l r : list word) : ctxt :=
  {| c_left := lits l; c_left_bd := boundary_in l; c_right := lits r; c_right_bd := boundary_in r |}.
Lemma literal_user_bd ws : literal true ws = true -> user_bd (boundary_in ws) (lits ws).
Proof.
  intros H w s Hw Hs. unfold literal in H. rewrite forallb_forall in H. specialize (H w Hw). rewrite forallb_forall in H. specialize (H s Hs).
  destruct s; try discriminate; [left; eauto|]. right. split; auto. unfold boundary_in. apply existsb_exists. exists w. split; auto.
  apply existsb_exists. exists Bd. auto.
Qed.
Lemma literal_user ws : literal false ws = true -> user (lits ws).
Proof.
  intros H w Hw. unfold literal in H. rewrite forallb_forall in H. specialize (H w Hw). clear Hw. induction w as [|s w IH]; [exists []; auto|].
  simpl in H. apply andb_true_iff in H. destruct H as (H1 & H2). destruct (IH H2) as (x & ->). destruct s; try discriminate. exists (a :: x). auto.
Qed.
Lemma context_of_usual l r : literal true l = true -> literal true r = true -> usual_ctx (context_of l r).
Proof.
  intros H1 H2. unfold usual_ctx. simpl. pose proof (lits_decided l). pose proof (lits_decided r). pose proof (lits_eps l). pose proof (lits_eps r).
  pose proof (literal_user_bd l H1). pose proof (literal_user_bd r H2). auto 8.
Qed.
Definition rule_of (ty : rtype) (xs ys : list text) (cs : list (list word * list word)) : rule :=
  {| r_map := [(lits (map txt xs), lits (map txt ys))]; r_ctx := map (fun c => context_of (fst c) (snd c)) cs; r_type := ty; r_alph := [] |}.
Lemma literal_txt xs : literal false (map txt xs) = true.
Proof.
  unfold literal. apply forallb_forall. intros w Hw. apply in_map_iff in Hw. destruct Hw as (x & <- & _). apply forallb_forall. intros s Hs.
  unfold txt in Hs. apply in_map_iff in Hs. destruct Hs as (a & <- & _). auto.
Qed.
Lemma rule_of_maps ty xs ys cs x y : maps (rule_of ty xs ys cs) x y <-> In x xs /\ In y ys.
Proof.
  unfold maps. simpl. split.
  - intros (A & B & [E|[]] & H1 & H2). injection E as <- <-. unfold lits in *. apply in_map_iff in H1, H2.
    destruct H1 as (x' & E1 & H1), H2 as (y' & E2 & H2). apply txt_inj in E1, E2. subst. auto.
  - intros (H1 & H2). exists (lits (map txt xs)), (lits (map txt ys)). split; [left; auto|]. split; apply in_map; auto.
Qed.
Lemma rule_of_usual ty x xs y ys cs : forallb (fun c => literal true (fst c) && literal true (snd c)) cs = true ->
  usual (rule_of ty (x :: xs) (y :: ys) cs).
Proof.
  intros Hc. split; [|split].
  - intros A B [E|[]]. injection E as <- <-. split; [apply literal_user, (literal_txt (x :: xs))|]. split; [apply literal_user, (literal_txt (y :: ys))|].
    split; [apply lits_decided|]. split; [apply (lits_decided (map txt (y :: ys)))|]. exists (txt y); left; auto.
  - exists x, y. apply rule_of_maps. split; left; auto.
  - intros c Hin. simpl in Hin. apply in_map_iff in Hin. destruct Hin as ((l & r) & <- & Hin). rewrite forallb_forall in Hc. specialize (Hc _ Hin).
    apply andb_true_iff in Hc. apply context_of_usual; apply Hc.
Qed.
Lemma nr_free second (t : rel) X Y : (forall u l r v, l = LM \/ l = LM2 -> r = RM \/ r = RM2 -> X <> u ++ l :: r :: v) ->
  t X Y -> no_repetition second t X Y.
Proof.
  intros N Ht. unfold no_repetition. apply cc_iff. split; auto. intros (X' & _ & _ & Hc).
  apply rc_cat in Hc. destruct Hc as (A1 & A2 & B1 & B2 & _ & E & _ & Hc).
  apply rc_cat in Hc. destruct Hc as (A3 & A4 & B3 & B4 & _ & -> & H3 & Hc).
  apply rc_cat in Hc. destruct Hc as (A5 & A6 & B5 & B6 & _ & -> & H5 & _).
  assert (exists l, B3 = [l] /\ (l = LM \/ l = LM2)) as (l & -> & Hl).
  { destruct second; [apply rc_alt in H3; destruct H3 as [H3|H3]|]; apply rc_same in H3; destruct H3 as (_ & ->); eauto. }
  assert (exists r, B5 = [r] /\ (r = RM \/ r = RM2)) as (r & -> & Hr).
  { destruct second; [apply rc_alt in H5; destruct H5 as [H5|H5]|]; apply rc_same in H5; destruct H5 as (_ & ->); eauto. }
  exact (N B1 l r B6 Hl Hr E).
Qed.
Ltac usual_example := intros r Hr; repeat (destruct Hr as [<-|Hr]; [apply rule_of_usual; reflexivity|]); destruct Hr.
Ltac cases_in H := simpl in H; repeat (destruct H as [H|H]); try contradiction.

(** C120: an optional rule, or several parallel ones, relates a text to what results if some
    parts of it, as the rules say and in their contexts, are changed. *)
Theorem C120_optional_replacement_partial rs x Y :
  (forall r, In r rs -> usual r) -> contexts_seen rs ->
  (replace rs true (txt x) Y <-> exists y, Y = txt y /\ optionally rs x y).
Proof. intros Hu Hc. apply replace_optional; auto. Qed.
Print Assumptions C120_optional_replacement_partial.
(** a (->) b \/ .#. _ , b _ ,, c (->) x *)
Definition ex_parallel : list rule :=
  [rule_of REPL_DOWN [[0]] [[1]] [([[Bd]], [[]]); ([[Pl 1]], [[]])]; rule_of REPL_UP [[2]] [[3]] [([[Pl 0]], [[]])]].
Example C120_witness : (forall r, In r ex_parallel -> usual r) /\ contexts_seen ex_parallel /\
  replace ex_parallel true (txt [0; 0; 2]) (txt [1; 1; 3]).
Proof.
  assert (Hu : forall r, In r ex_parallel -> usual r) by (unfold ex_parallel; usual_example).
  assert (Hc : contexts_seen ex_parallel).
  { right. split; [discriminate|]. right. eexists. split; [right; left; reflexivity|]. eexists. split; [reflexivity|]. intros (H & _).
    assert (E : [Pl 0] = []) by (apply H; left; auto). discriminate. }
  split; auto. split; auto. apply C120_optional_replacement_partial; auto. exists [1; 1; 3]. split; auto.
  exists [Change [0] [1]; Change [0] [1]; Change [2] [3]]. split; auto. split; auto.
  split; [|intros l y y' r E; destruct l as [|p1 [|p2 [|p3 [|p4 l]]]]; discriminate E]. intros l x y r E.
  destruct l as [|p1 [|p2 [|p3 [|p4 l]]]]; try discriminate; injection E as; subst.
  - eexists. split; [left; reflexivity|]. split; [apply rule_of_maps; split; left; auto|]. eexists. split; [left; reflexivity|]. simpl. split.
    + exists [], [Bd]. split; auto. left; auto.
    + exists []. eexists. split; [reflexivity|]. left; auto.
  - eexists. split; [left; reflexivity|]. split; [apply rule_of_maps; split; left; auto|]. eexists. split; [right; left; reflexivity|]. simpl. split.
    + exists [Bd], [Pl 1]. split; auto. left; auto.
    + exists []. eexists. split; [reflexivity|]. left; auto.
  - eexists. split; [right; left; reflexivity|]. split; [apply rule_of_maps; split; left; auto|]. eexists. split; [left; reflexivity|]. simpl. split.
    + exists [Bd; Pl 0], [Pl 0]. split; auto. left; auto.
    + exists []. eexists. split; [reflexivity|]. left; auto.
Qed.
(** C120: if each of several parallel rules has two contexts, none is taken into account. *)
Theorem C120_contexts_refuted : exists rs x y, (forall r, In r rs -> usual r) /\ replace rs true (txt x) (txt y) /\ ~ optionally rs x y.
Proof.
  set (r1 := rule_of REPL_UP [[0]] [[1]] [([[Pl 2]], [[]]); ([[Pl 3]], [[]])]). exists [r1; r1], [0], [1].
  assert (Hu : forall r, In r [r1; r1] -> usual r) by (unfold r1; usual_example). split; auto. split.
  - unfold replace, remove_markers. exists [LM; Pl 0; RM], [LM; Pl 1; RM]. split; [|split; reflexivity].
    apply rb2_iff. split; [|split; intros H; cases_in H; discriminate].
    apply ab_iff. split; [intros H; cases_in H; discriminate|]. exists [Bd; LM; Pl 0; RM; Bd]. split; auto.
    assert (B : bracketed_rules [r1; r1] true [Bd; LM; Pl 0; RM; Bd] [Bd; LM; Pl 1; RM; Bd]).
    { exists [(Some Bd, Some Bd); (Some LM, Some LM); (Some (Pl 0), Some (Pl 1)); (None, Some (Mk 1)); (Some RM, Some RM); (Some Bd, Some Bd)].
      split; auto. split; auto. left. split.
      - intros r Hr. assert (r = r1) by (cases_in Hr; auto). subst r. intros (c & E & _). discriminate.
      - exists [[(Some Bd, Some Bd)]; [(Some LM, Some LM); (Some (Pl 0), Some (Pl 1)); (None, Some (Mk 1)); (Some RM, Some RM)]; [(Some Bd, Some Bd)]].
        split; auto. constructor; [left; exists Bd; split; auto; simpl; intuition discriminate|].
        constructor; [|constructor; [left; exists Bd; split; auto; simpl; intuition discriminate|constructor]].
        right. eexists. split; [left; reflexivity|]. simpl. left. unfold bracketed.
        exists [(Some LM, Some LM)], [(Some (Pl 0), Some (Pl 1)); (None, Some (Mk 1)); (Some RM, Some RM)]. split; auto. split; [reflexivity|].
        exists [(Some (Pl 0), Some (Pl 1)); (None, Some (Mk 1))], [(Some RM, Some RM)]. split; auto. split; [|reflexivity]. left.
        exists (lits (map txt [[0]])), (lits (map txt [[1]])). split; [left; auto|]. split.
        + exists (txt [0]), (txt [1] ++ [Mk 1]). split; [left; auto|]. split; [|reflexivity]. exists (txt [1]). split; auto. left; auto.
        + intros (w & H1 & H2). destruct w as [|s1 [|s2 w]]; discriminate. }
    apply nr_free; auto. intros u l r v [->| ->] [->| ->] E; destruct u as [|s1 [|s2 [|s3 [|s4 [|s5 [|s6 u]]]]]]; discriminate E.
  - intros (ps & E1 & E2 & Hl & _). destruct ps as [|[a|x y] ps].
    + discriminate.
    + simpl in E1, E2. congruence.
    + destruct (Hl [] x y ps eq_refl) as (r & Hr & _ & c & H1 & (v & w & E & H2) & _). assert (r = r1) by (cases_in Hr; auto). subst r. simpl in H1, E.
      cases_in H1; subst c; cbn in H2; cases_in H2; subst w; destruct v as [|s1 [|s2 v]]; discriminate.
Qed.
Print Assumptions C120_contexts_refuted.

(** C121: an obligatory rule, or several parallel ones, with || contexts relates a text to what
    results if parts of it, as the rules say and in their contexts, are changed until nothing
    is kept that could be changed. *)
Theorem C121_obligatory_replacement_partial rs x Y :
  (forall r, In r rs -> usual r) -> contexts_seen rs -> upward rs ->
  (replace rs false (txt x) Y <-> exists y, Y = txt y /\ obligatorily rs x y).
Proof. intros Hu Hc Hup. apply replace_obligatory_up; auto. Qed.
Print Assumptions C121_obligatory_replacement_partial.
(** C121: with contexts of any kind, nothing else results. *)
Theorem C121_obligatory_sound_partial rs x Y :
  (forall r, In r rs -> usual r) -> contexts_seen rs ->
  replace rs false (txt x) Y -> exists y, Y = txt y /\ obligatorily rs x y.
Proof. intros Hu Hc. apply replace_obligatory_sound; auto. Qed.
Print Assumptions C121_obligatory_sound_partial.
(** a b | b -> c || _ .#. , _ c *)
Definition ex_two_contexts : rule := rule_of REPL_UP [[0; 1]; [1]] [[2]] [([[]], [[Bd]]); ([[]], [[Pl 2]])].
Lemma ex_two_usual : forall r, In r [ex_two_contexts] -> usual r.
Proof. unfold ex_two_contexts. usual_example. Qed.
Lemma applies_two l x y r : applies [ex_two_contexts] l x y r <->
  (x = [0; 1] \/ x = [1]) /\ y = [2] /\ (read r = [] \/ exists z, read r = 2 :: z).
Proof.
  split.
  - intros (ru & [<-|[]] & H1 & c & H2 & _ & (w & v & E & H3)). apply rule_of_maps in H1. destruct H1 as (H1 & H1').
    cbn in H1, H1', H2, H3. split; [cases_in H1; auto|]. split; [cases_in H1'; auto|]. destruct H2 as [<-|[<-|[]]]; cbn in H3, E; cases_in H3; subst w;
    destruct (read r) as [|a z]; auto; simpl in E; try discriminate. injection E as -> _. right. eauto.
  - intros (H1 & -> & H2). eexists. split; [left; reflexivity|]. split; [apply rule_of_maps; cbn; intuition|].
    destruct H2 as [H2|(z & H2)]; [exists (context_of [[]] [[Bd]]) | exists (context_of [[]] [[Pl 2]])]; (split; [cbn; auto|]); cbn; rewrite H2;
    (split; [exists (Bd :: txt (read l)), []; rewrite app_nil_r; cbn; auto|]).
    + exists [Bd], []. cbn; auto.
    + exists [Pl 2], (txt z ++ [Bd]). cbn; auto.
Qed.
Example C121_witness : (forall r, In r [ex_two_contexts] -> usual r) /\ contexts_seen [ex_two_contexts] /\ upward [ex_two_contexts] /\
  replace [ex_two_contexts] false (txt [1; 2; 0; 1]) (txt [2; 2; 2]) /\ replace [ex_two_contexts] false (txt [1; 2; 0; 1]) (txt [2; 2; 0; 2]) /\
  ~ replace [ex_two_contexts] false (txt [1; 2; 0; 1]) (txt [2; 2; 0; 1]).
Proof.
  assert (Hc : contexts_seen [ex_two_contexts]) by (left; eauto).
  assert (Hup : upward [ex_two_contexts]) by (intros r [<-|[]]; auto).
  split; [apply ex_two_usual|]. split; auto. split; auto. split; [|split].
  - apply C121_obligatory_replacement_partial; auto; [apply ex_two_usual|]. exists [2; 2; 2]. split; auto.
    exists [Change [1] [2]; Keep 2; Change [0; 1] [2]]. split; auto. split; auto. split; [|split; [intros l y y' r E; destruct l as [|p1 [|p2 [|p3 [|p4 [|p5 l]]]]]; discriminate E|]].
    + intros l x y r E. apply applies_two. destruct l as [|p1 [|p2 [|p3 [|p4 l]]]]; try discriminate; injection E as; subst; cbn; eauto 8.
    + intros l x r E _ (y & H). apply applies_two in H. destruct H as (Hx & _ & Hr).
      destruct l as [|p1 [|p2 [|p3 [|p4 l]]]]; destruct Hx as [->| ->]; try discriminate.
  - apply C121_obligatory_replacement_partial; auto; [apply ex_two_usual|]. exists [2; 2; 0; 2]. split; auto.
    exists [Change [1] [2]; Keep 2; Keep 0; Change [1] [2]]. split; auto. split; auto. split; [|split; [intros l y y' r E; destruct l as [|p1 [|p2 [|p3 [|p4 [|p5 l]]]]]; discriminate E|]].
    + intros l x y r E. apply applies_two. destruct l as [|p1 [|p2 [|p3 [|p4 [|p5 l]]]]]; try discriminate; injection E as; subst; cbn; eauto 8.
    + intros l x r E _ (y & H). apply applies_two in H. destruct H as (Hx & _ & Hr).
      destruct l as [|p1 [|p2 [|p3 [|p4 [|p5 l]]]]]; destruct Hx as [->| ->]; try discriminate.
  - intros H. apply C121_obligatory_replacement_partial in H; auto; [|apply ex_two_usual]. destruct H as (y & E & ps & E1 & E2 & Hl & _ & Hn).
    change (txt [2; 2; 0; 1]) with (txt [2; 2; 0; 1]) in E. apply txt_inj in E. subst y.
    destruct ps as [|p ps _] using rev_ind; [discriminate|]. unfold read, written in E1, E2. rewrite flat_map_app in E1, E2. destruct p as [a|x z]; simpl in E1, E2.
    + change [1; 2; 0; 1] with ([1; 2; 0] ++ [1]) in E1. apply app_inj_tail in E1. destruct E1 as (_ & ->). apply (Hn ps [1] []); [simpl; auto | left; discriminate|].
      exists [2]. apply applies_two. cbn. auto.
    + destruct (proj1 (applies_two ps x z []) (Hl ps x z [] eq_refl)) as (_ & -> & _). rewrite app_nil_r in E2. change [2; 2; 0; 1] with ([2; 2; 0] ++ [1]) in E2.
      apply app_inj_tail in E2. destruct E2; discriminate.
Qed.
(** [..] -> x || a _ *)
Definition ex_insert : rule := rule_of REPL_UP [[]] [[3]] [([[Pl 0]], [[]])].
Lemma applies_insert l x y r : applies [ex_insert] l x y r <-> x = [] /\ y = [3] /\ exists z, read l = z ++ [0].
Proof.
  split.
  - intros (ru & [<-|[]] & H1 & c & H2 & (v & w & E & H3) & _). apply rule_of_maps in H1. destruct H1 as (H1 & H1').
    cbn in H1, H1', H2. split; [cases_in H1; auto|]. split; [cases_in H1'; auto|]. destruct H2 as [<-|[]]. cbn in H3, E. cases_in H3. subst w.
    destruct (read l) as [|a z _] using rev_ind; [destruct v as [|s1 [|s2 v]]; discriminate|].
    rewrite txt_app, app_comm_cons in E. apply app_inj_tail in E. destruct E as (_ & E). injection E as ->. eauto.
  - intros (-> & -> & z & E). eexists. split; [left; reflexivity|]. split; [apply rule_of_maps; cbn; auto|].
    eexists. split; [left; reflexivity|]. cbn. rewrite E. split.
    + exists (Bd :: txt z), [Pl 0]. rewrite txt_app. cbn. auto.
    + exists [], (txt (read r) ++ [Bd]). cbn. auto.
Qed.
Example C121_insertion_witness : (forall r, In r [ex_insert] -> usual r) /\
  replace [ex_insert] false (txt [0; 1; 0]) (txt [0; 3; 1; 0; 3]) /\ ~ replace [ex_insert] false (txt [0]) (txt [0; 3; 3]).
Proof.
  assert (Hu : forall r, In r [ex_insert] -> usual r) by (unfold ex_insert; usual_example).
  assert (Hc : contexts_seen [ex_insert]) by (left; eauto).
  assert (Hup : upward [ex_insert]) by (intros r [<-|[]]; auto).
  split; auto. split.
  - apply C121_obligatory_replacement_partial; auto. exists [0; 3; 1; 0; 3]. split; auto.
    exists [Keep 0; Change [] [3]; Keep 1; Keep 0; Change [] [3]]. split; auto. split; auto. split; [|split].
    + intros l x y r E. apply applies_insert. destruct l as [|p1 [|p2 [|p3 [|p4 [|p5 [|p6 l]]]]]]; try discriminate; injection E as; subst.
      * split; auto. split; auto. exists []. auto.
      * split; auto. split; auto. exists [0; 1]. auto.
    + intros l y y' r E. destruct l as [|p1 [|p2 [|p3 [|p4 [|p5 [|p6 l]]]]]]; discriminate E.
    + intros l x r E Hx (y & H). apply applies_insert in H. destruct H as (-> & -> & z & Ez). destruct Hx as [Hx|Hx]; [auto|]. apply Hx.
      cbn in E. destruct l as [|p1 [|p2 [|p3 [|p4 [|p5 [|p6 l]]]]]]; try discriminate E; try (injection E as); subst; cbn in Ez.
      * destruct z; discriminate.
      * right. eexists _, _; reflexivity.
      * left. exists [Keep 0]. eexists; reflexivity.
      * apply (f_equal (@rev nat)) in Ez. rewrite rev_app_distr in Ez. discriminate.
      * right. eexists _, _; reflexivity.
      * left. exists [Keep 0; Change [] [3]; Keep 1; Keep 0]. eexists; reflexivity.
  - intros H. apply C121_obligatory_replacement_partial in H; auto. destruct H as (y & E & ps & E1 & E2 & Hl & Ho & _).
    apply (txt_inj [0; 3; 3]) in E. subst y.
    assert (M : forall l x y r, ps = l ++ Change x y :: r -> x = [] /\ y = [3]).
    { intros l x y r E. apply Hl in E. apply applies_insert in E. tauto. }
    destruct ps as [|[a|x y] ps]; [discriminate| |].
    + injection E1 as -> E1. injection E2 as E2. destruct ps as [|[a|x y] ps]; try discriminate.
      destruct (M [Keep 0] x y ps eq_refl) as (-> & ->). simpl in E2. injection E2 as E2. simpl in E1.
      destruct ps as [|[a|x y] ps]; try discriminate. destruct (M [Keep 0; Change [] [3]] x y ps eq_refl) as (-> & ->).
      exact (Ho [Keep 0] [3] [3] ps eq_refl).
    + destruct (M [] x y ps eq_refl) as (-> & ->). discriminate.
Qed.
(** C121: with \/ contexts a change is left out because another one would make more changes
    possible.  a -> b | c \/ .#. _ , b _ does not change a a into c a. *)
Theorem C121_output_contexts_refuted : exists rs x y, (forall r, In r rs -> usual r) /\ contexts_seen rs /\
  obligatorily rs x y /\ ~ replace rs false (txt x) (txt y).
Proof.
  set (r1 := rule_of REPL_DOWN [[0]] [[1]; [2]] [([[Bd]], [[]]); ([[Pl 1]], [[]])]). exists [r1], [0; 0], [2; 0].
  assert (Hu : forall r, In r [r1] -> usual r) by (unfold r1; usual_example). split; auto.
  assert (Hc : contexts_seen [r1]) by (left; eauto). split; auto. split.
  - exists [Change [0] [2]; Keep 0]. split; auto. split; auto. split; [|split; [intros l y y' r E; destruct l as [|p1 [|p2 [|p3 [|p4 [|p5 l]]]]]; discriminate E|]].
    + intros l x y r E. destruct l as [|p1 [|p2 [|p3 l]]]; try discriminate. injection E as; subst. exists r1. split; [left; auto|].
      split; [apply rule_of_maps; cbn; auto|]. eexists. split; [left; reflexivity|]. cbn. split; [exists [], [Bd]; cbn; auto|].
      exists [], (txt [0] ++ [Bd]). cbn. auto.
    + intros l x r E _ (y & ru & [<-|[]] & H1 & c & H2 & (v & w & E' & H3) & _). apply rule_of_maps in H1. destruct H1 as (H1 & _). cbn in H1.
      destruct H1 as [<-|[]]. destruct l as [|p1 [|p2 l]]; [discriminate| |destruct l; discriminate]. injection E as; subst. cbn in H2, E'.
      destruct H2 as [<-|[<-|[]]]; cbn in H3; cases_in H3; subst w; destruct v as [|s1 [|s2 v]]; try discriminate; destruct v; discriminate.
  - intros H. apply (obligatory_iff [r1] Hu Hc) in H. destruct H as (ps & E1 & E2 & Hl & _ & N).
    assert (M : forall l x y r, ps = l ++ Change x y :: r -> x = [0] /\ (y = [1] \/ y = [2])).
    { intros l x y r E. destruct (Hl l x y r E) as (ru & [<-|[]] & H1 & _). apply rule_of_maps in H1. cbn in H1. intuition. }
    change [Pl 2; Pl 0] with (txt [2; 0]) in E2. apply txt_inj in E2.
    assert (ps = [Change [0] [2]; Keep 0]).
    { destruct ps as [|p1 ps]; [discriminate|]. destruct p1 as [a|x y]; [simpl in E1, E2; congruence|].
      destruct (M [] x y ps eq_refl) as (-> & Hy). simpl in E1, E2. destruct Hy as [->| ->]; simpl in E2; [discriminate|]. injection E1 as E1. injection E2 as E2.
      destruct ps as [|p2 ps]; [discriminate|]. destruct p2 as [a|x y].
      - simpl in E1, E2. injection E1 as <- E1. destruct ps as [|p3 ps]; auto. exfalso. destruct p3 as [a|x y]; [discriminate|].
        destruct (M [Change [0] [2]; Keep 0] x y ps eq_refl) as (-> & _). discriminate.
      - destruct (M [Change [0] [2]] x y ps eq_refl) as (-> & Hy). simpl in E2. destruct Hy as [->| ->]; discriminate. }
    subst ps. apply N. exists [AC [0] [1]; AC [0] [1]]. split; [|split; [intros l c d r E; destruct l as [|p1 [|p2 [|p3 l]]]; try discriminate E; injection E as; subst; discriminate|]].
    + intros l c r E. destruct l as [|p1 [|p2 l]]; [| |destruct l; discriminate]; injection E as; subst; exists r1; (split; [left; auto|]);
      (split; [apply rule_of_maps; cbn; auto|]).
      * eexists. split; [left; reflexivity|]. cbn. split; [exists [], [Bd]; cbn; auto|]. exists [], (txt [1] ++ [Bd]). cbn. auto.
      * eexists. split; [right; left; reflexivity|]. cbn. split; [exists [Bd], [Pl 1]; cbn; auto|]. exists [], [Bd]. cbn. auto.
    + cbn. apply rc_cat. exists [LM; Pl 0; RM], [LM; Pl 0; RM], [LM; Pl 0; RM], [Pl 0]. split; auto. split; auto. split; [apply rc_anything; auto|].
      apply rc_plus. exists [LM; Pl 0; RM], [], [Pl 0], []. split; auto. split; auto. split; [|apply rc_star; auto].
      apply mb_step_iff. exists LM, [Pl 0], RM, []. repeat split; auto. intros s [<-|[]]. cbn. intuition discriminate.
Qed.
Print Assumptions C121_output_contexts_refuted.

(** C122: left-to-right longest match. *)
Theorem C122_leftmost_longest_partial rs x Y :
  (forall r, In r rs -> usual r) -> contexts_seen rs -> upward rs -> not_inserting rs -> not_deleting rs ->
  (replace_leftmost_longest rs (txt x) Y <-> exists y, Y = txt y /\ directed rs from_left longest_from_left x y).
Proof. intros Hu Hc Hup Hi Hn. apply leftmost_longest; auto. intros r Hr. split; eauto. Qed.
Print Assumptions C122_leftmost_longest_partial.
(** C123: left-to-right shortest match. *)
Theorem C123_leftmost_shortest_partial rs x Y :
  (forall r, In r rs -> usual r) -> contexts_seen rs -> upward rs -> not_inserting rs -> not_deleting rs ->
  (replace_leftmost_shortest rs (txt x) Y <-> exists y, Y = txt y /\ directed rs from_left shortest_from_left x y).
Proof. intros Hu Hc Hup Hi Hn. apply leftmost_shortest; auto. intros r Hr. split; eauto. Qed.
Print Assumptions C123_leftmost_shortest_partial.
(** C124: right-to-left longest match; it may give more. *)
Theorem C124_rightmost_longest_partial rs x y :
  (forall r, In r rs -> usual r) -> contexts_seen rs -> upward rs -> not_inserting rs -> not_deleting rs ->
  directed rs from_right longest_from_right x y -> replace_rightmost_longest rs (txt x) (txt y).
Proof. intros Hu Hc Hup Hi Hn. apply rightmost_longest_half; auto. intros r Hr. split; eauto. Qed.
Print Assumptions C124_rightmost_longest_partial.
(** C125: right-to-left shortest match. *)
Theorem C125_rightmost_shortest_partial rs x Y :
  (forall r, In r rs -> usual r) -> contexts_seen rs -> upward rs -> not_inserting rs -> not_deleting rs ->
  (replace_rightmost_shortest rs (txt x) Y <-> exists y, Y = txt y /\ directed rs from_right shortest_from_right x y).
Proof. intros Hu Hc Hup Hi Hn. apply rightmost_shortest; auto. intros r Hr. split; eauto. Qed.
Print Assumptions C125_rightmost_shortest_partial.

(** a | a b | b a @-> x *)
Definition ex_directed (xs : list text) (y : text) : rule := rule_of REPL_UP xs [y] [([[]], [[]])].
Lemma applies_ex xs y0 l x y r : applies [ex_directed xs y0] l x y r <-> In x xs /\ y = y0.
Proof.
  split.
  - intros (ru & [<-|[]] & H1 & _). apply rule_of_maps in H1. cbn in H1. intuition.
  - intros (H1 & ->). eexists. split; [left; reflexivity|]. split; [apply rule_of_maps; split; [auto | left; auto]|].
    eexists. split; [left; reflexivity|]. cbn. split; [exists (Bd :: txt (read l)), []; rewrite app_nil_r; cbn; auto|].
    exists [], (txt (read r) ++ [Bd]). cbn. auto.
Qed.
Lemma match_ex xs y0 u x v : match_at [ex_directed xs y0] u x v <-> In x xs.
Proof. unfold match_at. split; [intros (y & H); apply applies_ex in H; tauto | intros H; exists y0; apply applies_ex; auto]. Qed.
Lemma ex_fine xs y0 : xs <> [] -> ~ In [] xs -> y0 <> [] -> (forall r, In r [ex_directed xs y0] -> usual r) /\ contexts_seen [ex_directed xs y0] /\
  upward [ex_directed xs y0] /\ not_inserting [ex_directed xs y0] /\ not_deleting [ex_directed xs y0].
Proof.
  intros H1 H2 H3. split; [|split; [left; eauto|split; [|split]]].
  - intros r [<-|[]]. destruct xs as [|x xs]; [congruence|]. apply rule_of_usual; auto.
  - intros r [<-|[]]. auto.
  - intros r x y [<-|[]] H. apply rule_of_maps in H. destruct H as (H & _). intros ->. auto.
  - intros r x y [<-|[]] H. apply rule_of_maps in H. destruct H as (_ & [<-|[]]). auto.
Qed.
Lemma one_valued_ex xs y0 : one_valued [ex_directed xs y0].
Proof.
  intros r r' x y y' [<-|[]] [<-|[]] A B. apply rule_of_maps in A, B. destruct A as (_ & [<-|[]]), B as (_ & [<-|[]]). auto.
Qed.
Definition ex_set : list text := [[0]; [0; 1]; [1; 0]].
Ltac pieces H ps := intros l x y r H; apply applies_ex; destruct l as [|p1 [|p2 [|p3 [|p4 l]]]]; try discriminate H; injection H as; subst; cbn; auto.
(** On a b a it changes a b and a; the shortest match changes the a's; from the right b a and a
    are changed, or the a's. *)
Example C122_witness : replace_leftmost_longest [ex_directed ex_set [3]] (txt [0; 1; 0; 2]) (txt [3; 3; 2]).
Proof.
  destruct (ex_fine ex_set [3]) as (H1 & H2 & H3 & H3i & H4); [discriminate | cbn; intuition discriminate | discriminate|].
  apply C122_leftmost_longest_partial; auto. exists [3; 3; 2]. split; auto. exists [Change [0; 1] [3]; Change [0] [3]; Keep 2].
  split; auto. split; auto. split; [pieces E ps|]. split.
  - intros l a r x v E E2 H. apply match_ex in H. destruct l as [|p1 [|p2 [|p3 [|p4 l]]]]; try discriminate E. injection E as; subst.
    cbn in E2, H. destruct H as [<-|[<-|[<-|[]]]]; discriminate.
  - intros l x y r w v E E2 N H. apply match_ex in H. destruct l as [|p1 [|p2 [|p3 [|p4 l]]]]; try discriminate E; injection E as; subst;
    cbn in E2, H; destruct w as [|c w]; try congruence; injection E2 as <- E2; destruct H as [H|[H|[H|[]]]]; try discriminate H; destruct w; discriminate.
Qed.
Example C123_witness : replace_leftmost_shortest [ex_directed ex_set [3]] (txt [0; 1; 0; 2]) (txt [3; 3; 2]).
Proof.
  destruct (ex_fine ex_set [3]) as (H1 & H2 & H3 & H3i & H4); [discriminate | cbn; intuition discriminate | discriminate|].
  apply C123_leftmost_shortest_partial; auto. exists [3; 3; 2]. split; auto. exists [Change [0] [3]; Change [1; 0] [3]; Keep 2].
  split; auto. split; auto. split; [pieces E ps|]. split.
  - intros l a r x v E E2 H. apply match_ex in H. destruct l as [|p1 [|p2 [|p3 [|p4 l]]]]; try discriminate E. injection E as; subst.
    cbn in E2, H. destruct H as [<-|[<-|[<-|[]]]]; discriminate.
  - intros l x y r w v E E2 N H. apply match_ex in H. destruct l as [|p1 [|p2 [|p3 [|p4 l]]]]; try discriminate E; injection E as; subst;
    cbn in H; destruct H as [<-|[<-|[<-|[]]]]; cbn in E2; try discriminate E2; injection E2 as <-; congruence.
Qed.
Example C124_witness : replace_rightmost_longest [ex_directed ex_set [3]] (txt [0; 1; 0; 2]) (txt [3; 3; 2]).
Proof.
  destruct (ex_fine ex_set [3]) as (H1 & H2 & H3 & H3i & H4); [discriminate | cbn; intuition discriminate | discriminate|].
  apply C124_rightmost_longest_partial; auto. exists [Change [0] [3]; Change [1; 0] [3]; Keep 2].
  split; auto. split; auto. split; [pieces E ps|]. split.
  - intros l a r u x E E2 H. apply match_ex in H. destruct l as [|p1 [|p2 [|p3 [|p4 l]]]]; try discriminate E. injection E as; subst.
    cbn in E2, H. destruct H as [<-|[<-|[<-|[]]]]; destruct u as [|c1 [|c2 [|c3 [|c4 [|c5 u]]]]]; discriminate.
  - intros l x y r u w E E2 N H. apply match_ex in H. destruct l as [|p1 [|p2 [|p3 [|p4 l]]]]; try discriminate E; injection E as; subst;
    cbn in E2, H; destruct w as [|c w]; try congruence; destruct u as [|c1 [|c2 u]]; try discriminate E2; injection E2 as; subst; cbn in H; intuition discriminate.
Qed.
Example C125_witness : replace_rightmost_shortest [ex_directed ex_set [3]] (txt [0; 1; 0; 2]) (txt [3; 3; 2]).
Proof.
  destruct (ex_fine ex_set [3]) as (H1 & H2 & H3 & H3i & H4); [discriminate | cbn; intuition discriminate | discriminate|].
  apply C125_rightmost_shortest_partial; auto. exists [3; 3; 2]. split; auto. exists [Change [0; 1] [3]; Change [0] [3]; Keep 2].
  split; auto. split; auto. split; [pieces E ps|]. split.
  - intros l a r u x E E2 H. apply match_ex in H. destruct l as [|p1 [|p2 [|p3 [|p4 l]]]]; try discriminate E. injection E as; subst.
    cbn in E2, H. destruct H as [<-|[<-|[<-|[]]]]; destruct u as [|c1 [|c2 [|c3 [|c4 [|c5 u]]]]]; discriminate.
  - intros l x y r u w E E2 N H. apply match_ex in H. destruct l as [|p1 [|p2 [|p3 [|p4 l]]]]; try discriminate E; injection E as; subst;
    cbn in H; destruct H as [<-|[<-|[<-|[]]]]; destruct u as [|c1 [|c2 [|c3 u]]]; try discriminate E2; congruence.
Qed.
(** C122: if a rule deletes, the result may be one that leaves a longer match aside: what is
    deleted may come before the boundary.  a | a b @-> 0 relates a b to b. *)
Theorem C122_deletion_refuted : exists rs x y, (forall r, In r rs -> usual r) /\ contexts_seen rs /\ upward rs /\
  replace_leftmost_longest rs (txt x) (txt y) /\ ~ directed rs from_left longest_from_left x y.
Proof.
  set (r1 := ex_directed [[0]; [0; 1]] []). exists [r1], [0; 1], [1].
  assert (Hu : forall r, In r [r1] -> usual r) by (unfold r1, ex_directed; usual_example). split; auto. split; [left; eauto|].
  split; [intros r [<-|[]]; auto|]. split.
  - unfold replace_leftmost_longest. apply ab_iff. split; [intros H; cases_in H; discriminate|]. exists [Pl 0; Bd; Pl 1; Bd]. split; auto.
    unfold remove_markers. exists [LM; Pl 0; RM; Bd; Pl 1; Bd], [LM; RM; Bd; Pl 1; Bd]. split; [|split; reflexivity].
    apply rb2_iff. split; [|split; intros H; cases_in H; discriminate].
    assert (B : bracketed_rules [r1] true [LM; Pl 0; RM; Bd; Pl 1; Bd] [LM; RM; Bd; Pl 1; Bd]).
    { exists [(Some LM, Some LM); (Some (Pl 0), None); (Some RM, Some RM); (Some Bd, Some Bd); (Some (Pl 1), Some (Pl 1)); (Some Bd, Some Bd)].
      split; [|split; reflexivity]. left. split; [eexists; split; [reflexivity|]; split; intros w; cbn; intuition congruence|].
      exists [[(Some LM, Some LM); (Some (Pl 0), None); (Some RM, Some RM)]; [(Some Bd, Some Bd)]; [(Some (Pl 1), Some (Pl 1))]; [(Some Bd, Some Bd)]].
      split; auto. constructor; [|repeat (constructor; [left; eexists; split; [|reflexivity]; simpl; intuition discriminate|]); constructor].
      right. eexists. split; [left; reflexivity|]. simpl. left. unfold bracketed.
      exists [(Some LM, Some LM)], [(Some (Pl 0), None); (Some RM, Some RM)]. split; auto. split; [reflexivity|].
      exists [(Some (Pl 0), None)], [(Some RM, Some RM)]. split; auto. split; [|reflexivity]. left.
      exists (lits (map txt [[0]; [0; 1]])), (lits (map txt [[]])). split; [left; auto|]. split.
      + exists (txt [0]), []. split; [left; auto|]. split; [|reflexivity]. exists []. split; auto. left; auto.
      + intros (w & H1 & H2). destruct w as [|s1 [|s2 w]]; discriminate. }
    set (t := no_repetition (lists_second [r1] true) (bracketed_rules [r1] true)).
    assert (T : t [LM; Pl 0; RM; Bd; Pl 1; Bd] [LM; RM; Bd; Pl 1; Bd]).
    { apply nr_free; auto. intros u l r v [->| ->] [->| ->] E; destruct u as [|s1 [|s2 [|s3 [|s4 [|s5 [|s6 [|s7 u]]]]]]]; discriminate E. }
    assert (T1 : leftmost t [LM; Pl 0; RM; Bd; Pl 1; Bd] [LM; RM; Bd; Pl 1; Bd]).
    { unfold leftmost. apply cc_iff. split; auto. intros (X' & _ & _ & H). apply rc_cat in H. destruct H as (A1 & A2 & B1 & B2 & _ & E & H & _).
      apply rc_same in H. destruct H as (_ & ->). discriminate. }
    assert (T2 : one_better (leftmost t) [LM; Pl 0; RM; Bd; Pl 1; Bd] [LM; RM; Bd; Pl 1; Bd]).
    { unfold one_better. apply cc_iff. split; auto. intros (X' & _ & _ & H). apply rc_cat in H. destruct H as (A1 & A2 & B1 & B2 & _ & E & H & _).
      apply rc_same in H. destruct H as (_ & ->). discriminate. }
    unfold longest_leftmost. apply cc_iff. split; auto. intros (X' & Y' & Ht & H). fold tLL in H. fold CLL in H. pose proof (CLL_fnb _ _ H) as EF.
    apply CLL_iff in H. destruct H as (al & w & Z' & Z & E1 & E2 & Hn & Hw & H).
    assert (al = [] /\ w = [Pl 0] /\ Z = [Bd; Pl 1; Bd]) as (-> & -> & ->).
    { destruct al as [|s1 [|s2 [|s3 [|s4 [|s5 [|s6 [|s7 al]]]]]]]; try discriminate E2. injection E2 as E2. split; auto.
      destruct w as [|c1 [|c2 w]]; [congruence| |].
      - injection E2 as; subst; auto.
      - exfalso. injection E2 as <- <- E2. apply (Hw RM); [right; left; auto|]. unfold sym_b; auto. }
    apply tLL_inv in H. destruct H as (EZ & H).
    assert (HZ : exists s z, Z' = s :: z /\ (s = Bd \/ s = LM)).
    { destruct H as [(s & z & -> & Hs)|[(z & ->)|(z & E)]]; [|eauto|discriminate]. exists s, z. split; auto. left.
      simpl in EZ. destruct (not_bracket s) eqn:Es; [injection EZ as ->; auto|]. destruct s; try discriminate; destruct Hs; unfold sym_b; auto. }
    destruct HZ as (s & z & -> & Hs).
    assert (Hb : bracketed_rules [r1] true X' Y').
    { unfold one_better in Ht. apply cc_iff in Ht. destruct Ht as (Ht & _). unfold leftmost in Ht. apply cc_iff in Ht. destruct Ht as (Ht & _). apply nr_sub in Ht. auto. }
    destruct (rules_any [r1] true X' Y' Hu Hb) as (os & EX & _ & _).
    { intros q Hq. assert (Hi : In q (filter not_bracket X')).
      { unfold filt in Hq. apply filter_In in Hq. destruct Hq as (Q1 & Q2). apply filter_In. split; auto. destruct q; auto; discriminate. }
      rewrite EF in Hi. simpl in Hi. intuition (subst; eauto). }
    rewrite E1 in EX. simpl in EX. destruct os as [|[[a|x y|x]|] os]; try discriminate. simpl in EX. injection EX as EX. rewrite <- app_assoc in EX.
    destruct x as [|c1 [|c2 x]]; simpl in EX; [discriminate| |]; injection EX as; subst; destruct Hs; discriminate.
  - intros (ps & E1 & E2 & Hl & Hf & Hg). destruct ps as [|p1 ps]; [discriminate|]. destruct p1 as [a|x y].
    + injection E1 as -> _. apply (Hf [] 0 ps [0] (read ps)); auto. apply match_ex. left; auto.
    + destruct (proj1 (applies_ex _ _ _ _ _ _) (Hl [] x y ps eq_refl)) as (Hx & ->). cbn in Hx. destruct Hx as [<-|[<-|[]]].
      * injection E1 as E1. apply (Hg [] [0] [] ps [1] []); auto; [discriminate|]. apply match_ex. right; left; auto.
      * injection E1 as E1. simpl in E2. destruct ps as [|[a|x y] ps]; try discriminate.
        destruct (proj1 (applies_ex _ _ _ _ _ _) (Hl [Change [0; 1] []] x y ps eq_refl)) as (Hx & _). cbn in Hx. destruct Hx as [<-|[<-|[]]]; discriminate.
Qed.
Print Assumptions C122_deletion_refuted.
Lemma last_sep u s x v t y : (forall a, s <> Pl a) -> (forall a, t <> Pl a) -> u ++ s :: txt x = v ++ t :: txt y -> s = t.
Proof.
  intros Hs Ht. revert y. induction x as [|a x IH] using rev_ind; intros y E; destruct y as [|b y _] using rev_ind.
  - apply app_inj_tail in E. apply E.
  - rewrite txt_app, app_comm_cons, app_assoc in E. apply app_inj_tail in E. destruct E as (_ & E). destruct (Hs _ E).
  - rewrite txt_app, app_comm_cons, app_assoc in E. apply app_inj_tail in E. destruct E as (_ & E). symmetry in E. destruct (Ht _ E).
  - rewrite !txt_app, !app_comm_cons, !app_assoc in E. apply app_inj_tail in E. destruct E as (E & _). eauto.
Qed.
(** C124: not always is the longest match taken.  a | b a ->@ x relates b a to b x. *)
Theorem C124_longest_refuted : exists rs x y, (forall r, In r rs -> usual r) /\ contexts_seen rs /\ upward rs /\ not_inserting rs /\ not_deleting rs /\ one_valued rs /\
  replace_rightmost_longest rs (txt x) (txt y) /\ ~ directed rs from_right longest_from_right x y.
Proof.
  set (xs := [[0]; [1; 0]]). exists [ex_directed xs [3]], [1; 0], [1; 3].
  destruct (ex_fine xs [3]) as (H1 & H2 & H3 & H3i & H4); [discriminate | cbn; intuition discriminate | discriminate|].
  split; auto. split; auto. split; auto. split; auto. split; auto. split; [apply one_valued_ex|]. split.
  - apply rightmost_longest_iff; auto. { intros r Hr; split; eauto. } exists [Keep 1; Change [0] [3]]. split; auto. split; auto. split; [|split].
    + intros l x y r E. apply applies_ex. destruct l as [|p1 [|p2 [|p3 l]]]; try discriminate E. injection E as; subst. cbn; auto.
    + intros l a r u x E E2 H. apply match_ex in H. destruct l as [|p1 [|p2 [|p3 l]]]; try discriminate E. injection E as; subst.
      cbn in E2, H. destruct H as [<-|[<-|[]]]; destruct u as [|c1 [|c2 u]]; discriminate.
    + intros (ps' & Hl & _ & Hd). apply CRL_inv in Hd. destruct Hd as (Z' & Z & w & be & E1 & E2 & Hn & Hw & EZ & H).
      cbn in E2.
      assert (Z = [Bd; Pl 1] /\ w = [Pl 0] /\ be = [Bd]) as (-> & -> & ->).
      { destruct Z as [|s1 [|s2 [|s3 [|s4 [|s5 [|s6 [|s7 Z]]]]]]]; try discriminate E2. injection E2 as <- <- E2. split; auto.
        destruct w as [|c1 [|c2 w]]; [congruence| |].
        - injection E2 as; subst; auto.
        - exfalso. injection E2 as <- <- E2. apply (Hw RM); [right; left; auto|]. unfold sym_b; auto. }
      assert (G : exists c', Z' = c' ++ [Bd; Pl 1] \/ Z' = c' ++ [RM]).
      { destruct H as [(c' & c & s & t & -> & E & _)|[(z & E)|[(z & ->)|(c' & c & s & _ & E & _)]]].
        - destruct c as [|z1 [|z2 [|z3 c]]]; try discriminate E. injection E as <- <-. eauto.
        - destruct z as [|z1 [|z2 [|z3 z]]]; discriminate.
        - eauto.
        - destruct c as [|z1 [|z2 [|z3 c]]]; discriminate. }
      destruct G as (c' & [-> | ->]).
      * replace ((c' ++ [Bd; Pl 1]) ++ [Pl 0] ++ [RM; Bd]) with ((c' ++ Bd :: txt [1; 0]) ++ RM :: [Bd]) in E1 by (rewrite <- !app_assoc; auto).
        apply Wr_split_r in E1. destruct E1 as (l & x & y & r & _ & E & _). apply last_sep in E; try discriminate; intros a Ha; discriminate Ha.
      * replace ((c' ++ [RM]) ++ [Pl 0] ++ [RM; Bd]) with ((c' ++ RM :: txt [0]) ++ RM :: [Bd]) in E1 by (rewrite <- !app_assoc; auto).
        apply Wr_split_r in E1. destruct E1 as (l & x & y & r & _ & E & _). apply last_sep in E; try discriminate; intros a Ha; discriminate Ha.
  - intros (ps & E1 & E2 & Hl & Hf & Hg). destruct ps as [|p1 ps]; [discriminate|]. destruct p1 as [a|x y].
    + injection E1 as -> E1. injection E2 as E2. destruct ps as [|[a|x y] ps]; [discriminate| |].
      * simpl in E1, E2. congruence.
      * destruct (proj1 (applies_ex _ _ _ _ _ _) (Hl [Keep 1] x y ps eq_refl)) as (Hx & ->). cbn in Hx. destruct Hx as [<-|[<-|[]]]; [|discriminate].
        injection E1 as E1. apply (Hg [Keep 1] [0] [3] ps [] [1]); auto; [discriminate|]. apply match_ex. cbn. auto.
    + destruct (proj1 (applies_ex _ _ _ _ _ _) (Hl [] x y ps eq_refl)) as (_ & ->). discriminate.
Qed.
Print Assumptions C124_longest_refuted.

(** C126: directed replacement gives every text a result, and if the right sides are single
    strings, except from right to left with the longest match, only one. *)
Theorem C126_directed_result_partial rs x :
  (forall r, In r rs -> usual r) -> contexts_seen rs -> upward rs -> not_inserting rs -> not_deleting rs ->
  ((exists y, replace_leftmost_longest rs (txt x) (txt y)) /\ (exists y, replace_leftmost_shortest rs (txt x) (txt y)) /\
   (exists y, replace_rightmost_longest rs (txt x) (txt y)) /\ (exists y, replace_rightmost_shortest rs (txt x) (txt y))) /\
  (one_valued rs -> forall Y Y',
    (replace_leftmost_longest rs (txt x) Y -> replace_leftmost_longest rs (txt x) Y' -> Y = Y') /\
    (replace_leftmost_shortest rs (txt x) Y -> replace_leftmost_shortest rs (txt x) Y' -> Y = Y') /\
    (replace_rightmost_shortest rs (txt x) Y -> replace_rightmost_shortest rs (txt x) Y' -> Y = Y')).
Proof.
  intros Hu Hc Hup Hi Hn. assert (Hf : forall r, In r rs -> firm r) by (intros r Hr; split; eauto). split; [split; [|split; [|split]]|].
  - destruct (has_leftmost_longest rs Hf Hup x) as (ps & E & H1 & H2 & H3). exists (written ps). apply C122_leftmost_longest_partial; auto.
    exists (written ps). split; auto. exists ps; auto.
  - destruct (has_leftmost_shortest rs Hf Hup x) as (ps & E & H1 & H2 & H3). exists (written ps). apply C123_leftmost_shortest_partial; auto.
    exists (written ps). split; auto. exists ps; auto.
  - destruct (has_rightmost_longest rs Hf Hup x) as (ps & E & H1 & H2 & H3). exists (written ps). apply C124_rightmost_longest_partial; auto.
    exists ps; auto.
  - destruct (has_rightmost_shortest rs Hf Hup x) as (ps & E & H1 & H2 & H3). exists (written ps). apply C125_rightmost_shortest_partial; auto.
    exists (written ps). split; auto. exists ps; auto.
  - intros V Y Y'. rewrite !(C122_leftmost_longest_partial rs x), !(C123_leftmost_shortest_partial rs x), !(C125_rightmost_shortest_partial rs x); auto. split; [|split];
    intros (y & -> & ps & E1 & <- & H1 & H2 & H3) (y' & -> & ps' & E2 & <- & H4 & H5 & H6); f_equal; apply (same_written rs Hup); auto.
    + apply (one_leftmost_longest rs Hf Hup); auto. congruence.
    + apply (one_leftmost_shortest rs Hf Hup); auto. congruence.
    + apply (one_rightmost_shortest rs Hf Hup); auto. congruence.
Qed.
Print Assumptions C126_directed_result_partial.
Example C126_witness : (forall r, In r [ex_directed ex_set [3]] -> usual r) /\ contexts_seen [ex_directed ex_set [3]] /\
  upward [ex_directed ex_set [3]] /\ not_inserting [ex_directed ex_set [3]] /\ not_deleting [ex_directed ex_set [3]] /\ one_valued [ex_directed ex_set [3]].
Proof.
  destruct (ex_fine ex_set [3]) as (H1 & H2 & H3 & H3i & H4); [discriminate | cbn; intuition discriminate | discriminate|].
  split; auto. split; auto. split; auto. split; auto. split; auto. apply one_valued_ex.
Qed.
(** C126: from right to left, longest match: two results. *)
Theorem C126_two_results_refuted : exists rs x y y', (forall r, In r rs -> usual r) /\ contexts_seen rs /\ upward rs /\ not_inserting rs /\ not_deleting rs /\
  one_valued rs /\ replace_rightmost_longest rs (txt x) (txt y) /\ replace_rightmost_longest rs (txt x) (txt y') /\ y <> y'.
Proof.
  destruct C124_longest_refuted as (rs & x & y & H1 & H2 & H3 & H3i & H4 & H5 & H6 & H7).
  assert (Hf : forall r, In r rs -> firm r) by (intros r Hr; split; eauto).
  destruct (has_rightmost_longest rs Hf H3 x) as (ps & E & A1 & A2 & A3).
  assert (D : directed rs from_right longest_from_right x (written ps)) by (exists ps; auto).
  exists rs, x, y, (written ps). split; auto. split; auto. split; auto. split; auto. split; auto. split; auto. split; auto.
  split; [apply C124_rightmost_longest_partial; auto|]. intros ->. auto.
Qed.
Print Assumptions C126_two_results_refuted.

(** C127: a rule to the left changes what is written into what is read. *)
Definition turned (r : rule) : rule :=
  {| r_map := map (fun ab => (snd ab, fst ab)) (r_map r); r_ctx := r_ctx r; r_type := r_type r; r_alph := r_alph r |}.
Theorem C127_to_the_left_partial rs X y :
  (forall r, In r (map turned rs) -> usual r) -> contexts_seen (map turned rs) ->
  (replace_left rs true X (txt y) <-> exists x, X = txt x /\ optionally (map turned rs) y x) /\
  (upward (map turned rs) -> (replace_left rs false X (txt y) <-> exists x, X = txt x /\ obligatorily (map turned rs) y x)).
Proof.
  intros Hu Hc. split; [apply (C120_optional_replacement_partial (map turned rs)); auto|].
  intros Hup. apply (C121_obligatory_replacement_partial (map turned rs)); auto.
Qed.
Print Assumptions C127_to_the_left_partial.
(** c <- a b | b || _ .#. , _ c *)
Example C127_witness : replace_left [turned ex_two_contexts] false (txt [2; 2; 2]) (txt [1; 2; 0; 1]).
Proof.
  destruct C121_witness as (H1 & H2 & H3 & H4 & _). exact H4.
Qed.

(** C128: a restriction accepts the texts in which every occurrence of the center is in one of
    the contexts. *)
Theorem C128_restriction_partial center cs x Y : user center -> ~ center [] ->
  (forall l r, In (l, r) cs -> decided l /\ decided r) ->
  (restriction center cs (txt x) Y <-> Y = txt x /\ restricted center cs x).
Proof. apply restriction_txt. Qed.
Print Assumptions C128_restriction_partial.
(** a => .#. _ , b _ c *)
Example C128_witness : let cs := [(lits [[Bd]], lits [[]]); (lits [[Pl 1]], lits [[Pl 2]])] in
  restriction (lits [[Pl 0]]) cs (txt [0; 1; 0; 2]) (txt [0; 1; 0; 2]) /\ ~ restriction (lits [[Pl 0]]) cs (txt [1; 0]) (txt [1; 0]).
Proof.
  intros cs.
  assert (H1 : user (lits [[Pl 0]])) by (apply literal_user; reflexivity).
  assert (H2 : ~ lits [[Pl 0]] []) by (intros [H|[]]; discriminate).
  assert (H3 : forall l r, In (l, r) cs -> decided l /\ decided r).
  { intros l r [E|[E|[]]]; injection E as <- <-; split; apply lits_decided. }
  split.
  - apply C128_restriction_partial; auto. split; auto. intros u c v E [Hc|[]]. change [Pl 0] with (txt [0]) in Hc. apply txt_inj in Hc. subst c.
    destruct u as [|a1 [|a2 [|a3 [|a4 [|a5 u]]]]]; try discriminate E; injection E as; subst.
    + eexists _, _. split; [left; reflexivity|]. split; [exists [], [Bd]; split; auto; left; auto|]. exists [], (txt [1; 0; 2] ++ [Bd]). split; auto. left; auto.
    + eexists _, _. split; [right; left; reflexivity|]. split; [exists [Bd; Pl 0], [Pl 1]; split; auto; left; auto|].
      exists [Pl 2], [Bd]. split; auto. left; auto.
  - intros H. apply C128_restriction_partial in H; auto. destruct H as (_ & H). destruct (H [1] [0] [] eq_refl (or_introl eq_refl)) as (l & r & Hi & (u1 & u2 & E1 & Hl) & v1 & v2 & E2 & Hr).
    destruct Hi as [E|[E|[]]]; injection E as <- <-; destruct Hl as [<-|[]], Hr as [<-|[]]; try discriminate.
    destruct u1 as [|s1 [|s2 [|s3 u1]]]; discriminate.
Qed.
(** C128: a symbol that stands for any symbol stands for the boundary as well: ? => .#. _ does
    not accept a text of one symbol. *)
Theorem C128_any_symbol_refuted : exists center cs x, ~ center [] /\ (forall l r, In (l, r) cs -> decided l /\ decided r) /\
  restricted center cs x /\ forall Y, ~ restriction center cs (txt x) Y.
Proof.
  exists (fun w => exists s, w = [s]), [(lits [[Bd]], lits [[]])], [0]. split; [intros (s & E); discriminate|].
  split; [intros l r [E|[]]; injection E as <- <-; split; apply lits_decided|]. split.
  - intros u c v E (s & Es). eexists _, _. split; [left; reflexivity|]. destruct c as [|a [|b c]]; try discriminate Es.
    destruct u as [|b u]; [|destruct u; discriminate E]. injection E as <- <-. split; [exists [], [Bd]; split; auto; left; auto|].
    exists [], [Bd]. split; auto. left; auto.
  - intros Y H. apply restriction_iff in H. destruct H as (_ & _ & _ & H). apply H. exists [], [Bd], [Pl 0; Bd]. split; auto. split; [eauto|].
    split; [cbn; intuition discriminate|]. intros (l & r & [E|[]] & (u1 & u2 & E2 & Hl) & _). injection E as <- <-. destruct Hl as [<-|[]].
    destruct u1; discriminate.
Qed.
Print Assumptions C128_any_symbol_refuted.

(** C129: before and after accept the texts in which nothing of the one language comes before
    anything of the other. *)
Theorem C129_before_after l r x Y :
  (rel_of (before l r) (txt x) Y <-> Y = txt x /\ ~ precedes r l x) /\
  (rel_of (after l r) (txt x) Y <-> Y = txt x /\ ~ precedes l r x).
Proof. split; apply prec_txt. Qed.
Print Assumptions C129_before_after.
Example C129_witness : rel_of (before (lits [[Pl 0]]) (lits [[Pl 1]])) (txt [0; 2; 1]) (txt [0; 2; 1]) /\
  ~ rel_of (after (lits [[Pl 0]]) (lits [[Pl 1]])) (txt [0; 2; 1]) (txt [0; 2; 1]).
Proof.
  split.
  - apply C129_before_after. split; auto. intros (u & a & w & b & v & E & [Ha|[]] & [Hb|[]]).
    change [Pl 1] with (txt [1]) in Ha. change [Pl 0] with (txt [0]) in Hb. apply txt_inj in Ha, Hb. subst a b.
    destruct u as [|c1 [|c2 [|c3 u]]]; try discriminate E; [|destruct u; discriminate E]. injection E as <- <- E. destruct w; discriminate E.
  - intros H. apply C129_before_after in H. destruct H as (_ & H). apply H. exists [], [0], [2], [1], []. split; auto. split; left; auto.
Qed.
