(** Theorems about the rule functions. *)
From Coq Require Import Lia.
From Verif Require Import Base BT_Model Ru_Model Ru_Spec Ru_Proofs Ru_Proofs2.

(** * C74: two-level rules *)

(** two_level_if accepts the pair strings over the alphabet in which, between the contexts, an
    input symbol of the mappings is mapped as the mappings say. *)
Theorem C74_if : forall l r mappings alphabet w, ~ In (EPS, EPS) alphabet -> ~ In (EPS, EPS) mappings ->
  (two_level_if (l, r) mappings alphabet w <-> over alphabet w /\ obligatory l r mappings w).
Proof. intros. apply two_level_if_iff; assumption. Qed.
Print Assumptions C74_if.

(** two_level_only_if accepts the pair strings over the alphabet in which the mappings occur
    only between the contexts.  ([decided] holds of every language of a transducer; it
    replaces the law of excluded middle.) *)
Theorem C74_only_if : forall l r mappings alphabet w, ~ In (EPS, EPS) alphabet -> ~ In (EPS, EPS) mappings ->
  decided l -> decided r ->
  (two_level_only_if (l, r) mappings alphabet w <-> over alphabet w /\ only_there l r mappings w).
Proof. intros. apply two_level_only_if_iff; assumption. Qed.
Print Assumptions C74_only_if.

(** two_level_if_and_only_if demands both. *)
Theorem C74_if_and_only_if : forall l r mappings alphabet w, ~ In (EPS, EPS) alphabet -> ~ In (EPS, EPS) mappings ->
  decided l -> decided r ->
  (two_level_if_and_only_if (l, r) mappings alphabet w <->
   over alphabet w /\ obligatory l r mappings w /\ only_there l r mappings w).
Proof.
  intros l r ms al w Na Nm Dl Dr. unfold two_level_if_and_only_if, l_and.
  rewrite two_level_if_iff, two_level_only_if_iff by assumption. tauto.
Qed.
Print Assumptions C74_if_and_only_if.

(** A mapping outside the alphabet given still forces its input symbol: nothing is allowed in
    the context then. *)
Theorem C74_foreign_mapping : forall l r i o alphabet x y o', ~ In (EPS, EPS) alphabet -> (i, o) <> (EPS, EPS) ->
  ~ In (i, o) alphabet -> ends_in l x -> starts_with r y ->
  ~ two_level_if (l, r) [(i, o)] alphabet (x ++ (i, o') :: y).
Proof.
  intros l r i o al x y o' Na Ne Ni Hx Hy H. apply two_level_if_iff in H; [|exact Na|intros [E|[]]; exact (Ne E)].
  destruct H as (O & H). specialize (H x i o' y eq_refl Hx Hy). destruct H as [E|[]]; [exists o; left; reflexivity|].
  injection E as E. apply Ni. rewrite E. apply O. apply in_app_iff. right. left. reflexivity.
Qed.
Print Assumptions C74_foreign_mapping.

Definition ex_a : pair := (B "a", B "a").
Definition ex_ab : pair := (B "a", B "b").
Definition ex_c : pair := (B "c", B "c").
Definition only (w : list pair) : plang := fun v => v = w.
Lemma only_decided w : decided (only w).
Proof. intros v. destruct (list_eq_dec pair_eq_dec v w) as [E|E]; [left|right]; exact E. Qed.
Example C74_witness : let al := [ex_a; ex_ab; ex_c] in let l := only [ex_c] in let r := only [] in
  two_level_if_and_only_if (l, r) [ex_ab] al [ex_a; ex_c; ex_ab] /\
  ~ two_level_if_and_only_if (l, r) [ex_ab] al [ex_ab; ex_c; ex_ab] /\ ~ two_level_if_and_only_if (l, r) [ex_ab] al [ex_c; ex_a].
Proof.
  intros al l r. assert (Na : ~ In (EPS, EPS) al) by (intros [E|[E|[E|[]]]]; discriminate).
  assert (Nm : ~ In (EPS, EPS) [ex_ab]) by (intros [E|[]]; discriminate).
  split; [|split].
  - apply C74_if_and_only_if; [exact Na|exact Nm|apply only_decided|apply only_decided|]. split; [intros p [<-|[<-|[<-|[]]]]; unfold al; simpl; auto|]. split.
    + intros x i o y E (u & v & -> & V) _ _. unfold l, only in V. subst v. rewrite <- app_assoc in E.
      destruct u as [|p0 [|p1 u]]; [discriminate| |].
      * cbn [app] in E. injection E as _ <- <- _. left. reflexivity.
      * cbn [app] in E. injection E as _ _ E. destruct u as [|p2 u]; [discriminate|]. injection E as _ E. destruct u; discriminate.
    + intros x p y E [<-|[]]. destruct x as [|p0 [|p1 [|p2 x]]]; cbn [app] in E; try discriminate.
      * injection E as <- <- <-. split; [exists [ex_a], [ex_c]; split; reflexivity|exists [], []; split; reflexivity].
      * injection E as _ _ _ E. destruct x; discriminate.
  - intros H. apply C74_if_and_only_if in H; [|exact Na|exact Nm|apply only_decided|apply only_decided]. destruct H as (_ & _ & H).
    destruct (H [] ex_ab [ex_c; ex_ab] eq_refl (or_introl eq_refl)) as ((u & v & E & V) & _).
    symmetry in E. apply app_eq_nil in E. destruct E as (_ & ->). discriminate V.
  - intros H. apply C74_if_and_only_if in H; [|exact Na|exact Nm|apply only_decided|apply only_decided]. destruct H as (_ & H & _).
    specialize (H [ex_c] (B "a") (B "a") [] eq_refl). destruct H as [E|[]]; [exists [], [ex_c]; split; reflexivity|exists [], []; split; reflexivity|exists (B "b"); left; reflexivity|discriminate].
Qed.

(** * C75: restriction and coercion *)

(** restriction: exactly the strings over the alphabet in which the mapping occurs only in one of the contexts. *)
Theorem C75_restriction : forall contexts mapping alphabet, contexts <> [] ->
  ~ In (EPS, EPS) alphabet -> ~ In (MARK, MARK) alphabet -> never (MARK, MARK) mapping ->
  (forall c, In c contexts -> never (MARK, MARK) (fst c) /\ never (MARK, MARK) (snd c)) ->
  (forall c, In c contexts -> decided (fst c) /\ decided (snd c)) -> decided mapping ->
  exists r after, restriction_rule contexts mapping alphabet = Ok (r, after) /\
    forall w, r w <-> over alphabet w /\ restricted contexts mapping w.
Proof. intros c m al H1 H2 H3 H4 H5 H6 H7. apply (restriction_iff c m al twol_right 0%Z); auto. intros N; contradiction N; reflexivity. Qed.
Print Assumptions C75_restriction.
(** coercion: in the contexts there is only the mapping. *)
Theorem C75_coercion : forall contexts mapping alphabet, contexts <> [] ->
  ~ In (EPS, EPS) alphabet -> ~ In (MARK, MARK) alphabet -> never (MARK, MARK) mapping ->
  (forall c, In c contexts -> never (MARK, MARK) (fst c) /\ never (MARK, MARK) (snd c)) ->
  (forall c, In c contexts -> decided (fst c) /\ decided (snd c)) -> decided mapping ->
  exists r after, coercion contexts mapping alphabet = Ok (r, after) /\
    forall w, r w <-> over alphabet w /\ coerced contexts (fun _ => True) mapping w.
Proof. intros c m al H1 H2 H3 H4 H5 H6 H7. apply (restriction_iff c m al twol_left 0%Z); auto. intros N; contradiction N; reflexivity. Qed.
Print Assumptions C75_coercion.
Theorem C75_both : forall contexts mapping alphabet, contexts <> [] ->
  ~ In (EPS, EPS) alphabet -> ~ In (MARK, MARK) alphabet -> never (MARK, MARK) mapping ->
  (forall c, In c contexts -> never (MARK, MARK) (fst c) /\ never (MARK, MARK) (snd c)) ->
  (forall c, In c contexts -> decided (fst c) /\ decided (snd c)) -> decided mapping ->
  exists r after, restriction_and_coercion contexts mapping alphabet = Ok (r, after) /\
    forall w, r w <-> over alphabet w /\ restricted contexts mapping w /\ coerced contexts (fun _ => True) mapping w.
Proof. intros c m al H1 H2 H3 H4 H5 H6 H7. apply (restriction_iff c m al twol_both 0%Z); auto. intros N; contradiction N; reflexivity. Qed.
Print Assumptions C75_both.
(** The surface rules: coercion applies to strings that agree with the mapping on the input side.
    Partial: the mapping and the alphabet contain no epsilons. *)
Theorem C75_surface_partial : forall contexts mapping alphabet, contexts <> [] ->
  no_epsilons (l_any alphabet) -> ~ In (EPS, EPS) alphabet -> no_epsilons mapping ->
  ~ In (MARK, MARK) alphabet -> never (MARK, MARK) mapping ->
  (forall c, In c contexts -> never (MARK, MARK) (fst c) /\ never (MARK, MARK) (snd c)) ->
  (forall c, In c contexts -> decided (fst c) /\ decided (snd c)) -> decided mapping ->
  exists r1 r2 r3 a1 a2 a3, surface_restriction contexts mapping alphabet = Ok (r1, a1) /\
    surface_coercion contexts mapping alphabet = Ok (r2, a2) /\ surface_restriction_and_coercion contexts mapping alphabet = Ok (r3, a3) /\
    (forall w, r1 w <-> over alphabet w /\ restricted contexts mapping w) /\
    (forall w, r2 w <-> over alphabet w /\ coerced contexts (same_input mapping) mapping w) /\
    (forall w, r3 w <-> over alphabet w /\ restricted contexts mapping w /\ coerced contexts (same_input mapping) mapping w).
Proof.
  intros c m al H1 _ H2 H3 H4 H5 H6 H7 H8.
  destruct (restriction_iff c m al twol_right 1%Z) as (r1 & a1 & E1 & R1); auto.
  destruct (restriction_iff c m al twol_left 1%Z) as (r2 & a2 & E2 & R2); auto.
  destruct (restriction_iff c m al twol_both 1%Z) as (r3 & a3 & E3 & R3); auto.
  exists r1, r2, r3, a1, a2, a3. auto 8.
Qed.
Print Assumptions C75_surface_partial.
(** The deep rules: coercion applies to strings that agree with the mapping on the output side. *)
Theorem C75_deep_partial : forall contexts mapping alphabet, contexts <> [] ->
  no_epsilons (l_any alphabet) -> ~ In (EPS, EPS) alphabet -> no_epsilons mapping ->
  ~ In (MARK, MARK) alphabet -> never (MARK, MARK) mapping ->
  (forall c, In c contexts -> never (MARK, MARK) (fst c) /\ never (MARK, MARK) (snd c)) ->
  (forall c, In c contexts -> decided (fst c) /\ decided (snd c)) -> decided mapping ->
  exists r1 r2 r3 a1 a2 a3, deep_restriction contexts mapping alphabet = Ok (r1, a1) /\
    deep_coercion contexts mapping alphabet = Ok (r2, a2) /\ deep_restriction_and_coercion contexts mapping alphabet = Ok (r3, a3) /\
    (forall w, r1 w <-> over alphabet w /\ restricted contexts mapping w) /\
    (forall w, r2 w <-> over alphabet w /\ coerced contexts (same_output mapping) mapping w) /\
    (forall w, r3 w <-> over alphabet w /\ restricted contexts mapping w /\ coerced contexts (same_output mapping) mapping w).
Proof.
  intros c m al H1 _ H2 H3 H4 H5 H6 H7 H8.
  destruct (restriction_iff c m al twol_right (-1)%Z) as (r1 & a1 & E1 & R1); auto.
  destruct (restriction_iff c m al twol_left (-1)%Z) as (r2 & a2 & E2 & R2); auto.
  destruct (restriction_iff c m al twol_both (-1)%Z) as (r3 & a3 & E3 & R3); auto.
  exists r1, r2, r3, a1, a2, a3. auto 8.
Qed.
Print Assumptions C75_deep_partial.
(** Without contexts every one of the functions throws. *)
Theorem C75_no_contexts : forall mapping alphabet ty direction, restriction [] mapping alphabet ty direction = Throw.
Proof. reflexivity. Qed.
Print Assumptions C75_no_contexts.
(** Of the caller's mapping: restriction, coercion and restriction_and_coercion leave it as it was ... *)
Theorem C75_mapping_kept : forall contexts mapping alphabet ty r after,
  restriction contexts mapping alphabet ty 0 = Ok (r, after) -> after = mapping.
Proof. intros [|c cs] m al ty r a E; cbn in E; [discriminate|]. injection E as _ <-. reflexivity. Qed.
Print Assumptions C75_mapping_kept.
(** ... but the surface and deep variants do not: after surface_restriction the caller's
    transducer a:b accepts a:a. *)
Theorem C75_mapping_kept_refuted : exists contexts mapping alphabet r after w,
  surface_restriction contexts mapping alphabet = Ok (r, after) /\ after w /\ ~ mapping w.
Proof.
  exists [(only [], only [])], (only [ex_ab]), [ex_a; ex_ab]. eexists. eexists. exists [ex_a]. split; [reflexivity|]. split.
  - exists [ex_a], [ex_a]. split; [exists [ex_ab]; split; reflexivity|]. split; [|split; reflexivity]. exists [ex_a]. split; [|reflexivity]. repeat constructor.
  - intros E. discriminate E.
Qed.
Print Assumptions C75_mapping_kept_refuted.
Example C75_witness : let al := [ex_a; ex_ab; ex_c] in exists r after, restriction_rule [(only [ex_c], only []); (only [], only [ex_c])] (only [ex_ab]) al = Ok (r, after) /\
  r [ex_c; ex_ab; ex_a; ex_ab; ex_c] /\ ~ r [ex_a; ex_ab].
Proof.
  intros al. assert (Nv : forall w, ~ In (MARK, MARK) w -> never (MARK, MARK) (only w)) by (intros w N v ->; exact N).
  destruct (C75_restriction [(only [ex_c], only []); (only [], only [ex_c])] (only [ex_ab]) al) as (r & a & E & R).
  - discriminate.
  - intros [X|[X|[X|[]]]]; discriminate.
  - intros [X|[X|[X|[]]]]; discriminate.
  - apply Nv. intros [X|[]]; discriminate.
  - intros c [<-|[<-|[]]]; (split; apply Nv; [try (intros [X|[]]; discriminate); intros []|try (intros [X|[]]; discriminate); intros []]).
  - intros c [<-|[<-|[]]]; split; apply only_decided.
  - apply only_decided.
  - exists r, a. split; [exact E|]. split.
    + apply R. split; [intros p [<-|[<-|[<-|[<-|[<-|[]]]]]]; unfold al; simpl; auto|]. intros x m y Ew M. unfold only in M. subst m.
      destruct x as [|p0 [|p1 [|p2 [|p3 [|p4 x]]]]]; cbn [app] in Ew; try discriminate.
      * injection Ew as <- <-. exists (only [ex_c], only []). split; [left; reflexivity|]. split; [exists [], [ex_c]; split; reflexivity|exists [], [ex_a; ex_ab; ex_c]; split; reflexivity].
      * injection Ew as <- <- <- <-. exists (only [], only [ex_c]). split; [right; left; reflexivity|]. split; [exists [ex_c; ex_ab; ex_a], []; split; reflexivity|exists [ex_c], []; split; reflexivity].
      * injection Ew as _ _ _ _ _ Ew. destruct x; discriminate.
    + intros H. apply R in H. destruct H as (_ & H). destruct (H [ex_a] [ex_ab] [] eq_refl eq_refl) as (c & [<-|[<-|[]]] & (u & v & Eu & V) & (s & t & Es & S)).
      * cbn [fst] in V. unfold only in V. subst v. destruct u as [|p [|q u]]; discriminate.
      * cbn [snd] in S. unfold only in S. subst s. discriminate.
Qed.

(** * C76: unconditional replacement *)

(** replace_up without context, for an alphabet of identity pairs: parts in which no input
    string of the mapping occurs are kept, and between them stand strings of the mapping. *)
Theorem C76_replace_up : forall t alphabet w, ~ In EPS alphabet ->
  (replace t REPL_UP false (map (fun a => (a, a)) alphabet) w <-> replacing read t alphabet w).
Proof. intros t al w N. apply (replace_iff t REPL_UP al w N). Qed.
Print Assumptions C76_replace_up.
Theorem C76_replace_down : forall t alphabet w, ~ In EPS alphabet ->
  (replace t REPL_DOWN false (map (fun a => (a, a)) alphabet) w <-> replacing written t alphabet w).
Proof. intros t al w N. apply (replace_iff t REPL_DOWN al w N). Qed.
Print Assumptions C76_replace_down.
(** Every string over the alphabet has a result, if the mapping replaces no empty string. *)
Theorem C76_total : forall t alphabet, ~ In EPS alphabet ->
  (forall u, (exists m, t m /\ read m = u) \/ ~ (exists m, t m /\ read m = u)) -> (forall m, t m -> read m <> []) ->
  forall u, incl u alphabet -> exists w, replace t REPL_UP false (map (fun a => (a, a)) alphabet) w /\ read w = u.
Proof.
  intros t al N D Ne u I. destruct (replacing_total t REPL_UP al N D Ne u I) as (w & W & E). exists w. split; [|exact E].
  apply (replace_iff t REPL_UP al w N). exact W.
Qed.
Print Assumptions C76_total.
Theorem C76_total_down : forall t alphabet, ~ In EPS alphabet ->
  (forall u, (exists m, t m /\ written m = u) \/ ~ (exists m, t m /\ written m = u)) -> (forall m, t m -> written m <> []) ->
  forall u, incl u alphabet -> exists w, replace t REPL_DOWN false (map (fun a => (a, a)) alphabet) w /\ written w = u.
Proof.
  intros t al N D Ne u I. destruct (replacing_total t REPL_DOWN al N D Ne u I) as (w & W & E). exists w. split; [|exact E].
  apply (replace_iff t REPL_DOWN al w N). exact W.
Qed.
Print Assumptions C76_total_down.
(** A string in which nothing replaceable occurs is mapped to itself and to nothing else. *)
Theorem C76_unchanged : forall t alphabet w, ~ In EPS alphabet ->
  replace t REPL_UP false (map (fun a => (a, a)) alphabet) w -> nothing_in read t (read w) -> w = map (fun a => (a, a)) (read w).
Proof. intros t al w N R H. apply (replace_iff t REPL_UP al w N) in R. exact (replacing_unchanged t REPL_UP al w N R H). Qed.
Print Assumptions C76_unchanged.
(** A string in which something replaceable occurs passes through the mapping at least once. *)
Theorem C76_obligatory : forall t alphabet w, ~ In EPS alphabet ->
  replace t REPL_UP false (map (fun a => (a, a)) alphabet) w -> (exists m, t m /\ factor (read m) (read w)) ->
  exists x m y, w = x ++ m ++ y /\ t m.
Proof.
  intros t al w N R (m & M & F). apply (replace_iff t REPL_UP al w N) in R. destruct R as [x I H|x m' w I H M' R].
  - exfalso. apply (H m M). cbn [side_of] in *. pose proof (side_ids REPL_UP x (no_eps_incl x al N I)) as E. cbn [side_of] in E. unfold ids in E. rewrite E in F. exact F.
  - exists (map (fun a => (a, a)) x), m', w. auto.
Qed.
Print Assumptions C76_obligatory.
(** Optional replacement adds the unchanged strings. *)
Theorem C76_optional : forall t ty alphabet w, ~ In EPS alphabet ->
  (replace t ty true (map (fun a => (a, a)) alphabet) w <->
   replace t ty false (map (fun a => (a, a)) alphabet) w \/ exists x, incl x alphabet /\ w = map (fun a => (a, a)) x).
Proof.
  intros t ty al w N. unfold replace at 1. cbn zeta. unfold l_or at 1. unfold replace. cbn zeta.
  rewrite (l_any_over _ w (no_EE_ids al N)), over_ids. split; (intros [H|(x & H1 & H2)]; [left; exact H|right; exists x; auto]).
Qed.
Print Assumptions C76_optional.
(** left_replace_up looks for the input strings of the mapping on its output side and puts the
    output strings of the mapping on its input side. *)
Theorem C76_left : forall t alphabet w, ~ In EPS alphabet ->
  (left_replace_up t false (map (fun a => (a, a)) alphabet) w <->
   replacing written (fun v => t (map (fun p => (snd p, fst p)) v)) alphabet w).
Proof.
  intros t al w N. unfold left_replace_up, l_invert. rewrite C76_replace_up by exact N. apply replacing_swap.
Qed.
Print Assumptions C76_left.
(** A mapping that replaces the empty string leaves nothing at all, not even the strings it
    does not concern: the obligatory replacement accepts nothing. *)
Theorem C76_insertion_refuted : exists t alphabet, ~ In EPS alphabet /\ t [(EPS, B "b")] /\
  forall w, ~ replace t REPL_UP false (map (fun a => (a, a)) alphabet) w.
Proof.
  exists (only [(EPS, B "b")]), [B "a"; B "b"]. assert (N : ~ In EPS [B "a"; B "b"]) by (intros [E|[E|[]]]; discriminate).
  split; [exact N|]. split; [reflexivity|]. intros w H. apply (replace_iff _ REPL_UP _ w N) in H.
  revert H. apply (replacing_empty _ REPL_UP _ w [(EPS, B "b")]); reflexivity.
Qed.
Print Assumptions C76_insertion_refuted.
(** Optional replacement is all or nothing, not occurrence by occurrence: with a:b, aa gives
    bb and aa but not ab. *)
Theorem C76_optional_each_refuted : exists t alphabet, ~ In EPS alphabet /\
  replace t REPL_UP true (map (fun a => (a, a)) alphabet) [ex_ab; ex_ab] /\
  replace t REPL_UP true (map (fun a => (a, a)) alphabet) [ex_a; ex_a] /\
  ~ replace t REPL_UP true (map (fun a => (a, a)) alphabet) [ex_a; ex_ab].
Proof.
  exists (only [ex_ab]), [B "a"; B "b"]. assert (N : ~ In EPS [B "a"; B "b"]) by (intros [E|[E|[]]]; discriminate).
  assert (Z : nothing_in read (only [ex_ab]) []).
  { intros m -> (x & y & E). destruct x; discriminate. }
  split; [exact N|]. rewrite !C76_optional, !C76_replace_up by exact N. split; [|split].
  - left. apply (rp_more read (only [ex_ab]) [B "a"; B "b"] [] [ex_ab] [ex_ab]); [intros a []|exact Z|reflexivity|].
    apply (rp_more read (only [ex_ab]) [B "a"; B "b"] [] [ex_ab] []); [intros a []|exact Z|reflexivity|].
    apply (rp_end read (only [ex_ab]) [B "a"; B "b"] []); [intros a []|exact Z].
  - right. exists [B "a"; B "a"]. split; [|reflexivity]. intros a [<-|[<-|[]]]; left; reflexivity.
  - intros [H|(x & _ & E)].
    + remember [ex_a; ex_ab] as w eqn:Ew. destruct H as [x I H|x m w I H M R].
      * destruct x as [|a [|b x]]; try discriminate. cbn [map] in Ew. injection Ew as _ _ -> E _. discriminate E.
      * unfold only in M. subst m. destruct x as [|a x].
        -- cbn [map app] in Ew. discriminate Ew.
        -- cbn [map app] in Ew. injection Ew as -> _. apply (H [ex_ab] eq_refl). exists [], x. reflexivity.
    + destruct x as [|a [|b x]]; try discriminate. cbn [map] in E. injection E as _ _ H1 H2 _. rewrite <- H2 in H1. discriminate H1.
Qed.
Print Assumptions C76_optional_each_refuted.
Example C76_witness : replace (only [ex_a; (B "b", B "c")]) REPL_UP false (map (fun a => (a, a)) [B "a"; B "b"])
    [(B "b", B "b"); ex_a; (B "b", B "c"); ex_a] /\
  (forall m, only [ex_a; (B "b", B "c")] m -> read m <> []).
Proof.
  split; [|intros m ->; discriminate].
  assert (N : ~ In EPS [B "a"; B "b"]) by (intros [E|[E|[]]]; discriminate).
  apply C76_replace_up; [exact N|].
  assert (Z : forall c, nothing_in read (only [ex_a; (B "b", B "c")]) [c]).
  { intros c m -> (x & y & E). destruct x as [|d [|e x]]; discriminate. }
  apply (rp_more read _ _ [B "b"] [ex_a; (B "b", B "c")] [ex_a]); [intros a [<-|[]]; right; left; reflexivity|apply Z|reflexivity|].
  apply (rp_end read _ _ [B "a"]); [intros a [<-|[]]; left; reflexivity|apply Z].
Qed.
