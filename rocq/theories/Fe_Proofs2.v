(** Proofs about flag elimination: the filters and the flag calculus. *)
From Verif Require Import Base Flags_Model Flags_Spec Flags_Proofs BT_Model BT_Spec OLC_Model Harm_Model Harm_Spec Harm_Proofs Fe_Model Fe_Spec Fe_Proofs.
From Coq Require Import Lia.

Definition ostep (e : fenv) (o : option flag) : fenv := match o with Some x => fst (step x e) | None => e end.
Definition ook (e : fenv) (o : option flag) : bool := match o with Some x => snd (step x e) | None => true end.
Definition envf (xs : list (option flag)) (e : fenv) : fenv := fold_left ostep xs e.
Lemma results_snoc xs o : forall e, results (xs ++ [o]) e = results xs e ++ [ook (envf xs e) o].
Proof.
  induction xs as [|x xs IH]; intros e.
  - destruct o as [x|]; cbn; [destruct (step x e)|]; reflexivity.
  - destruct x as [x|]; cbn [app results envf fold_left ostep].
    + destruct (step x e) as [e' b] eqn:E. cbn [fst app]. rewrite IH. reflexivity.
    + rewrite IH. reflexivity.
Qed.
Lemma accepted_snoc xs o : accepted (xs ++ [o]) = accepted xs && ook (envf xs env0) o.
Proof. unfold accepted. rewrite results_snoc, forallb_app. cbn. rewrite andb_true_r. reflexivity. Qed.

Lemma step_other c y e : feature_of c <> feature_of y -> fst (step y e) (feature_of c) = e (feature_of c).
Proof.
  intros N. assert (E : bstr_eqb (feature_of c) (feature_of y) = false) by (apply bstr_eqb_neq; assumption).
  destruct y as [f v|f v|f [v|]|f [v|]|f|f v]; cbn [step fst]; try reflexivity;
    try (unfold env_set; cbn [feature_of] in E; rewrite E; reflexivity).
  cbn [feature_of] in E. destruct (e f) as [|u|u]; try destruct (bstr_eqb u v); cbn [fst]; try reflexivity;
    unfold env_set; rewrite E; reflexivity.
Qed.
Lemma step_local c e e' : e (feature_of c) = e' (feature_of c) -> snd (step c e) = snd (step c e').
Proof.
  intros E. destruct c as [f v|f v|f [v|]|f [v|]|f|f v]; cbn [step snd feature_of] in *; rewrite <- ?E; try reflexivity.
  destruct (e f) as [|u|u]; try destruct (bstr_eqb u v); reflexivity.
Qed.
Lemma st_other c y : feature_of c <> feature_of y -> st c y = SNone.
Proof. intros N. unfold st, flag_build. apply bstr_eqb_neq in N. rewrite N. reflexivity. Qed.

(** What a status does to "c is blocked". *)
Definition upd (s : status) (b : bool) : bool := match s with SFail => true | SSucceed => false | SNone => b end.
Definition is_test (c : flag) : bool := op_eqb (op_of c) Uop || op_eqb (op_of c) Rop || op_eqb (op_of c) Dop.
Definition no_neg (e : fenv) : Prop := forall f v, e f <> Neg v.

Lemma eqb_refl (x : bstr) : bstr_eqb x x = true.
Proof. apply bstr_eqb_eq. reflexivity. Qed.
Lemma eqb_nil (x : bstr) : x <> [] -> bstr_eqb x [] = false.
Proof. apply bstr_eqb_neq. Qed.

Lemma env_set_same e f x : env_set e f x f = x.
Proof. unfold env_set. rewrite eqb_refl. reflexivity. Qed.

(** The main step: after an allowed operation, the status of it tells whether [c] is blocked. *)
Lemma step_upd c y e : is_test c = true -> nonempty_value c -> ~ is_negative y -> no_neg e ->
  snd (step y e) = true ->
  negb (snd (step c (fst (step y e)))) = upd (st c y) (negb (snd (step c e))).
Proof.
  intros T NV NN HE OK.
  destruct (bstr_eq_dec (feature_of c) (feature_of y)) as [EF|NF].
  2:{ rewrite (st_other _ _ NF). cbn [upd]. f_equal. apply step_local. apply step_other. assumption. }
  assert (HE' : forall v, e (feature_of c) <> Neg v) by (intros v; apply HE).
  unfold st, flag_build. rewrite EF, eqb_refl. rewrite EF in HE'. cbn [negb].
  assert (SY : forall a b, bstr_eqb a b = bstr_eqb b a) by (intros; apply bstr_eqb_sym).
  destruct c as [f v|f v|f [v|]|f [v|]|f|f v]; cbn [is_test op_of op_eqb orb] in T; try discriminate;
  cbn [feature_of] in EF; subst f;
  destruct y as [g u|g u|g [u|]|g [u|]|g|g u]; cbn [is_negative] in NN; try (exfalso; apply NN; exact I);
  cbn [op_of op_eqb andb feature_of val_of step fst snd nonempty_value] in *;
  rewrite ?env_set_same; rewrite ?(eqb_nil v NV); cbn [negb andb];
  rewrite ?(SY u v);
  try (destruct (bstr_eqb v u) eqn:EVU; cbn [negb andb upd snd]; reflexivity);
  try (cbn; reflexivity);
  destruct (e g) as [|k|k] eqn:EG; try (exfalso; eapply HE'; reflexivity);
  try (cbn; reflexivity); cbn [fst snd] in *;
  rewrite ?env_set_same, ?EG, ?eqb_refl; cbn [fst snd negb upd andb];
  try (destruct (bstr_eqb k u) eqn:EKU; cbn [fst snd] in OK |- *; try discriminate;
       rewrite ?env_set_same, ?EG; try apply bstr_eqb_eq in EKU; try subst k;
       rewrite ?(SY u v), ?eqb_refl; cbn [fst snd negb upd andb];
       destruct (bstr_eqb v u) eqn:EVU; cbn [fst snd negb upd andb]; try reflexivity; try discriminate);
  try (destruct (bstr_eqb v u) eqn:EVU; cbn [negb andb upd snd]; rewrite ?(SY u v), ?EVU; reflexivity);
  try reflexivity;
  destruct (bstr_eqb k u); cbn [fst snd] in *; rewrite ?env_set_same, ?EG; (reflexivity || discriminate).
Qed.
Lemma no_neg_step y e : no_neg e -> ~ is_negative y -> no_neg (fst (step y e)).
Proof.
  intros HE NN f v. destruct y as [g u|g u|g [u|]|g [u|]|g|g u]; cbn [is_negative] in NN; try tauto; cbn [step fst]; try apply HE;
  try (unfold env_set; destruct (bstr_eqb f g); [discriminate|apply HE]).
  destruct (e g) as [|k|k]; try destruct (bstr_eqb k u); cbn [fst]; try apply HE;
  unfold env_set; destruct (bstr_eqb f g); (discriminate || apply HE).
Qed.

Section Elim.
Variables (which : option bstr) (flag : bstr) (al : list bstr).
Hypothesis Hwhich : match which with None => flag = [] | Some f => flag = f /\ f <> [] end.
Hypothesis Hsimple : forall s x, In s al -> denotes s x -> meant which x = true -> ~ is_negative x /\ nonempty_value x.
Let flags := get_flags al.

Lemma flags_In s : In s flags <-> In s al /\ exists x, denotes s x.
Proof. unfold flags, get_flags. rewrite filter_In, is_diacritic_denotes. reflexivity. Qed.
Lemma filtered_spec s x : denotes s x -> filtered flag s = meant which x && is_test x.
Proof using Hwhich. clear Hsimple.
  intros H. destruct (denotes_parts _ _ H) as (_ & F & _ & _ & T). unfold filtered. rewrite T, F. unfold is_test. f_equal.
  unfold meant. destruct which as [f|].
  - destruct Hwhich as [-> N]. rewrite (eqb_nil f N). reflexivity.
  - rewrite Hwhich. reflexivity.
Qed.
Lemma purge_spec s : purge_symbol s flag = true <-> meant_symbol which s.
Proof using Hwhich. clear Hsimple.
  unfold purge_symbol, meant_symbol. destruct (is_diacritic s) eqn:D; cbn [negb].
  - apply is_diacritic_denotes in D. destruct D as (x & Hx). destruct (denotes_parts _ _ Hx) as (_ & F & _).
    assert (E : (if bstr_eqb flag [] then true else bstr_eqb (get_feature s) flag) = meant which x).
    { rewrite F. unfold meant. destruct which as [f|].
      - destruct Hwhich as [-> N]. rewrite (eqb_nil f N). reflexivity.
      - rewrite Hwhich. reflexivity. }
    rewrite E. split; [eauto|]. intros (y & Hy & M). destruct (denotes_parts _ _ Hy) as (_ & F' & _).
    unfold meant in *. destruct which; [|reflexivity]. congruence.
  - split; [discriminate|]. intros (x & Hx & _).
    assert (is_diacritic s = true) by (apply is_diacritic_denotes; eauto). congruence.
Qed.

(** The status of a symbol of a string for the filter of [f]. *)
Lemma stepb_flag f c s y b : In s al -> denotes f c -> denotes s y -> meant which c = true -> is_test c = true ->
  stepb (fail_of flags flag f) (succ_of flags flag f) b s = upd (st c y) b.
Proof.
  intros Hs Hc Hy M T. unfold stepb, fail_of, succ_of. rewrite (filtered_spec _ _ Hc), M, T. cbn [andb].
  assert (HI : forall t, mem s (with_status f flags t) = status_is (st c y) t).
  { intros t. destruct (mem s (with_status f flags t)) eqn:E.
    - apply mem_In in E. unfold with_status in E. apply filter_In in E. destruct E as [_ E].
      rewrite (combination_st _ _ _ _ Hc Hy) in E. congruence.
    - destruct (status_is (st c y) t) eqn:E'; [|reflexivity].
      assert (H : In s (with_status f flags t)).
      { unfold with_status. apply filter_In. split; [apply flags_In; eauto|]. rewrite (combination_st _ _ _ _ Hc Hy). assumption. }
      apply mem_In in H. congruence. }
  rewrite !HI. destruct (st c y); reflexivity.
Qed.
Lemma stepb_plain f s b : reads s None -> stepb (fail_of flags flag f) (succ_of flags flag f) b s = b.
Proof.
  intros Hr. cbn [reads] in Hr.
  assert (H : forall t, mem s (if filtered flag f then with_status f flags t else []) = false).
  { intros t. destruct (mem s _) eqn:E; [|reflexivity]. apply mem_In in E.
    destruct (filtered flag f); [|destruct E]. unfold with_status in E. apply filter_In in E. destruct E as [E _].
    apply flags_In in E. destruct E as (_ & x & Hx). exfalso. eapply Hr, Hx. }
  unfold stepb, fail_of, succ_of. rewrite !H. reflexivity.
Qed.

Lemma env_no_neg s xs : (forall x, In x s -> In x al) -> Forall2 reads s xs ->
  no_neg (envf (map (only which) xs) env0).
Proof.
  intros Hs HR. assert (G : forall e, no_neg e -> no_neg (envf (map (only which) xs) e)).
  { induction HR as [|a o s xs Ha HR IH]; intros e He; cbn; [assumption|].
    apply IH; [intros x Hx; apply Hs; right; assumption|].
    destruct o as [y|]; cbn [only ostep]; [|assumption]. destruct (meant which y) eqn:M; cbn; [|assumption].
    apply no_neg_step; [assumption|]. apply (Hsimple a); [apply Hs; left; reflexivity|assumption|assumption]. }
  apply G. intros f v. discriminate.
Qed.

(** After an accepted prefix, the filter of [f] blocks [f] exactly if [f] is not allowed. *)
Lemma blk_step f c : In f al -> denotes f c -> meant which c = true -> is_test c = true ->
  forall s xs, (forall x, In x s -> In x al) -> Forall2 reads s xs -> accepted (map (only which) xs) = true ->
  blk (fail_of flags flag f) (succ_of flags flag f) (at_is f 1 "R") s
  = negb (snd (step c (envf (map (only which) xs) env0))).
Proof.
  intros Hf Hc M T. induction s as [|a s IH] using rev_ind; intros xs Hs HR HA.
  - inversion HR; subst. cbn [blk fold_left map envf].
    destruct (denotes_parts _ _ Hc) as (_ & _ & _ & -> & _).
    destruct c as [g v|g v|g [v|]|g [v|]|g|g v]; cbn in T |- *; try discriminate; reflexivity.
  - apply Forall2_app_inv_l in HR. destruct HR as (xs' & os & HR & HO & ->).
    inversion HO as [|? o ? ? Ho HN]; subst. inversion HN; subst. clear HO HN.
    rewrite map_app in HA |- *. cbn [map] in *. rewrite accepted_snoc in HA. apply andb_prop in HA. destruct HA as [HA HO].
    assert (Hs' : forall x, In x s -> In x al) by (intros x Hx; apply Hs; apply in_or_app; auto).
    assert (Ha : In a al) by (apply Hs; apply in_or_app; right; left; reflexivity).
    specialize (IH xs' Hs' HR HA). rewrite blk_snoc, IH.
    unfold envf in *. rewrite fold_left_app. cbn [fold_left].
    fold (envf (map (only which) xs') env0) in *. set (e := envf (map (only which) xs') env0) in *.
    assert (HE : no_neg e) by (apply (env_no_neg s); assumption).
    destruct o as [y|].
    + cbn [reads] in Ho. rewrite (stepb_flag f c a y) by assumption. cbn [only ostep] in *.
      destruct (meant which y) eqn:My; cbn [ostep ook] in *.
      * symmetry. apply step_upd; try assumption; [apply (Hsimple f); assumption|apply (Hsimple a); assumption].
      * rewrite st_other; [reflexivity|]. unfold meant in M, My. destruct which as [h|]; [|discriminate].
        apply bstr_eqb_eq in M. apply bstr_eqb_neq in My. congruence.
    + cbn [only ostep]. apply stepb_plain. assumption.
Qed.

Definition all_pass (s : list bstr) : Prop :=
  forall f, In f flags -> filtered flag f = true -> forall pre post, s = pre ++ f :: post ->
    blk (fail_of flags flag f) (succ_of flags flag f) (at_is f 1 "R") pre = false.

Lemma pass_accepted : forall s xs, (forall x, In x s -> In x al) -> Forall2 reads s xs ->
  (all_pass s <-> accepted (map (only which) xs) = true).
Proof.
  induction s as [|a s IH] using rev_ind; intros xs Hs HR.
  - inversion HR; subst. split; [reflexivity|]. intros _ f _ _ pre post E. destruct pre; discriminate.
  - apply Forall2_app_inv_l in HR. destruct HR as (xs' & os & HR & HO & ->).
    inversion HO as [|? o ? ? Ho HN]; subst. inversion HN; subst. clear HO HN.
    rewrite map_app. cbn [map]. rewrite accepted_snoc.
    assert (Hs' : forall x, In x s -> In x al) by (intros x Hx; apply Hs; apply in_or_app; auto).
    assert (Ha : In a al) by (apply Hs; apply in_or_app; right; left; reflexivity).
    specialize (IH xs' Hs' HR).
    assert (E : all_pass (s ++ [a]) <-> all_pass s /\ (In a flags -> filtered flag a = true ->
              blk (fail_of flags flag a) (succ_of flags flag a) (at_is a 1 "R") s = false)).
    { split.
      - intros H. split.
        + intros f Hf Hi pre post ->. apply (H f Hf Hi pre (post ++ [a])). rewrite <- app_assoc. reflexivity.
        + intros Hf Hi. apply (H a Hf Hi s []). reflexivity.
      - intros [H1 H2] f Hf Hi pre post E. destruct post as [|p post _] using rev_ind.
        + apply app_inj_tail in E. destruct E as [-> ->]. auto.
        + rewrite app_comm_cons, app_assoc in E. apply app_inj_tail in E. destruct E as [-> ->].
          apply (H1 f Hf Hi pre post). reflexivity. }
    rewrite E, IH. rewrite andb_true_iff. split; intros [HA H]; (split; [assumption|]).
    + destruct o as [y|]; cbn [only]; [|reflexivity]. destruct (meant which y) eqn:M; [|reflexivity]. cbn [ook].
      destruct (is_test y) eqn:T.
      * cbn [reads] in Ho. assert (HI : In a flags) by (apply flags_In; eauto).
        assert (HF : filtered flag a = true) by (rewrite (filtered_spec a y Ho), M, T; reflexivity).
        specialize (H HI HF). rewrite (blk_step a y Ha Ho M T s xs' Hs' HR HA) in H. apply negb_false_iff in H. assumption.
      * destruct y as [g v|g v|g [v|]|g [v|]|g|g v]; cbn in T |- *; try discriminate; reflexivity.
    + intros HI HF. apply flags_In in HI. destruct HI as (_ & y & Hy).
      destruct o as [z|]; cbn [reads] in Ho; [|exfalso; eapply Ho, Hy].
      rewrite (filtered_spec a z Ho) in HF. apply andb_prop in HF. destruct HF as [M T].
      rewrite (blk_step a z Ha Ho M T s xs' Hs' HR HA). cbn [only] in H. rewrite M in H. cbn [ook] in H.
      rewrite H. reflexivity.
Qed.
End Elim.
