(** Proofs about flag elimination: composition with the filter, purging. *)
From Verif Require Import Base Flags_Model Flags_Spec Flags_Proofs BT_Model BT_Spec OLC_Model Harm_Model Harm_Spec Harm_Proofs Fe_Model Fe_Spec Fe_Proofs Fe_Proofs2.
From Coq Require Import Lia.

Lemma reads_total ss : exists xs, Forall2 reads ss xs.
Proof.
  induction ss as [|s ss (xs & IH)]; [exists []; constructor|].
  destruct (is_diacritic s) eqn:D.
  - apply is_diacritic_denotes in D. destruct D as (x & Hx). exists (Some x :: xs). constructor; assumption.
  - exists (None :: xs). constructor; [|assumption]. intros y Hy.
    assert (is_diacritic s = true) by (apply is_diacritic_denotes; eauto). congruence.
Qed.
Lemma bears_st y c : bears_on y c -> nonempty_value c -> is_test c = true /\ st c y <> SNone.
Proof.
  intros [E B] NV. unfold st, flag_build. rewrite <- E, eqb_refl. cbn [negb].
  destruct c as [g v|g v|g [v|]|g [v|]|g|g v]; cbn [is_test op_of op_eqb orb] in *;
  destruct y as [h u|h u|h [u|]|h [u|]|h|h u]; try contradiction;
  cbn [op_of op_eqb andb val_of nonempty_value] in *; rewrite ?(eqb_nil v NV); cbn [negb andb];
  (split; [reflexivity|]); try discriminate; try (destruct (bstr_eqb v u) eqn:EVU; cbn [negb andb]; try discriminate).
  - subst. rewrite eqb_refl in EVU. discriminate.
  - apply bstr_eqb_eq in EVU. congruence.
Qed.

(** Leaving epsilons out changes nothing for the flags. *)
Lemma reads_eps : reads EPS None.
Proof.
  intros y Hy. assert (is_diacritic EPS = true) by (apply is_diacritic_denotes; eauto). discriminate.
Qed.
Definition acc_from (xs : list (option flag)) (e : fenv) : bool := forallb (fun b => b) (results xs e).
Lemma acc_from_cons o xs e : acc_from (o :: xs) e = ook e o && acc_from xs (ostep e o).
Proof. unfold acc_from. destruct o as [x|]; cbn [results ook ostep]; [destruct (step x e)|]; reflexivity. Qed.
Lemma reads_side which ss xs : Forall2 reads ss xs ->
  exists ys, Forall2 reads (filter (fun x => negb (bstr_eqb x EPS)) ss) ys /\
    forall e, acc_from (map (only which) ys) e = acc_from (map (only which) xs) e.
Proof.
  induction 1 as [|s o ss xs Hs HR (ys & IH1 & IH2)]; [exists []; split; [constructor|reflexivity]|].
  cbn [filter]. destruct (bstr_eqb s EPS) eqn:E; cbn [negb].
  - apply bstr_eqb_eq in E. subst s. exists ys. split; [assumption|]. intros e. rewrite IH2. cbn [map].
    destruct o as [x|]; [exfalso; eapply reads_eps, Hs|]. cbn [only]. rewrite acc_from_cons. reflexivity.
  - exists (o :: ys). split; [constructor; assumption|]. intros e. cbn [map]. rewrite !acc_from_cons, IH2. reflexivity.
Qed.
Definition pairs_ok (m : list pair) : Prop :=
  forall p, In p m -> (exists x, denotes (fst p) x \/ denotes (snd p) x) -> fst p = snd p.
Lemma reads_snd m xs : pairs_ok m -> Forall2 reads (map fst m) xs -> Forall2 reads (map snd m) xs.
Proof.
  intros P H. remember (map fst m) as ss eqn:E. revert m P E.
  induction H as [|s o ss xs Hs HR IH]; intros [|p m] P E; cbn in E |- *; try discriminate; [constructor|].
  inversion E; subst. constructor; [|apply IH; [intros q Hq; apply P; right; assumption|reflexivity]].
  assert (Hp := P p (or_introl eq_refl)).
  destruct o as [x|]; cbn [reads] in *; [rewrite <- Hp; eauto|].
  intros y Hy. apply (Hs y). rewrite Hp; eauto.
Qed.

Section Purge.
Variables (which : option bstr) (flag : bstr).
Hypothesis Hwhich : match which with None => flag = [] | Some f => flag = f /\ f <> [] end.
Lemma purged_fst m : pairs_ok m -> forall q, In q m -> (purged flag q = true <-> meant_symbol which (fst q)).
Proof.
  intros HP q Hq. unfold purged. rewrite orb_true_iff, !(purge_spec which flag Hwhich). split; [|tauto].
  intros [H|H]; [assumption|]. rewrite (HP q Hq); [assumption|]. destruct H as (x & Hx & _). eauto.
Qed.
Lemma without_filter m : pairs_ok m -> forall l, without which m l <-> l = filter (fun q => negb (purged flag q)) m.
Proof.
  intros HP. assert (HF := purged_fst m HP). clear HP. induction m as [|q m IH]; intros l.
  - split; [inversion 1; reflexivity|intros ->; constructor].
  - assert (HF' : forall q0, In q0 m -> (purged flag q0 = true <-> meant_symbol which (fst q0))) by (intros q0 H0; apply HF; right; assumption).
    specialize (IH HF'). specialize (HF q (or_introl eq_refl)). cbn [filter].
    destruct (purged flag q); cbn [negb].
    + rewrite <- IH. split; [inversion 1; subst; [assumption|exfalso; tauto]|intros H; constructor; tauto].
    + split.
      * inversion 1; subst; [exfalso; assert (false = true) by tauto; discriminate|]. f_equal. apply IH. assumption.
      * intros ->. constructor; [intros H; apply HF in H; discriminate|apply IH; reflexivity].
Qed.
End Purge.

Section Elim.
Variables (which : option bstr) (flag : bstr) (xerox : bool) (r : list pair -> Z -> Prop) (al : list bstr).
Hypothesis Hwhich : match which with None => flag = [] | Some f => flag = f /\ f <> [] end.
Hypothesis Hpaired : flags_paired r.
Hypothesis Hknown : known_symbols r al.
Hypothesis Hsimple : simple_flags which al.
Hypothesis Hord : forall s, In s al -> ~ reserved_symbol s /\ ~ pmatch_symbol s.
Hypothesis Hconn : xerox = true \/ connected_flags which al.
Let flags := get_flags al.
Let fl := get_flag_filter flags flag.

Lemma in_flags s y : In s al -> denotes s y -> In s flags.
Proof. intros Hs Hy. apply flags_In. split; [assumption|exists y; assumption]. Qed.
Lemma involved_by f c s y : In s al -> denotes f c -> denotes s y -> meant which c = true ->
  bears_on y c -> nonempty_value c ->
  involved flags flag f /\ (In s (fail_of flags flag f) \/ In s (succ_of flags flag f)).
Proof.
  intros Hs Hc Hy M Hb NV. destruct (bears_st _ _ Hb NV) as [T N].
  assert (HI : In s (fail_of flags flag f) \/ In s (succ_of flags flag f)).
  { unfold fail_of, succ_of. rewrite (filtered_spec which flag Hwhich _ _ Hc), M, T. cbn [andb].
    assert (HF : In s flags) by (eapply in_flags; eassumption).
    destruct (st c y) eqn:E; [left|right|congruence]; unfold with_status; apply filter_In; (split; [assumption|]);
    rewrite (combination_st _ _ _ _ Hc Hy), E; reflexivity. }
  split; [|assumption]. intros E. apply app_eq_nil in E. destruct E as [E1 E2]. rewrite E1, E2 in HI. destruct HI as [[]|[]].
Qed.
Lemma lang_pass s : lang_of fl s <-> all_pass flag al s.
Proof.
  unfold fl. rewrite get_flag_filter_lang. unfold all_pass. fold flags. split.
  - intros H f Hf Hi. destruct (fail_of flags flag f ++ succ_of flags flag f) as [|z zs] eqn:E.
    + intros pre post _. apply app_eq_nil in E. destruct E as [E1 E2]. 
      apply flags_In in Hf. destruct Hf as (Hf & c & Hc).
      destruct (denotes_parts _ _ Hc) as (_ & _ & _ & R & _). rewrite E1, E2, R.
      assert (HB : forall b, blk [] [] b pre = b).
      { intros b. induction pre as [|x pre IH] using rev_ind; [reflexivity|]. rewrite blk_snoc, IH. reflexivity. }
      rewrite HB. destruct (op_eqb (op_of c) Rop) eqn:EO; [|reflexivity].
      assert (HRq : is_requirement c) by (destruct c; cbn in EO |- *; discriminate || exact I).
      rewrite (filtered_spec which flag Hwhich _ _ Hc) in Hi. apply andb_prop in Hi. destruct Hi as [M _].
      destruct (proj2 Hsimple f c Hf Hc M HRq) as (s' & y & Hs' & Hy & Hb).
      destruct (involved_by f c s' y) as [Hi _]; try assumption.
      { apply (proj1 Hsimple f); assumption. }
      exfalso. apply Hi. rewrite E1, E2. reflexivity.
    + apply new_filter_spec. apply H; [assumption|]. unfold involved. rewrite E. discriminate.
  - intros H f Hf Hi. apply new_filter_spec. apply (H f Hf).
    destruct (filtered flag f) eqn:EF; [reflexivity|]. exfalso. apply Hi. unfold fail_of, succ_of. rewrite EF. reflexivity.
Qed.
Lemma is_special_reserved s : is_special_sym s = true -> exists m, s = B "@_" ++ m ++ B "_@".
Proof.
  unfold is_special_sym. destruct (Nat.ltb_spec (length s) 4) as [|L]; [discriminate|].
  rewrite !andb_true_iff. intros [[[H0 H1] H2] H3]. unfold at_is in *.
  destruct s as [|a [|b s]]; cbn in L; try lia. cbn [nth_error] in H0, H2.
  apply Ascii.eqb_eq in H0, H2. subst.
  destruct s as [|z s _] using rev_ind; [cbn in L; lia|]. rewrite app_length in L. cbn in L.
  destruct s as [|y s _] using rev_ind; [cbn in L; lia|].
  cbn [length] in H1, H3. rewrite !app_length in H1, H3. cbn [length] in H1, H3.
  replace (S (S (length s + 1 + 1)) - 1) with (S (S (length s + 1))) in H1 by lia.
  replace (S (S (length s + 1 + 1)) - 2) with (S (S (length s))) in H3 by lia.
  cbn [nth_error] in H1, H3. rewrite nth_error_app2 in H1 by (rewrite app_length; cbn; lia).
  rewrite app_length in H1. cbn [length] in H1. rewrite Nat.sub_diag in H1. cbn in H1. apply Ascii.eqb_eq in H1. subst z.
  rewrite <- app_assoc, nth_error_app2, Nat.sub_diag in H3 by lia. cbn in H3. apply Ascii.eqb_eq in H3. subst y.
  exists s. rewrite <- app_assoc. reflexivity.
Qed.
Lemma matches_pass f s : fl = Some f -> (forall x, In x s -> In x al /\ x <> EPS) -> (matches xerox f s <-> all_pass flag al s).
Proof.
  intros Ef Hs. rewrite <- lang_pass, Ef. cbn [lang_of]. unfold matches. split; [tauto|]. intros H. split; [assumption|].
  intros x Hx U. destruct (Hs x Hx) as [Hxa Hne]. unfold unmatched in U. apply andb_prop in U. destruct U as [U1 U2].
  apply negb_true_iff, orb_false_iff in U1. destruct U1 as [U1 U1']. apply bstr_eqb_neq in U1, U1'.
  destruct (Hord x Hxa) as [O1 O2].
  apply orb_prop in U2. destruct U2 as [U2|U2]; [apply orb_prop in U2; destruct U2 as [U2|U2]|].
  - exfalso. apply O1. split; [apply is_special_reserved; assumption|]. auto.
  - exfalso. apply O2. apply pmatch_special_spec. assumption.
  - apply andb_prop in U2. destruct U2 as [Ux Ud]. apply negb_true_iff in Ux.
    destruct Hconn as [E|Hc]; [congruence|]. apply is_diacritic_denotes in Ud. destruct Ud as (d & Hd).
    destruct (Hc x d Hxa Hd) as (s' & y & Hs' & Hy & Hb).
    replace (f_alpha f) with (alpha_of fl) by (rewrite Ef; reflexivity). apply get_flag_filter_alpha.
    destruct Hb as [[Hb M]|[Hb M]].
    + exists x. split; [eapply in_flags; eassumption|]. destruct (involved_by x d s' y Hs' Hd Hy M Hb) as [Hi _]; [apply (proj1 Hsimple x); assumption|]. tauto.
    + exists s'. split; [eapply in_flags; eassumption|]. destruct (involved_by s' y x d Hxa Hy Hd M Hb) as [Hi HI]; [apply (proj1 Hsimple s'); assumption|]. tauto.
Qed.
Lemma obeyed_pass m w p : (p = fst \/ p = snd) -> r m w -> (all_pass flag al (side p m) <-> obeyed which m).
Proof.
  intros Hp Hm.
  assert (HP : pairs_ok m) by (intros q Hq Hx; eapply Hpaired; eauto).
  assert (HS : forall x, In x (side p m) -> In x al).
  { intros x Hx. unfold side in Hx. apply filter_In in Hx. destruct Hx as [Hx _]. apply in_map_iff in Hx.
    destruct Hx as (q & <- & Hq). destruct (Hknown m w q Hm Hq). destruct Hp; subst; assumption. }
  assert (G : forall xs, Forall2 reads (map fst m) xs -> (all_pass flag al (side p m) <-> accepted (map (only which) xs) = true)).
  { intros xs HR. assert (HR' : Forall2 reads (map p m) xs) by (destruct Hp; subst; [assumption|apply reads_snd; assumption]).
    destruct (reads_side which _ _ HR') as (ys & HY & HE). fold (side p m) in HY.
    rewrite (pass_accepted which flag al Hwhich (proj1 Hsimple) (side p m) ys HS HY).
    specialize (HE env0). unfold acc_from in HE. unfold accepted. rewrite HE. reflexivity. }
  unfold obeyed. split.
  - intros H. destruct (reads_total (map fst m)) as (xs & HR). exists xs. split; [assumption|]. apply (G xs HR). assumption.
  - intros (xs & HR & HA). apply (G xs HR). assumption.
Qed.
Lemma eliminate_rel t' : eliminate xerox flag (Tran r al) = Ok t' ->
  (forall l w, t_rel t' l w <-> exists m, r m w /\ obeyed which m /\ without which m l) /\
  (forall x, In x (t_alpha t') <-> In x al /\ ~ meant_symbol which x).
Proof.
  assert (HPO : forall m w, r m w -> pairs_ok m) by (intros m w Hm q Hq Hx; eapply Hpaired; eauto).
  assert (HAl : forall l2, (forall x, In x l2 <-> In x al) -> forall x,
     In x (filter (fun x => negb (purge_symbol x flag)) l2) <-> In x al /\ ~ meant_symbol which x).
  { intros l2 H2 x. rewrite filter_In, H2, <- (purge_spec which flag Hwhich), negb_true_iff. destruct (purge_symbol x flag); intuition congruence. }
  unfold eliminate. cbn [t_alpha]. fold flags. fold fl. destruct fl as [f|] eqn:Ef.
  - unfold compose_both. destruct (xerox && _) eqn:EX; [discriminate|]. cbn [rmap rbind]. intros E. inversion E; subst; clear E.
    cbn [t_purge t_rel t_alpha]. split.
    + intros l w. assert (HM : forall m p, r m w -> (p = fst \/ p = snd) -> (matches xerox f (side p m) <-> obeyed which m)).
      { intros m p Hm Hp. rewrite <- (obeyed_pass m w p Hp Hm). apply matches_pass; [assumption|].
        intros x Hx. unfold side in Hx. apply filter_In in Hx. destruct Hx as [Hx Hn]. apply negb_true_iff, bstr_eqb_neq in Hn.
        split; [|assumption]. apply in_map_iff in Hx. destruct Hx as (q & <- & Hq). destruct (Hknown m w q Hm Hq).
        destruct Hp; subst; assumption. }
      split.
      * intros (m & (Hm & H1 & _) & ->). exists m. split; [assumption|]. split; [apply (HM m fst Hm); auto|].
        apply (without_filter which flag Hwhich); [eauto|reflexivity].
      * intros (m & Hm & Ho & Hw). exists m. split; [split; [assumption|split; apply HM; auto]|].
        apply (without_filter which flag Hwhich); eauto.
    + apply HAl. intros x. rewrite in_app_iff. split; [|tauto]. intros [H|H]; [assumption|].
      assert (H' : In x (alpha_of fl)) by (rewrite Ef; assumption). apply get_flag_filter_alpha in H'.
      destruct H' as (g & Hg & _ & Hx). apply flags_In in Hg.
      assert (HS : forall t, In x (if filtered flag g then with_status g flags t else []) -> In x al).
      { intros t Ht. destruct (filtered flag g); [|destruct Ht]. unfold with_status in Ht. apply filter_In in Ht.
        destruct Ht as [Ht _]. apply flags_In in Ht. tauto. }
      destruct Hx as [->|[Hx|Hx]]; [tauto|apply (HS _ Hx)|apply (HS _ Hx)].
  - intros E. inversion E; subst; clear E. cbn [t_purge t_rel t_alpha]. split.
    + intros l w. assert (HO : forall m, r m w -> obeyed which m).
      { intros m Hm. apply (obeyed_pass m w fst); [auto|assumption|]. apply lang_pass. rewrite Ef. exact I. }
      split.
      * intros (m & Hm & ->). exists m. split; [assumption|]. split; [auto|]. apply (without_filter which flag Hwhich); [eauto|reflexivity].
      * intros (m & Hm & _ & Hw). exists m. split; [assumption|]. apply (without_filter which flag Hwhich); eauto.
    + apply HAl. intros x. reflexivity.
Qed.
End Elim.

(** * One feature at a time *)
Lemma only_idem f o : only (Some f) (only (Some f) o) = only (Some f) o.
Proof. destruct o as [x|]; cbn; [|reflexivity]. destruct (bstr_eqb (feature_of x) f) eqn:E; cbn; rewrite ?E; reflexivity. Qed.
Definition rest (f : bstr) (o : option flag) : option flag :=
  match o with Some x => if bstr_eqb (feature_of x) f then None else Some x | None => None end.
Lemma ook_local x e e' : e (feature_of x) = e' (feature_of x) -> ook e (Some x) = ook e' (Some x).
Proof. apply step_local. Qed.
Lemma step_same x e e' : e (feature_of x) = e' (feature_of x) -> fst (step x e) (feature_of x) = fst (step x e') (feature_of x).
Proof.
  intros E. destruct x as [f v|f v|f [v|]|f [v|]|f|f v]; cbn [step fst feature_of] in *; rewrite ?env_set_same; try assumption; try reflexivity.
  rewrite <- E. destruct (e f) as [|u|u] eqn:E0; try destruct (bstr_eqb u v); cbn [fst]; rewrite ?env_set_same; congruence.
Qed.
Lemma accepted_split f xs : forall e e1 e2, e1 f = e f -> (forall g, g <> f -> e2 g = e g) ->
  acc_from xs e = acc_from (map (only (Some f)) xs) e1 && acc_from (map (rest f) xs) e2.
Proof.
  induction xs as [|o xs IH]; intros e e1 e2 H1 H2; [reflexivity|]. cbn [map]. rewrite !acc_from_cons.
  destruct o as [x|]; cbn [only rest meant].
  - destruct (bstr_eqb (feature_of x) f) eqn:E.
    + apply bstr_eqb_eq in E. rewrite (IH (ostep e (Some x)) (ostep e1 (Some x)) e2).
      * rewrite (ook_local x e1 e) by congruence. cbn [ook ostep]. destruct (snd (step x e)); cbn [andb]; reflexivity.
      * cbn [ostep]. rewrite <- E. apply step_same. congruence.
      * intros g Hg. cbn [ostep]. rewrite H2 by assumption. symmetry.
        change g with (feature_of (FC g)). apply step_other. cbn. congruence.
    + apply bstr_eqb_neq in E. rewrite (IH (ostep e (Some x)) e1 (ostep e2 (Some x))).
      * rewrite (ook_local x e2 e) by (apply H2; assumption). cbn [ook ostep].
        destruct (snd (step x e)); cbn [andb]; [reflexivity|]. rewrite andb_false_r. reflexivity.
      * cbn [ostep]. rewrite H1. symmetry. change f with (feature_of (FC f)). apply step_other. cbn. congruence.
      * intros g Hg. cbn [ostep]. destruct (bstr_eq_dec g (feature_of x)) as [->|N].
        -- apply step_same. apply H2. assumption.
        -- change g with (feature_of (FC g)). rewrite !step_other by (cbn; assumption). apply H2. assumption.
  - apply IH; assumption.
Qed.
Lemma only_none xs : map (only None) xs = xs.
Proof. induction xs as [|[x|] xs IH]; cbn; rewrite ?IH; reflexivity. Qed.
Lemma denotes_feature s x y : denotes s x -> denotes s y -> feature_of x = feature_of y.
Proof. intros Hx Hy. destruct (denotes_parts _ _ Hx) as (_ & F & _). destruct (denotes_parts _ _ Hy) as (_ & F' & _). congruence. Qed.
Lemma without_reads f m l : without (Some f) m l -> forall xs, Forall2 reads (map fst m) xs ->
  exists ys, Forall2 reads (map fst l) ys /\ forall e, acc_from ys e = acc_from (map (rest f) xs) e.
Proof.
  induction 1 as [|p m l H HW IH|p m l H HW IH]; intros xs HR; inversion HR as [|? o ? xs0 Ho HR0]; subst.
  - exists []. split; [constructor|reflexivity].
  - destruct (IH _ HR0) as (ys & H1 & H2). exists ys. split; [assumption|]. intros e. cbn [map]. rewrite acc_from_cons, H2.
    destruct H as (x & Hx & M). cbn [meant] in M. destruct o as [y|]; cbn [reads] in Ho; [|exfalso; eapply Ho, Hx].
    cbn [rest]. rewrite (denotes_feature _ _ _ Ho Hx), M. reflexivity.
  - destruct (IH _ HR0) as (ys & H1 & H2). exists (o :: ys). split; [constructor; assumption|]. intros e. cbn [map].
    rewrite !acc_from_cons, H2. destruct o as [y|]; cbn [rest]; [|reflexivity].
    destruct (bstr_eqb (feature_of y) f) eqn:E; [|reflexivity]. exfalso. apply H. exists y. split; assumption.
Qed.
Lemma reads_det ss xs : Forall2 reads ss xs -> forall ys, Forall2 reads ss ys ->
  forall e, acc_from xs e = acc_from ys e.
Proof.
  induction 1 as [|s o ss xs Ho HR IH]; intros ys HY e; inversion HY as [|? o' ? ys0 Ho' HR']; subst; [reflexivity|].
  rewrite !acc_from_cons. assert (E : o = o').
  { destruct o as [x|], o' as [y|]; cbn [reads] in *; try reflexivity; try (exfalso; eapply Ho; eassumption); try (exfalso; eapply Ho'; eassumption).
    f_equal. destruct (denotes_code _ _ Ho) as (_ & c & q & Hc & Hq & F). destruct (denotes_code _ _ Ho') as (_ & c' & q' & Hc' & Hq' & F').
    assert (c = c') by congruence. subst c'. assert (q = q') by congruence. subst q'.
    destruct (split_feature_value s) as [fe ov]. cbn [fst snd] in *.
    destruct x, y; cbn in F, F'; intuition congruence. }
  subst o'. rewrite (IH _ HR'). reflexivity.
Qed.
Lemma obeyed_split f m l : without (Some f) m l -> (obeyed None m <-> obeyed (Some f) m /\ obeyed None l).
Proof.
  intros HW. unfold obeyed. split.
  - intros (xs & HR & HA). rewrite only_none in HA. destruct (without_reads _ _ _ HW _ HR) as (ys & HY & HE).
    change (acc_from xs env0 = true) in HA. rewrite (accepted_split f xs env0 env0 env0) in HA by reflexivity.
    apply andb_prop in HA. destruct HA as [A1 A2]. split; [exists xs; split; assumption|].
    exists ys. split; [assumption|]. rewrite only_none. change (acc_from ys env0 = true). rewrite HE. assumption.
  - intros [(xs & HR & HA) (ys & HY & HB)]. exists xs. split; [assumption|]. rewrite only_none in *.
    change (acc_from xs env0 = true). rewrite (accepted_split f xs env0 env0 env0) by reflexivity.
    apply andb_true_intro. split; [assumption|]. destruct (without_reads _ _ _ HW _ HR) as (zs & HZ & HE).
    rewrite <- HE. rewrite (reads_det _ _ HZ _ HY). assumption.
Qed.
Lemma without_without f m l k : without (Some f) m l -> (without None m k <-> without None l k).
Proof.
  intros HW. revert k. induction HW as [|p m l H HW IH|p m l H HW IH]; intros k.
  - reflexivity.
  - rewrite <- IH. split.
    + inversion 1; subst; [assumption|]. exfalso. destruct H as (x & Hx & _). 
      match goal with HN : ~ meant_symbol _ _ |- _ => apply HN; exists x; split; [assumption|reflexivity] end.
    + intros HK. constructor; [|assumption]. destruct H as (x & Hx & _). exists x. split; [assumption|reflexivity].
  - split; inversion 1; subst; constructor; try assumption; apply IH; assumption.
Qed.
Lemma without_total which m : exists l, without which m l.
Proof.
  induction m as [|p m (l & IH)]; [exists []; constructor|].
  destruct (reads_total [fst p]) as (xs & HR). inversion HR as [|? o ? ? Ho HN]; subst.
  destruct o as [x|]; cbn [reads] in Ho.
  - destruct (meant which x) eqn:M.
    + exists l. constructor; [exists x; split; assumption|assumption].
    + exists (p :: l). constructor; [|assumption]. intros (y & Hy & My). destruct which as [f|]; cbn in *; [|discriminate].
      rewrite (denotes_feature _ _ _ Hy Ho), M in My. discriminate.
  - exists (p :: l). constructor; [|assumption]. intros (y & Hy & _). eapply Ho, Hy.
Qed.
