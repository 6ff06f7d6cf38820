(** Proofs for lexc, part 8: the relation of the compiled transducer. *)
From Verif Require Import Base OrdMap BT_Model BT_Spec Tok_Model Tok_Spec Tok_Proofs Str_Model Str_Spec Str_Proofs2 Lx_Model Lx_Spec Lx_Proofs Lx_Proofs2 Lx_Proofs3 Lx_Proofs4 Lx_Proofs5 Lx_Proofs6 Lx_Proofs7.

Lemma sides_strip l xs ys : sides l xs ys <-> xs = strip (map fst l) /\ ys = strip (map snd l).
Proof.
  split.
  - induction 1 as [|x y l xs ys Hx Hy H [-> ->]|x l xs ys Hx H [-> ->]|y l xs ys Hy H [-> ->]|l xs ys H [-> ->]]; [auto| | | |];
      cbn [map fst snd strip filter]; change (B "@_EPSILON_SYMBOL_@") with EPS in *;
      try (apply bstr_eqb_neq in Hx; rewrite Hx); try (apply bstr_eqb_neq in Hy; rewrite Hy); change (bstr_eqb EPS EPS) with true; cbn [negb]; auto.
  - intros [-> ->]. induction l as [|[x y] l IH]; [constructor|]. cbn [map fst snd strip filter].
    destruct (bstr_eqb x EPS) eqn:Ex, (bstr_eqb y EPS) eqn:Ey; cbn [negb];
      try (apply bstr_eqb_eq in Ex; subst x); try (apply bstr_eqb_eq in Ey; subst y); try (apply bstr_eqb_neq in Ex); try (apply bstr_eqb_neq in Ey).
    + apply sd_none. exact IH.
    + apply sd_lower; assumption.
    + apply sd_upper; assumption.
    + apply sd_both; assumption.
Qed.
Lemma bd_code e c fl s : entry_ok fl c e -> In (s, s) (bd e) -> In dollar s -> exists r, e_body e = Regexp r.
Proof.
  intros K H D. destruct K. unfold bd in H. destruct (e_body e) as [u l|r]; [|eauto]. exfalso. unfold body_label in H. apply in_combine_l in H.
  apply in_map_iff in H. destruct H as (t & <- & Ht). unfold padded in Ht. apply in_app_or in Ht.
  destruct Ht as [Ht|Ht]; [|apply repeat_spec in Ht; subst t; exact (proj2 (plain_fix _ OTHER_plain) D)].
  destruct k_body as [B1 _]. rewrite Forall_forall in B1. exact (proj2 (plain_fix t (proj1 (B1 t Ht))) D).
Qed.
Lemma same_label fl e f : label fl e = label fl f -> e_lexicon e = e_lexicon f /\ e_continuation e = e_continuation f /\ bd e = bd f.
Proof.
  rewrite !label_bd. intros E. injection E as E1 _ E. apply nc_inj in E1. apply app_inj_tail in E. destruct E as [E2 E3].
  injection E3 as E3 _. apply cc_inj in E3. auto.
Qed.

(** Symbols that are left of a side. *)
Definition nl (s : bstr) : bool := negb (lexname_flag s).
Lemma lexname_iff s : lexname_flag s = true <-> lexname s.
Proof.
  unfold lexname_flag, lexname, starts. rewrite orb_true_iff.
  assert (P : forall p, length p = 10 -> (bstr_eqb (firstn 10 s) p = true <-> exists r, s = p ++ r)).
  { intros p L. rewrite bstr_eqb_eq. split.
    - intros E. exists (skipn 10 s). rewrite <- E. symmetry. apply firstn_skipn.
    - intros [r ->]. rewrite firstn_app, L. rewrite <- L at 1. rewrite firstn_all. replace (10 - 10) with 0 by lia. cbn [firstn]. apply app_nil_r. }
  rewrite (P (B "@P.LEXNAME") eq_refl), (P (B "@R.LEXNAME") eq_refl). reflexivity.
Qed.
Lemma nl_true s : nl s = true <-> ~ lexname s.
Proof. unfold nl. rewrite negb_true_iff. rewrite <- lexname_iff. destruct (lexname_flag s); intuition congruence. Qed.
Lemma erased_filter x y : erased x y <-> y = filter nl x.
Proof.
  split.
  - induction 1 as [|s x y H E ->|s x y H E ->]; [reflexivity| |]; cbn [filter].
    + unfold nl at 2. apply lexname_iff in H. rewrite H. reflexivity.
    + apply nl_true in H. rewrite H. reflexivity.
  - intros ->. induction x as [|s x IH]; [constructor|]. cbn [filter]. destruct (nl s) eqn:E.
    + apply er_keep; [apply nl_true; exact E|exact IH].
    + apply er_flag; [|exact IH]. apply lexname_iff. unfold nl in E. apply negb_false_iff in E. exact E.
Qed.
Lemma filter_flags_nl x : forall b, filter nl (filter_flags b x) = filter nl x.
Proof.
  induction x as [|s x IH]; intros b; [reflexivity|]. cbn [filter_flags filter]. unfold nl at 2. destruct (lexname_flag s) eqn:E; cbn [negb].
  - destruct b; [apply IH|]. cbn [filter]. unfold nl at 1. rewrite E. cbn [negb]. apply IH.
  - cbn [filter]. unfold nl at 1. rewrite E. cbn [negb]. f_equal. apply IH.
Qed.
Definition keep (fl : bool) (l : list bstr) : list bstr := if fl then filter nl (strip l) else strip l.
Lemma keep_app fl a b : keep fl (a ++ b) = keep fl a ++ keep fl b.
Proof. unfold keep. rewrite strip_app. destruct fl; [apply filter_app|reflexivity]. Qed.
Lemma keep_end fl n : keep fl [c_end fl n] = [] /\ keep fl [n_end fl n] = [].
Proof. destruct fl; split; reflexivity. Qed.
Lemma filter_all {T} (f : T -> bool) l : Forall (fun x => f x = true) l -> filter f l = l.
Proof. induction 1 as [|x l Hx Hl IH]; [reflexivity|]. cbn [filter]. rewrite Hx, IH. reflexivity. Qed.
Lemma keep_quiet fl l : (fl = true -> Forall (fun s => ~ lexname s) (strip l)) -> keep fl l = strip l.
Proof.
  unfold keep. destruct fl; [|reflexivity]. intros H. apply filter_all. eapply Forall_impl; [|exact (H eq_refl)]. intros s. apply nl_true.
Qed.

Section Relation.
  Variable fl sp : bool.
  Variable c : lexc.
  Variable G : list entry.
  Hypothesis I : inv fl sp c G.
  Hypothesis HU : Forall usable_entry G.
  Hypothesis HA : regexps_apart G.
  Hypothesis HF : fl = true -> Forall flag_free G.
  Notation A := (accepts (stringsTrie c)).
  Notation final_path := (final_path fl G).
  Notation placed := (placed G).

  Lemma literal_sides e u l : In e G -> e_body e = Literal u l ->
    strip (map fst (map sm2 (body_label u l))) = dn u /\ strip (map snd (map sm2 (body_label u l))) = dn l /\
    (forall x, denote u x <-> x = dn u) /\ (forall y, denote l y <-> y = dn l).
  Proof.
    intros He Eb. rewrite Forall_forall in HU. pose proof (HU e He) as U. unfold usable_entry in U. rewrite Eb in U.
    rewrite body_fst, body_snd. split; [apply (dn_padded (length l) u)|]. split; [apply (dn_padded (length u) l)|].
    split; intros; apply dn_denote; tauto.
  Qed.
  Lemma placed_quiet e b v : In e G -> placed e b v -> fl = true ->
    Forall (fun s => ~ lexname s) (strip (map fst b)) /\ Forall (fun s => ~ lexname s) (strip (map snd b)).
  Proof.
    intros He Hp Hf. specialize (HF Hf). rewrite Forall_forall in HF. unfold Lx_Proofs7.placed in Hp. destruct (e_body e) as [u l|r] eqn:Eb.
    - destruct Hp as [-> _]. destruct (literal_sides e u l He Eb) as (-> & -> & _). pose proof (HF e He) as Q. unfold flag_free in Q. rewrite Eb in Q.
      rewrite Forall_forall in HU. pose proof (HU e He) as U. unfold usable_entry in U. rewrite Eb in U.
      assert (D : forall ts, Forall usable ts -> Forall (fun t => ~ lexname (zeros t)) ts -> Forall (fun s => ~ lexname s) (dn ts)).
      { intros ts Hu Hq. apply Forall_forall. intros s Hs. unfold dn in Hs. apply filter_In in Hs. destruct Hs as [Hs Ne]. apply in_map_iff in Hs.
        destruct Hs as (t & <- & Ht). rewrite Forall_forall in Hu, Hq. destruct (silent_dec t) as [Sl|Sl]; [rewrite (sm_silent t Sl) in Ne; discriminate|].
        destruct (sm_loud t (Hu t Ht) Sl) as (-> & -> & _). auto. }
      split; apply D; tauto.
    - destruct Hp as (f & q & Hq & Ef & _ & Hr). pose proof (HF f Hq) as Q. unfold flag_free in Q. rewrite Ef in Q. specialize (Q b v Hr).
      rewrite Forall_forall in Q. split; apply Forall_forall; intros s Hs; unfold strip in Hs; apply filter_In in Hs; destruct Hs as [Hs _];
        apply in_map_iff in Hs; destruct Hs as (p & <- & Hs); apply (Q p Hs).
  Qed.
  Lemma placed_contributes e b v w : In e G -> A (label fl e) w -> placed e b v ->
    exists f, In f G /\ e_lexicon f = e_lexicon e /\ e_continuation f = e_continuation e /\
      contributes f (keep fl (map fst b)) (keep fl (map snd b)) (w + v)%Z.
  Proof.
    intros He Ha Hp. rewrite !keep_quiet by (intros Hf; apply (placed_quiet e b v He Hp Hf)).
    destruct (trie_sound _ _ _ _ _ _ I Ha) as (f & Hf & El & Ew). destruct (same_label _ _ _ El) as (E1 & E2 & E3).
    pose proof (i_G _ _ _ _ I e He) as Ke. pose proof (i_G _ _ _ _ I f Hf) as Kf.
    unfold Lx_Proofs7.placed in Hp. destruct (e_body e) as [u l|r] eqn:Eb.
    - destruct Hp as [-> ->]. exists f. split; [exact Hf|]. split; [auto|]. split; [auto|].
      assert (Ef : exists u' l', e_body f = Literal u' l').
      { destruct (e_body f) as [u' l'|q] eqn:Ef; [eauto|]. exfalso. destruct (bd_code e c fl (e_key f) Ke) as [r Er]; [|apply coded_dollar, (key_code _ _ _ Kf)|congruence].
        rewrite E3. unfold bd. rewrite Ef. left. reflexivity. }
      destruct Ef as (u' & l' & Ef). unfold contributes. rewrite Ef.
      assert (Eq : body_label u l = body_label u' l') by (unfold bd in E3; rewrite Eb, Ef in E3; exact E3). rewrite Eq.
      destruct (literal_sides f u' l' Hf Ef) as (-> & -> & D1 & D2). split; [apply D1; reflexivity|]. split; [apply D2; reflexivity|]. lia.
    - destruct Hp as (g & q & Hg & Eg & Kg & Hq).
      assert (Ef : exists q', e_body f = Regexp q').
      { apply (bd_code f c fl (e_key e) Kf); [|apply coded_dollar, (key_code _ _ _ Ke)]. rewrite <- E3. unfold bd. rewrite Eb. left. reflexivity. }
      destruct Ef as [q' Ef].
      assert (SK : forall x y, e_key x = e_key y -> same_key x y).
      { intros x y E. unfold e_key, regex_key, regExpresionEncode in E. apply app_inv_head in E. apply app_inv_tail in E. exact E. }
      destruct (HA g e q r Hg He Eg Eb (SK _ _ Kg)) as (L1 & L2 & L3).
      assert (KF : e_key f = e_key e) by (unfold e_key; rewrite E1, E2; reflexivity).
      destruct (HA f e q' r Hf He Ef Eb (SK _ _ KF)) as (_ & _ & L4).
      exists g. split; [exact Hg|]. split; [exact L1|]. split; [exact L2|]. unfold contributes. rewrite Eg. exists b, v.
      split; [exact Hq|]. split; [apply sides_strip; auto|]. rewrite Ew, L4, <- L3. reflexivity.
  Qed.
  Lemma final_sound es : Forall (fun e => In e G) es -> forall a l w0 w1, entries_of A fl es w0 -> final_path a es l w1 ->
    derives G a (keep fl (map fst l)) (keep fl (map snd l)) (w0 + w1)%Z.
  Proof.
    induction 1 as [|e es He Hes IH]; intros a l w0 w1 E F.
    - inversion E; subst. inversion F; subst. destruct (keep_end fl HASH) as [K1 K2].
      cbn [map fst snd both]. change [c_end fl HASH; n_end fl HASH] with ([c_end fl HASH] ++ [n_end fl HASH]). rewrite keep_app, K1, K2. apply dv_end.
    - inversion E as [|e' es' v0 w0' Ha E']; subst. inversion F as [|e' es' b v l' w1' Hp F']; subst.
      destruct (placed_contributes e b v v0 He Ha Hp) as (f & Hf & L1 & L2 & Hc). rewrite <- L1.
      destruct (keep_end fl (e_lexicon f)) as [K1 K2].
      assert (KE : forall l, keep fl (c_end fl (e_lexicon f) :: n_end fl (e_lexicon f) :: l) = keep fl l).
      { intros m. change (c_end fl (e_lexicon f) :: n_end fl (e_lexicon f) :: m) with ([c_end fl (e_lexicon f)] ++ [n_end fl (e_lexicon f)] ++ m).
        rewrite !keep_app, K1, K2. reflexivity. }
      cbn [map fst snd both]. rewrite !KE, !map_app, !keep_app.
      replace (v0 + w0' + (v + w1'))%Z with ((v0 + v) + (w0' + w1'))%Z by lia. apply dv_step; auto. rewrite L2. apply IH; assumption.
  Qed.
  Lemma final_complete a x y w : derives G a x y w -> exists es l w0 w1, Forall (fun e => In e G) es /\ entries_of A fl es w0 /\ final_path a es l w1 /\
    keep fl (map fst l) = x /\ keep fl (map snd l) = y /\ (w0 + w1 <= w)%Z.
  Proof.
    induction 1 as [|e x y w x' y' w' He Hc D (es & l & w0 & w1 & F & E & P & Kx & Ky & L)].
    - destruct (keep_end fl HASH) as [K1 K2]. exists [], [both (c_end fl HASH); both (n_end fl HASH)], 0%Z, 0%Z. split; [constructor|]. split; [constructor|]. split; [constructor|].
      cbn [map fst snd both]. change [c_end fl HASH; n_end fl HASH] with ([c_end fl HASH] ++ [n_end fl HASH]). rewrite keep_app, K1, K2. repeat split; lia.
    - destruct (trie_complete _ _ _ _ e I He) as (v0 & Lv & Ha).
      assert (Q : exists b v, placed e b v /\ strip (map fst b) = x /\ strip (map snd b) = y /\ (v0 + v <= w)%Z).
      { unfold contributes in Hc. unfold Lx_Proofs7.placed. destruct (e_body e) as [u m|r] eqn:Eb.
        - destruct Hc as (Du & Dm & ->). destruct (literal_sides e u m He Eb) as (S1 & S2 & D1 & D2). exists (map sm2 (body_label u m)), 0%Z.
          split; [auto|]. rewrite S1, S2. split; [symmetry; apply D1; exact Du|]. split; [symmetry; apply D2; exact Dm|lia].
        - destruct Hc as (b & v & Hr & Sd & ->). apply sides_strip in Sd. destruct Sd as [-> ->]. exists b, v. split; [exists e, r; auto|]. repeat split. lia. }
      destruct Q as (b & v & Hp & Sx & Sy & Lw). destruct (keep_end fl (e_lexicon e)) as [K1 K2].
      exists (e :: es), (both (c_end fl (e_lexicon e)) :: both (n_end fl (e_lexicon e)) :: b ++ l), (v0 + w0)%Z, (v + w1)%Z.
      split; [constructor; assumption|]. split; [constructor; assumption|]. split; [constructor; assumption|].
      assert (KE : forall l, keep fl (c_end fl (e_lexicon e) :: n_end fl (e_lexicon e) :: l) = keep fl l).
      { intros m. change (c_end fl (e_lexicon e) :: n_end fl (e_lexicon e) :: m) with ([c_end fl (e_lexicon e)] ++ [n_end fl (e_lexicon e)] ++ m).
        rewrite !keep_app, K1, K2. reflexivity. }
      cbn [map fst snd both]. rewrite !KE, !map_app, !keep_app, Kx, Ky.
      rewrite !keep_quiet by (intros Hf; apply (placed_quiet e b v He Hp Hf)). rewrite Sx, Sy. repeat split. lia.
  Qed.

  (** In flags mode every run of flags of lexicon names begins with a P flag. *)
  Definition positive (s : bstr) : Prop := lexname s -> exists n, s = B "@P.LEXNAME." ++ n ++ B "@".
  Lemma filter_quiet b bs r : Forall (fun s => ~ lexname s) bs -> filter_flags b (bs ++ r) = match bs with [] => filter_flags b r | _ => bs ++ filter_flags false r end.
  Proof.
    intros H. destruct H as [|s bs Hs Hb]; [reflexivity|]. cbn [app filter_flags]. rewrite <- lexname_iff in Hs. apply not_true_is_false in Hs. rewrite Hs. f_equal.
    induction Hb as [|s' bs Hs' Hb IH]; [reflexivity|]. cbn [app filter_flags]. rewrite <- lexname_iff in Hs'. apply not_true_is_false in Hs'. rewrite Hs'. f_equal. exact IH.
  Qed.
  Lemma final_positive (sel : bstr * bstr -> bstr) : (forall s, sel (both s) = s) -> (sel = fst \/ sel = snd) -> fl = true ->
    forall a es l w, Forall (fun e => In e G) es -> final_path a es l w -> forall b, Forall positive (filter_flags b (strip (map sel l))).
  Proof.
    intros Hs Sel Hf a es l w F P. induction P as [|e es bd v l w Hp P IH]; intros b.
    - cbn [map]. rewrite !Hs, Hf. destruct b; cbn; [constructor|]. constructor; [|constructor]. intros _. exists HASH. reflexivity.
    - apply Forall_cons_iff in F. destruct F as [He Fe]. cbn [map]. rewrite !Hs. unfold c_end, n_end. rewrite Hf.
      set (N := e_lexicon e). cbn [app strip filter bstr_eqb]. 
      assert (N1 : negb (bstr_eqb (B "@P.LEXNAME." ++ N ++ B "@") EPS) = true) by (apply negb_true_iff, bstr_eqb_neq; discriminate).
      assert (N2 : negb (bstr_eqb (B "@R.LEXNAME." ++ N ++ B "@") EPS) = true) by (apply negb_true_iff, bstr_eqb_neq; discriminate).
      change (Forall positive (filter_flags b (strip ((B "@P.LEXNAME." ++ N ++ B "@") :: (B "@R.LEXNAME." ++ N ++ B "@") :: map sel (bd ++ l))))).
      unfold strip. cbn [filter]. rewrite N1, N2. fold (strip (map sel (bd ++ l))). rewrite map_app, strip_app.
      assert (Q : Forall (fun s => ~ lexname s) (strip (map sel bd))) by (destruct (placed_quiet e bd v He Hp Hf); destruct Sel as [-> | ->]; assumption).
      assert (R : Forall positive (filter_flags true (strip (map sel bd) ++ strip (map sel l)))).
      { rewrite filter_quiet by exact Q. destruct (strip (map sel bd)) as [|s bs]; [apply IH; exact Fe|].
        apply Forall_app. split; [|apply IH; exact Fe]. eapply Forall_impl; [|exact Q]. intros t Ht K. contradiction. }
      cbn [filter_flags].
      assert (LP : lexname_flag (B "@P.LEXNAME." ++ N ++ B "@") = true) by reflexivity. assert (LR : lexname_flag (B "@R.LEXNAME." ++ N ++ B "@") = true) by reflexivity.
      rewrite LP, LR. destruct b; [exact R|]. constructor; [|exact R]. intros _. exists N. reflexivity.
  Qed.
End Relation.

(** compileLexical returns. *)
Lemma tokens_total gr u8 c s : (forall x, x <> [] -> utf8 x -> exists c r, x = c ++ r /\ length c = gr x /\ utf8 c /\ c <> []) ->
  (forall s, utf8 s -> u8 s = true) -> (forall w, In w (known c) -> text w) -> utf8 s -> exists v, tokens gr u8 c false s = Ok v.
Proof.
  intros Hgr Hu HK U. destruct (level_spec gr u8 Hgr c false s HK U (Hu s U)) as (t & ts & E1 & E2 & _).
  unfold tokens. rewrite E1. cbn [rbind]. unfold tokenize. rewrite E2. eexists. reflexivity.
Qed.
Lemma compile_total gr u8 fl sp c G : (forall x, x <> [] -> utf8 x -> exists c r, x = c ++ r /\ length c = gr x /\ utf8 c /\ c <> []) ->
  (forall s, utf8 s -> u8 s = true) -> inv fl sp c G -> exists P, compile_paths gr u8 c = Ok P.
Proof.
  intros Hgr Hu I. pose proof (i_init _ _ _ _ I) as Ni.
  assert (HK : forall w, In w (known c) -> text w) by (intros w K; apply (i_text _ _ _ _ I w K)).
  assert (J : forall c' ns, (forall w, In w (known c') -> text w) -> (forall n, In n ns -> name n) -> exists ws, joiner_words gr u8 c' (cc fl) (nc fl) ns = Ok ws).
  { intros c' ns HK' Hn. induction ns as [|n ns IH]; [eexists; reflexivity|]. cbn [joiner_words].
    assert (Nn : name n) by (apply Hn; left; reflexivity).
    destruct (tokens_total gr u8 c' (cc fl n ++ nc fl n) Hgr Hu HK') as [v ->]; [apply utf8_app; [apply cc_text|apply nc_text]; exact Nn|].
    destruct IH as [ws ->]; [intros m Hm; apply Hn; right; exact Hm|]. eexists. reflexivity. }
  assert (HK1 : forall w, In w (known (c1 fl c)) -> text w) by (intros w K; apply (i_text _ _ _ _ (ext_inv _ _ _ _ _ (ext_c1 fl sp c G I) I) w K)).
  destruct (tokens_total gr u8 c (cc fl (initialName c)) Hgr Hu HK) as [v1 E1]; [apply cc_text; exact Ni|].
  destruct (tokens_total gr u8 (c1 fl c) (nc fl HASH) Hgr Hu HK1) as [v2 E2]; [apply nc_text, hash_name|].
  destruct (J (c1 fl c) (lexiconNames c) HK1 (i_names _ _ _ _ I)) as [ws E3].
  unfold compile_paths. cbv zeta. rewrite (i_fl _ _ _ _ I). unfold c1 in *. destruct fl; cbn [cc nc] in *.
  - rewrite E1. cbn [rbind]. rewrite E2. cbn [rbind]. change (joiner_words gr u8 _ (fun n => flagJoinerEncode n false) (fun n => flagJoinerEncode n true)) with (joiner_words gr u8 (add_known (flagJoinerEncode HASH true) (add_known (flagJoinerEncode HASH false) c)) (cc true) (nc true)).
    rewrite E3. cbn [rbind]. eexists. reflexivity.
  - rewrite E1. cbn [rbind]. rewrite E2. cbn [rbind]. change (joiner_words gr u8 c joinerEncode joinerEncode) with (joiner_words gr u8 c (cc false) (nc false)). rewrite E3. cbn [rbind]. eexists. reflexivity.
Qed.
