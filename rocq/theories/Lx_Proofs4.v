(** Proofs for lexc, part 4: what the calls of a session collect (continued). *)
From Verif Require Import Base OrdMap BT_Model BT_Spec Tok_Model Tok_Spec Tok_Proofs Str_Model Str_Spec Str_Proofs2 Lx_Model Lx_Spec Lx_Proofs Lx_Proofs2 Lx_Proofs3.

Lemma finish fl sp c G e c2 m t : inv fl sp c G -> ext c c2 -> entry_ok fl c2 e -> collected (G ++ [e]) m ->
  disjunct (stringsTrie c2) (label fl e) (e_weight e) = Ok t -> inv fl sp (set_trie t (set_regexps m c2)) (G ++ [e]).
Proof.
  intros I E K R D. pose proof (ext_inv _ _ _ _ _ E I) as I2. destruct I2. constructor; cbn; auto.
  - intros e' H. apply in_app_or in H. destruct H as [H|[<-|[]]].
    + destruct (i_G e' H). constructor; cbn; auto.
    + destruct K. constructor; cbn; auto.
  - rewrite map_app. cbn [map]. unfold stored at 2. rewrite disjuncts_snoc, i_trie. cbn [rbind]. exact D.
Qed.
Lemma collected_literal G e m u l : collected G m -> e_body e = Literal u l -> collected (G ++ [e]) m.
Proof.
  intros C Eb k. specialize (C k). destruct (mget bcmp k m) as [L|].
  - destruct C as [(e1 & r1 & H1 & H2 & H3) C]. split.
    + exists e1, r1. split; [apply in_or_app; auto|auto].
    + intros p v. rewrite C. split; intros (e' & r & H & B & K & Hr); exists e', r; (split; [|auto]).
      * apply in_or_app; auto.
      * apply in_app_or in H. destruct H as [H|[<-|[]]]; [auto|congruence].
  - intros e' r H B. apply in_app_or in H. destruct H as [H|[<-|[]]]; [eauto|congruence].
Qed.
Lemma collected_regexp G e m r : collected G m -> e_body e = Regexp r ->
  collected (G ++ [e]) (mset bcmp (e_key e) (w_or (match mget bcmp (e_key e) m with Some o => o | None => fun _ _ => False end) r) m).
Proof.
  intros C Eb k. destruct (bstr_eq_dec k (e_key e)) as [->|N].
  - rewrite (mget_mset_same _ bcmp_eq). split; [exists e, r; split; [apply in_or_app; right; left; reflexivity|auto]|].
    intros p v. unfold w_or. specialize (C (e_key e)). destruct (mget bcmp (e_key e) m) as [o|].
    + rewrite (proj2 C). split.
      * intros [(e' & q & H & B & K & Hr)|H]; [exists e', q; split; [apply in_or_app; auto|auto]|].
        exists e, r. split; [apply in_or_app; right; left; reflexivity|auto].
      * intros (e' & q & H & B & K & Hr). apply in_app_or in H. destruct H as [H|[<-|[]]]; [left; eauto 6|right; congruence].
    + split.
      * intros [[]|H]. exists e, r. split; [apply in_or_app; right; left; reflexivity|auto].
      * intros (e' & q & H & B & K & Hr). apply in_app_or in H. destruct H as [H|[<-|[]]]; [destruct (C e' q H B K)|right; congruence].
  - rewrite (mget_mset_other _ bcmp_eq) by congruence. specialize (C k). destruct (mget bcmp k m) as [L|].
    + destruct C as [(e1 & r1 & H1 & H2 & H3) C]. split.
      * exists e1, r1. split; [apply in_or_app; auto|auto].
      * intros p v. rewrite C. split; intros (e' & q & H & B & K & Hr); exists e', q; (split; [|auto]).
        -- apply in_or_app; auto.
        -- apply in_app_or in H. destruct H as [H|[<-|[]]]; [auto|congruence].
    + intros e' q H B. apply in_app_or in H. destruct H as [H|[<-|[]]]; [eauto|congruence].
Qed.

Lemma combine_snoc {A B} (a : list A) (b : list B) x y : length a = length b -> combine (a ++ [x]) (b ++ [y]) = combine a b ++ [(x, y)].
Proof.
  revert b. induction a as [|p a IH]; intros [|q b] L; try discriminate; [reflexivity|]. cbn [app combine]. f_equal. apply IH. injection L as L. exact L.
Qed.
Lemma combine_map_fix a b : map fix_pair (combine a b) = combine (map fix_zero a) (map fix_zero b).
Proof. revert b. induction a as [|p a IH]; intros [|q b]; try reflexivity. cbn [combine map]. f_equal. apply IH. Qed.
Lemma dup_combine (a : list bstr) : combine a a = dup a.
Proof. induction a as [|p a IH]; [reflexivity|]. cbn [combine dup map]. f_equal. exact IH. Qed.
Lemma padded_length n ts : length (padded n ts) = max (length ts) n.
Proof. unfold padded. rewrite app_length, repeat_length. lia. Qed.
Lemma coded_not_zero w : coded w -> w <> B "0".
Proof. intros (b & -> & _). discriminate. Qed.
Lemma fix_nc fl n : name n -> fix_zero (nc fl n) = nc fl n.
Proof. intros H. apply fix_no_at; [apply nc_no_at; exact H|apply coded_not_zero, nc_coded, H]. Qed.
Lemma fix_cc fl n : name n -> fix_zero (cc fl n) = cc fl n.
Proof. intros H. apply fix_no_at; [apply cc_no_at; exact H|apply coded_not_zero, cc_coded, H]. Qed.
Lemma label_literal fl e us ls : name (e_lexicon e) -> name (e_continuation e) -> e_body e = Literal us ls ->
  map fix_pair (combine (nc fl (e_lexicon e) :: padded (length ls) us ++ [cc fl (e_continuation e)])
                        (nc fl (e_lexicon e) :: padded (length us) ls ++ [cc fl (e_continuation e)])) = label fl e.
Proof.
  intros Hn Hk B. rewrite combine_map_fix. unfold label. rewrite B. cbn [map]. rewrite !map_app. cbn [map]. rewrite fix_nc, fix_cc by assumption.
  cbn [combine]. rewrite combine_snoc; [reflexivity|]. rewrite !map_length, !padded_length. lia.
Qed.
Lemma code_noted w : coded w -> fix_zero w = w -> quoted "$" (fix_zero w) = false -> plain (fix_zero w).
Proof. intros H ->. rewrite (coded_quoted w H). discriminate. Qed.
Lemma good_noted t : good_token t -> quoted "$" (fix_zero t) = false -> plain (fix_zero t).
Proof. intros [H _] _. apply plain_fix, H. Qed.
Lemma noted_label v w : Forall (fun t => quoted "$" (fix_zero t) = false -> plain (fix_zero t)) v ->
  Forall (fun t => quoted "$" (fix_zero t) = false -> plain (fix_zero t)) w -> Forall noted (map fix_pair (combine v w)).
Proof.
  intros Hv. revert w. induction Hv as [|x v Hx Hv IH]; intros w Hw; [constructor|]. destruct Hw as [|y w Hy Hw]; [constructor|].
  cbn [combine map]. constructor; [split; assumption|auto].
Qed.

Section Calls.
  Variable gr : bstr -> nat.
  Variable u8 : bstr -> bool.
  Variable cl : bstr -> list bstr.
  Hypothesis Hicu : icu gr cl.
  Notation Hgr := (proj1 Hicu).

  (** Data, padding, code. *)
  Lemma seg_padding (S : bstr -> Prop) sp d w n : (forall v, S v -> shape v /\ v <> []) -> coded w -> S w -> S OTHER_EPS ->
    (forall v, S v -> ~ In dollar v -> starts OTHER_EPS v -> v = OTHER_EPS) ->
    segmentation S (character gr sp) (concat (repeat OTHER_EPS n) ++ w) (repeat OTHER_EPS n ++ [w]) /\ (d = d :> bstr).
  Proof.
    intros HS Hc Hw Ho HO. split; [|reflexivity]. induction n as [|n IH]; cbn [repeat concat app].
    - apply seg_end; auto.
    - rewrite <- app_assoc. apply seg_sym; [|exact IH]. split; [exact Ho|]. split; [eexists; reflexivity|].
      intros v Hv [r P]. destruct (HS v Hv) as [Sh Ne].
      assert (Dv : ~ In dollar v).
      { intros K. assert (B0 : exists b, v = dollar :: b) by (destruct Sh as [K'|[(b & -> & _)|(b & ->)]]; [contradiction|eexists; reflexivity|eexists; reflexivity]).
        destruct B0 as [b ->]. change OTHER_EPS with ("@"%char :: B "@ANOTHER_EPSILON@@") in P. cbn [app] in P. injection P as E _. discriminate E. }
      destruct (Nat.le_gt_cases (length v) (length OTHER_EPS)) as [L|L]; [exact L|].
      rewrite (HO v Hv Dv); [lia|]. exists (skipn (length OTHER_EPS) v).
      assert (E : firstn (length OTHER_EPS) v = OTHER_EPS).
      { assert (E : firstn (length OTHER_EPS) (v ++ r) = OTHER_EPS) by (rewrite <- P, firstn_app, firstn_all, Nat.sub_diag; reflexivity).
        rewrite firstn_app in E. replace (length OTHER_EPS - length v) with 0 in E by lia. cbn [firstn] in E. rewrite app_nil_r in E. exact E. }
      rewrite <- E at 1. symmetry. apply firstn_skipn.
  Qed.
  Lemma seg_side (S : bstr -> Prop) sp d ts w n : (forall v, S v -> shape v /\ v <> []) -> coded w -> S w -> plain d ->
    segmentation S (character gr sp) d ts -> ends_before gr sp d (B "$") ->
    (n <> 0 -> S OTHER_EPS /\ ends_before gr sp d OTHER_EPS /\ no_overlap (fun v => S v /\ ~ In dollar v) d OTHER_EPS) ->
    segmentation S (character gr sp) (d ++ padding n ++ w) (ts ++ repeat OTHER_EPS n ++ [w]).
  Proof.
    intros HS Hc Hw Pd Sg E1 Hn. destruct n as [|n].
    - cbn [padding repeat concat app]. pose proof Hc as (b & Ew & _). unfold padding. cbn [repeat concat app].
      eapply seg_body with (f := b ++ [dollar]); eauto; [rewrite <- Ew; apply seg_end; auto].
    - destruct Hn as (Ho & E2 & O1 & O2); [discriminate|].
      assert (HO : forall v, S v -> ~ In dollar v -> starts OTHER_EPS v -> v = OTHER_EPS) by (intros v H1 H2 H3; apply O2; auto).
      destruct (seg_padding S sp d w (Datatypes.S n) HS Hc Hw Ho HO) as [Sp _].
      apply seg_app; auto; [intros v Hv; exact (proj2 (HS v Hv))|]. intros p q E Nq. unfold padding. cbn [repeat concat]. rewrite <- app_assoc. split.
      + intros v Hv P. apply (O1 p q (concat (repeat OTHER_EPS n) ++ w) v E Nq); [split; [exact Hv|]|exact P].
        intros K. destruct (HS v Hv) as [Sh _].
        assert (B0 : exists b, v = dollar :: b) by (destruct Sh as [K'|[(b & -> & _)|(b & ->)]]; [contradiction|eexists; reflexivity|eexists; reflexivity]).
        destruct B0 as [b ->]. destruct P as [r P]. destruct q as [|x q]; [congruence|]. cbn [app] in P. injection P as -> _.
        destruct Pd as [_ Pd]. apply Pd. rewrite E. apply in_or_app. right. left. reflexivity.
      + intros Hs. exact (E2 Hs p q (concat (repeat OTHER_EPS n) ++ w) E Nq).
  Qed.

  Lemma current_in fl sp c G : inv fl sp c G -> name (currentName c) -> In (currentName c) (lexiconNames c) /\ (fl = true -> In (cc fl (currentName c)) (known c)).
  Proof. intros I (_ & N & _). destruct (i_cur _ _ _ _ I) as [H|H]; [contradiction|exact H]. Qed.
  Lemma literal_ok fl sp c c2 G us ls k w : inv fl sp c G -> ext c c2 -> name (currentName c) -> name k ->
    In (nc fl (currentName c)) (known c2) -> In (cc fl k) (known c2) -> Forall good_token us -> Forall good_token ls ->
    entry_ok fl c2 (Entry (currentName c) (Literal us ls) k w).
  Proof.
    intros I E Hn Hk K1 K2 F1 F2. destruct (current_in _ _ _ _ I Hn) as [Q1 Q2]. constructor; cbn [e_lexicon e_continuation e_body]; auto.
    - rewrite (x_names _ _ E). exact Q1.
    - destruct fl; [apply (ext_incl _ _ E), Q2; reflexivity|exact K1].
  Qed.

  Lemma word_inv fl sp c G d k w ts c' : inv fl sp c G -> name (currentName c) -> name k -> plain d -> ends_before gr sp d (B "$") ->
    cut_into gr cl c [d] d ts -> addStringEntry gr u8 cl d k w c = Ok c' ->
    inv fl sp c' (G ++ [Entry (currentName c) (Literal ts ts) k w]).
  Proof.
    intros I Hn Hk Pd Ed Cut H.
    destruct (uc_spec gr u8 cl Hicu d c Pd (i_alpha _ _ _ _ I)) as [X1 K1].
    pose proof (ext_inv _ _ _ _ _ X1 I) as I1.
    assert (Hn1 : name (currentName (unicodeCheck cl d c))) by (rewrite (x_cur _ _ X1); exact Hn).
    destruct (begin_spec fl sp _ G k I1 Hn1 Hk) as [X2 K2]. rewrite (x_cur _ _ X1) in K2.
    pose proof (ext_trans _ _ _ X1 X2) as X. pose proof (ext_inv _ _ _ _ _ X I) as I2.
    unfold addStringEntry in H. set (c2 := begin_entry k (unicodeCheck cl d c)) in *. cbv zeta in H.
    rewrite (nc_code _ _ _ _ _ I2), (cc_code _ _ _ _ _ I2), (x_cur _ _ X), (i_sp _ _ _ _ I2) in H.
    set (N := nc fl (currentName c)) in *. set (K := cc fl k) in *.
    assert (KN : knows c2 N) by (split; [destruct (nc_coded fl _ Hn) as (b & E & _); unfold N; rewrite E; discriminate|rewrite K2; apply in_or_app; right; cbn; auto]).
    assert (KK : knows c2 K) by (split; [destruct (cc_coded fl _ Hk) as (b & E & _); unfold K; rewrite E; discriminate|rewrite K2; apply in_or_app; right; cbn; auto]).
    assert (Sd : segmentation (knows c2) (character gr sp) d ts).
    { unfold cut_into in Cut. rewrite (i_sp _ _ _ _ I) in Cut. eapply seg_ext; [exact Cut|]. intros v a b E.
      apply (knows_sees u8 cl fl c c2 [d] k (currentName c) Hk Hn).
      - intros z. rewrite K2, in_app_iff, K1. cbn [In]. intuition (subst; eauto).  destruct H2 as (d' & [<-|[]] & Q); auto.
      - apply (plain_infix a v b). rewrite <- E. exact Pd. }
    assert (Sg : segmentation (knows c2) (character gr sp) (N ++ d ++ K) (N :: ts ++ [K])).
    { apply seg_code; [apply nc_coded; exact Hn|exact KN|intros v Hv; eapply inv_knows; eauto|].
      apply (seg_side (knows c2) sp d ts K 0); auto; [intros v Hv; eapply inv_knows; eauto|apply cc_coded; exact Hk|congruence]. }
    destruct (tokens gr u8 c2 sp (N ++ d ++ K)) as [v| | |] eqn:T; try discriminate. cbn [rbind] in H.
    assert (U : utf8 (N ++ d ++ K)) by (apply utf8_app; [apply nc_text; exact Hn|apply utf8_app; [apply Pd|apply cc_text; exact Hk]]).
    rewrite (tokens_as gr u8 Hgr c2 sp _ v _ (known_text _ _ _ _ I2) U T Sg) in H. clear T v.
    pose proof (tokens_good gr cl Hicu fl sp c2 G d ts I2 Pd Sd) as Gd.
    set (e := Entry (currentName c) (Literal ts ts) k w).
    assert (El : map fix_pair (dup (N :: ts ++ [K])) = label fl e).
    { rewrite <- (label_literal fl e ts ts Hn Hk eq_refl). unfold padded. rewrite Nat.sub_diag. cbn [repeat]. rewrite app_nil_r, dup_combine. reflexivity. }
    assert (Nt : Forall noted (map fix_pair (dup (N :: ts ++ [K])))).
    { rewrite <- dup_combine. assert (F : Forall (fun t => quoted "$" (fix_zero t) = false -> plain (fix_zero t)) (N :: ts ++ [K])).
      { constructor; [apply code_noted; [apply nc_coded; exact Hn|apply fix_nc; exact Hn]|]. apply Forall_app. split.
        - eapply Forall_impl; [|exact Gd]. intros t. apply good_noted.
        - constructor; [|constructor]. apply code_noted; [apply cc_coded; exact Hk|apply fix_cc; exact Hk]. }
      apply noted_label; exact F. }
    pose proof (ext_notes note_input _ ext_note_input Nt c2) as X3. rewrite El in *.
    set (c3 := fold_left (fun c0 p => note_input p c0) (label fl e) c2) in *.
    pose proof (ext_trans _ _ _ X X3) as X4.
    destruct (disjunct (stringsTrie c3) (label fl e) w) as [t| | |] eqn:D; try discriminate. cbn [rmap] in H. injection H as <-.
    replace (set_trie t c3) with (set_trie t (set_regexps (regexps c3) c3)) by (destruct c3; reflexivity).
    eapply finish; eauto.
    - eapply literal_ok; eauto; apply (ext_incl _ _ X3); [apply KN|apply KK].
    - eapply collected_literal; [|reflexivity]. rewrite (x_reg _ _ X4). apply I.
  Qed.

  Lemma pair_inv fl sp c G u l k w us ls c' : inv fl sp c G -> name (currentName c) -> name k -> plain u -> plain l ->
    ends_before gr sp u (B "$") -> ends_before gr sp l (B "$") -> ends_before gr sp u OTHER_EPS -> ends_before gr sp l OTHER_EPS ->
    no_overlap (sees cl c [u; l]) u OTHER_EPS -> no_overlap (sees cl c [u; l]) l OTHER_EPS ->
    cut_into gr cl c [u; l] u us -> cut_into gr cl c [u; l] l ls -> addStringPairEntry gr u8 cl u l k w c = Ok c' ->
    inv fl sp c' (G ++ [Entry (currentName c) (Literal us ls) k w]).
  Proof.
    intros I Hn Hk Pu Pl Eu1 El1 Eu2 El2 Ou Ol Cu Cl H.
    destruct (uc_spec gr u8 cl Hicu u c Pu (i_alpha _ _ _ _ I)) as [X0 K0].
    pose proof (ext_inv _ _ _ _ _ X0 I) as I0.
    destruct (uc_spec gr u8 cl Hicu l _ Pl (i_alpha _ _ _ _ I0)) as [X0' K1].
    pose proof (ext_trans _ _ _ X0 X0') as X1.
    pose proof (ext_inv _ _ _ _ _ X1 I) as I1. set (c1 := unicodeCheck cl l (unicodeCheck cl u c)) in *.
    assert (Hn1 : name (currentName c1)) by (rewrite (x_cur _ _ X1); exact Hn).
    destruct (begin_spec fl sp _ G k I1 Hn1 Hk) as [X2 K2]. rewrite (x_cur _ _ X1) in K2.
    pose proof (ext_trans _ _ _ X1 X2) as X. pose proof (ext_inv _ _ _ _ _ X I) as I2.
    unfold addStringPairEntry in H. fold c1 in H. set (c2 := begin_entry k c1) in *. cbv zeta in H.
    rewrite (nc_code _ _ _ _ _ I2), (cc_code _ _ _ _ _ I2), (x_cur _ _ X), (i_sp _ _ _ _ I2) in H.
    set (N := nc fl (currentName c)) in *. set (K := cc fl k) in *.
    assert (KN : knows c2 N) by (split; [destruct (nc_coded fl _ Hn) as (b & E & _); unfold N; rewrite E; discriminate|rewrite K2; apply in_or_app; right; cbn; auto]).
    assert (KK : knows c2 K) by (split; [destruct (cc_coded fl _ Hk) as (b & E & _); unfold K; rewrite E; discriminate|rewrite K2; apply in_or_app; right; cbn; auto]).
    assert (KO : knows c2 OTHER_EPS) by (split; [discriminate|apply (i_start _ _ _ _ I2); cbn; auto 6]).
    assert (SK : forall v, ~ In dollar v -> (sees cl c [u; l] v <-> knows c2 v)).
    { apply (knows_sees u8 cl fl c c2 [u; l] k (currentName c) Hk Hn). intros z. rewrite K2, in_app_iff, K1, K0, (x_sp _ _ X0). cbn [In].
      assert (Q : (exists d, (u = d \/ l = d \/ False) /\ In z (cl d)) <-> In z (cl u) \/ In z (cl l)).
      { split; [intros (d & [<-|[<-|[]]] & Q); auto|intros [Q|Q]; eauto]. }
      rewrite Q. tauto. }
    assert (Sg : forall d ts, plain d -> cut_into gr cl c [u; l] d ts -> segmentation (knows c2) (character gr sp) d ts).
    { intros d ts Pd Cut. unfold cut_into in Cut. rewrite (i_sp _ _ _ _ I) in Cut. eapply seg_ext; [exact Cut|]. intros v a b E.
      apply SK. apply (plain_infix a v b). rewrite <- E. exact Pd. }
    assert (NO : forall d, no_overlap (sees cl c [u; l]) d OTHER_EPS -> no_overlap (fun v => knows c2 v /\ ~ In dollar v) d OTHER_EPS).
    { intros d [O1 O2]. split.
      - intros p q r v E Nq [Hv Dv]. apply (O1 p q r v E Nq). apply SK; auto.
      - intros v [Hv Dv]. apply O2. apply SK; auto. }
    assert (U : forall d, plain d -> utf8 d) by (intros d Pd; apply Pd).
    pose proof (Sg u us Pu Cu) as Su. pose proof (Sg l ls Pl Cl) as Sl.
    destruct (tokens gr u8 c2 sp u) as [vu| | |] eqn:Tu; try discriminate. cbn [rbind] in H.
    rewrite (tokens_as gr u8 Hgr c2 sp _ vu _ (known_text _ _ _ _ I2) (U u Pu) Tu Su) in H. clear Tu vu.
    destruct (tokens gr u8 c2 sp l) as [vl| | |] eqn:Tl; try discriminate. cbn [rbind] in H.
    rewrite (tokens_as gr u8 Hgr c2 sp _ vl _ (known_text _ _ _ _ I2) (U l Pl) Tl Sl) in H. clear Tl vl.
    unfold dup in H. rewrite !map_length in H.
    assert (Sfull : forall d ts n, plain d -> segmentation (knows c2) (character gr sp) d ts -> ends_before gr sp d (B "$") -> ends_before gr sp d OTHER_EPS ->
      no_overlap (sees cl c [u; l]) d OTHER_EPS ->
      segmentation (knows c2) (character gr sp) (N ++ d ++ padding n ++ K) (N :: ts ++ repeat OTHER_EPS n ++ [K])).
    { intros d ts n Pd Sd E1 E2 O. apply seg_code; [apply nc_coded; exact Hn|exact KN|intros v Hv; eapply inv_knows; eauto|].
      apply (seg_side (knows c2) sp d ts K n); auto; [intros v Hv; eapply inv_knows; eauto|apply cc_coded; exact Hk]. }
    assert (PU : forall n, utf8 (padding n)).
    { intros n. unfold padding. induction n as [|n IH]; [apply utf8_nil|]. cbn [repeat concat]. apply utf8_app; [apply U, OTHER_plain|exact IH]. }
    assert (UF : forall d n, plain d -> utf8 (N ++ d ++ padding n ++ K)).
    { intros d n Pd. apply utf8_app; [apply nc_text; exact Hn|]. apply utf8_app; [auto|]. apply utf8_app; [auto|]. apply cc_text; exact Hk. }
    destruct (pair_tokens _ _ c2 sp _ _) as [v| | |] eqn:T; try discriminate. cbn [rbind] in H.
    set (e := Entry (currentName c) (Literal us ls) k w).
    pose proof (tokens_good gr cl Hicu fl sp c2 G u us I2 Pu Su) as Gu. pose proof (tokens_good gr cl Hicu fl sp c2 G l ls I2 Pl Sl) as Gl.
    rewrite (pair_tokens_as gr u8 Hgr c2 sp _ _ v _ _ (known_text _ _ _ _ I2) (UF u _ Pu) (UF l _ Pl) T
              (Sfull u us _ Pu Su Eu1 Eu2 Ou) (Sfull l ls _ Pl Sl El1 El2 Ol)) in H; [|cbn [length]; rewrite !app_length, !repeat_length; lia].
    assert (El : map fix_pair (combine (N :: us ++ repeat OTHER_EPS (length ls - length us) ++ [K]) (N :: ls ++ repeat OTHER_EPS (length us - length ls) ++ [K])) = label fl e).
    { rewrite <- (label_literal fl e us ls Hn Hk eq_refl). unfold padded. rewrite <- !app_assoc. reflexivity. }
    assert (Nt : Forall noted (map fix_pair (combine (N :: us ++ repeat OTHER_EPS (length ls - length us) ++ [K]) (N :: ls ++ repeat OTHER_EPS (length us - length ls) ++ [K])))).
    { assert (F : forall ts n, Forall good_token ts -> Forall (fun t => quoted "$" (fix_zero t) = false -> plain (fix_zero t)) (N :: ts ++ repeat OTHER_EPS n ++ [K])).
      { intros ts n Gd. constructor; [apply code_noted; [apply nc_coded; exact Hn|apply fix_nc; exact Hn]|]. apply Forall_app. split.
        - eapply Forall_impl; [|exact Gd]. intros t. apply good_noted.
        - apply Forall_app. split; [|constructor; [|constructor]; apply code_noted; [apply cc_coded; exact Hk|apply fix_cc; exact Hk]].
          apply Forall_forall. intros t Ht. apply repeat_spec in Ht. rewrite Ht. intros _. apply plain_fix, OTHER_plain. }
      apply noted_label; apply F; assumption. }
    clear T v. pose proof (ext_notes note_pair _ ext_note_pair Nt c2) as X3. rewrite El in *.
    set (c3 := fold_left (fun c0 p => note_pair p c0) (label fl e) c2) in *.
    pose proof (ext_trans _ _ _ X X3) as X4.
    destruct (disjunct (stringsTrie c3) (label fl e) w) as [t| | |] eqn:D; try discriminate. cbn [rmap] in H. injection H as <-.
    replace (set_trie t c3) with (set_trie t (set_regexps (regexps c3) c3)) by (destruct c3; reflexivity).
    eapply finish; eauto.
    - eapply literal_ok; eauto; apply (ext_incl _ _ X3); [apply KN|apply KK].
    - eapply collected_literal; [|reflexivity]. rewrite (x_reg _ _ X4). apply I.
  Qed.

  Lemma alpha_fold a : Forall plain a -> forall c,
    ext c (fold_left (fun c s => if smem bcmp s (alphabets c) then c
                                 else if bstr_eqb s EPS || bstr_eqb s UNK || bstr_eqb s IDN then c
                                 else addAlphabet s c) a c).
  Proof.
    induction 1 as [|s a Hs Ha IH]; intros c; [apply ext_refl|]. cbn [fold_left]. eapply ext_trans; [|apply IH].
    destruct (smem bcmp s (alphabets c)); [apply ext_refl|]. destruct (_ || _); [apply ext_refl|]. destruct (plain_shape s Hs). apply ext_alphabet; auto.
  Qed.
  Lemma regex_inv fl sp c G r a k w c' : inv fl sp c G -> name (currentName c) -> name k -> Forall plain a ->
    addXreEntry gr u8 r a k w c = Ok c' -> inv fl sp c' (G ++ [Entry (currentName c) (Regexp r) k w]).
  Proof.
    intros I Hn Hk Pa H. unfold addXreEntry in H. cbv zeta in H.
    assert (I0 : inv fl sp (set_conts (sadd bcmp k (continuations c)) c) G) by (eapply ext_inv; [apply ext_conts|exact I]).
    set (c0 := set_conts (sadd bcmp k (continuations c)) c) in *.
    rewrite (cc_code _ _ _ _ _ I0) in H. set (K := cc fl k) in *.
    destruct (cc_shape fl k Hk) as [T1 S1]. pose proof (ext_trans _ _ _ (ext_conts (sadd bcmp k (continuations c)) c : ext c c0) (ext_known K c0 T1 S1)) as X1.
    pose proof (ext_trans _ _ _ X1 (alpha_fold a Pa _)) as X2. set (c2 := fold_left _ a _) in *.
    assert (KK0 : In K (known c2)).
    { apply (ext_incl _ _ (alpha_fold a Pa (add_known K c0))). unfold add_known. cbn [known set_known]. apply in_or_app. right. left. reflexivity. }
    rewrite (x_cur _ _ X2) in H. set (key := regex_key (currentName c) k) in *.
    assert (X3 : ext c (add_known key c2)).
    { eapply ext_trans; [exact X2|]. apply ext_known; [apply key_text; assumption|right; left; apply key_coded; assumption]. }
    set (c3 := add_known key c2) in *.
    set (m := mset bcmp key _ (regexps c3)) in *.
    assert (EN : name_code (set_regexps m c3) (currentName (set_regexps m c3)) = nc fl (currentName c)).
    { cbn [currentName set_regexps]. rewrite (x_cur _ _ X3). rewrite <- (nc_code fl sp c3 G); [reflexivity|eapply ext_inv; eauto]. }
    rewrite EN in H. set (N := nc fl (currentName c)) in *. clear EN.
    change (add_known N (set_regexps m c3)) with (set_regexps m (add_known N c3)) in H.
    assert (X4 : ext c (add_known N c3)).
    { destruct (nc_shape fl _ Hn). eapply ext_trans; [exact X3|]. apply ext_known; assumption. }
    set (c4 := add_known N c3) in *.
    pose proof (ext_inv _ _ _ _ _ X4 I) as I4.
    assert (KN : knows c4 N) by (split; [destruct (nc_coded fl _ Hn) as (b & E & _); unfold N; rewrite E; discriminate|unfold c4, add_known; cbn [known set_known]; apply in_or_app; right; left; reflexivity]).
    assert (KY : knows c4 key) by (split; [discriminate|unfold c4, c3, add_known; cbn [known set_known]; apply in_or_app; left; apply in_or_app; right; left; reflexivity]).
    assert (KK : knows c4 K) by (split; [destruct (cc_coded fl _ Hk) as (b & E & _); unfold K; rewrite E; discriminate|unfold c4, c3, add_known; cbn [known set_known]; apply in_or_app; left; apply in_or_app; left; exact KK0]).
    change (tokens gr u8 (set_regexps m c4)) with (tokens gr u8 c4) in H.
    destruct (tokens gr u8 c4 false (N ++ key ++ K)) as [v| | |] eqn:T; try discriminate. cbn [rbind] in H.
    assert (HS : forall v, knows c4 v -> shape v /\ v <> []) by (intros z Hz; eapply inv_knows; eauto).
    assert (Sg : segmentation (knows c4) (character gr false) (N ++ key ++ K) [N; key; K]).
    { apply seg_code; auto; [apply nc_coded; exact Hn|]. apply seg_code; auto; [apply key_coded; assumption|]. apply seg_end; auto. apply cc_coded; exact Hk. }
    assert (U : utf8 (N ++ key ++ K)) by (apply utf8_app; [apply nc_text; exact Hn|apply utf8_app; [apply key_text; assumption|apply cc_text; exact Hk]]).
    rewrite (tokens_as gr u8 Hgr c4 false _ v _ (known_text _ _ _ _ I4) U T Sg) in H.
    set (e := Entry (currentName c) (Regexp r) k w). change (dup [N; key; K]) with (label fl e) in H.
    cbn [stringsTrie set_regexps] in H.
    destruct (disjunct (stringsTrie c4) (label fl e) w) as [t| | |] eqn:D; try discriminate. cbn [rmap] in H. injection H as <-.
    apply (finish fl sp c G e c4 m t I X4); [| |exact D].
    - destruct (current_in _ _ _ _ I Hn) as [Q1 Q2]. constructor; cbn [e_lexicon e_continuation e_body]; auto; try apply KN; try apply KK; try apply KY.
      all: try (rewrite (x_names _ _ X4); exact Q1).
      destruct fl; [apply (ext_incl _ _ X4), Q2; reflexivity|apply KN].
    - unfold m. rewrite (x_reg _ _ X3). apply (collected_regexp G e (regexps c) r); [apply I|reflexivity].
  Qed.

  (** The other calls. *)
  Lemma initial_inv fl sp c G n : inv fl sp c G -> name n -> inv fl sp (setInitialLexiconName n c) G.
  Proof.
    intros [] Hn. unfold setInitialLexiconName. constructor; cbn; auto.
    - intros m Hm. apply (In_sadd bcmp bcmp_eq) in Hm. destruct Hm as [->|Hm]; auto.
    - apply (In_sadd bcmp bcmp_eq). auto.
    - destruct i_cur as [H|[H H']]; [auto|]. right. split; [apply (In_sadd bcmp bcmp_eq); auto|auto].
    - intros e He. destruct (i_G e He). constructor; cbn; auto. apply (In_sadd bcmp bcmp_eq). auto.
  Qed.
  Lemma right_text n : name n -> text (flagJoinerEncode n false) /\ shape (flagJoinerEncode n false).
  Proof. exact (cc_shape true n). Qed.
  Lemma doubled_text n : name n -> text (flagJoinerEncode (flagJoinerEncode n false) true) /\ shape (flagJoinerEncode (flagJoinerEncode n false) true).
  Proof.
    intros H. split; [|right; right; eexists; reflexivity]. destruct (right_text n H) as [T _].
    set (x := flagJoinerEncode n false) in *. change (text (B "$R.LEXNAME." ++ x ++ B "$")).
    apply text_app; [atext|]. apply text_app; [exact T|atext].
  Qed.
  Lemma set_current_inv fl sp c G n c1 : inv fl sp c G -> name n ->
    ext (set_names (sadd bcmp n (lexiconNames c)) (set_current n c)) c1 -> (fl = true -> In (cc fl n) (known c1)) -> inv fl sp c1 G.
  Proof.
    intros [] Hn E K. pose proof (ext_incl _ _ E) as Inc. destruct E as [E1 E2 E3 E4 E5 E6 E7 E8 (x & Ex & Hx) E10]. cbn in *.
    constructor; rewrite ?E1, ?E2, ?E3, ?E4, ?E5, ?E6, ?E7, ?E8; auto.
    - intros w Hw. rewrite Ex in Hw. apply in_app_or in Hw. destruct Hw; auto.
    - eapply incl_tran; eauto.
    - intros m Hm. apply (In_sadd bcmp bcmp_eq) in Hm. destruct Hm as [->|Hm]; auto.
    - apply (In_sadd bcmp bcmp_eq). auto.
    - right. split; [apply (In_sadd bcmp bcmp_eq); auto|auto].
    - intros e He. destruct (i_G e He). constructor; rewrite ?E4; auto; [apply (In_sadd bcmp bcmp_eq); auto|]. destruct (e_body e); auto.
  Qed.
  Lemma lexicon_inv fl sp c G n first : inv fl sp c G -> name n -> inv fl sp (setCurrentLexiconName first n c) G.
  Proof.
    intros I Hn. unfold setCurrentLexiconName. cbv zeta. set (c0 := set_names (sadd bcmp n (lexiconNames (set_current n c))) (set_current n c)).
    assert (A : inv fl sp (if smem bcmp n (noFlags c0) then add_known (joinerEncode n) c0
        else add_known (flagJoinerEncode (flagJoinerEncode n false) true) (add_known (flagJoinerEncode n false) c0)) G).
    { apply (set_current_inv fl sp c G n _ I Hn).
      - destruct (smem _ _ _).
        + destruct (nc_shape false n Hn). apply ext_known; assumption.
        + destruct (right_text n Hn), (doubled_text n Hn). eapply ext_trans; apply ext_known; assumption.
      - intros ->. change (noFlags c0) with (noFlags c). rewrite (i_no _ _ _ _ I eq_refl). cbn [smem].
        unfold add_known. cbn [known set_known]. apply in_or_app. left. apply in_or_app. right. left. reflexivity. }
    destruct (first || bstr_eqb n ROOT); [apply initial_inv; auto|exact A].
  Qed.
  Lemma do_call_inv fl sp k s s' G G1 : inv fl sp (fst s) G -> do_call gr u8 cl k s = Ok s' -> adds gr cl (fst s) k G1 -> tame gr cl (fst s) k ->
    inv fl sp (fst s') (G ++ G1).
  Proof.
    intros I H A T. destruct s as [c f]. cbn [fst] in *. pose proof (i_sp _ _ _ _ I) as Es. rewrite <- Es in *.
    destruct A as [x|x|n|n|d k w ts Cut|u l k w us ls Cu Cl|r a k w]; cbn [do_call tame] in H, T; rewrite ?app_nil_r.
    - injection H as <-. cbn [fst]. destruct (plain_shape x T). eapply ext_inv; [apply ext_alphabet; assumption|exact I].
    - injection H as <-. cbn [fst]. destruct I. constructor; auto; cbn.
      + congruence.
      + intros e He. destruct (i_G e He). constructor; auto.
    - injection H as <-. apply lexicon_inv; assumption.
    - injection H as <-. apply initial_inv; assumption.
    - destruct (addStringEntry _ _ _ _ _ _ _) as [c'| | |] eqn:E; try discriminate. injection H as <-. eapply word_inv; eauto; tauto.
    - destruct (addStringPairEntry _ _ _ _ _ _ _ _) as [c'| | |] eqn:E; try discriminate. injection H as <-.
      destruct T as ((T1 & T2) & T3 & T4 & T5 & T6 & T7 & T8 & T9 & T10).
      exact (pair_inv fl _ c G u l k w us ls c' I T1 T2 T3 T4 T5 T6 T7 T8 T9 T10 Cu Cl E).
    - destruct (addXreEntry _ _ _ _ _ _ _) as [c'| | |] eqn:E; try discriminate. injection H as <-. exact (regex_inv fl _ c G r a k w c' I (proj1 (proj1 T)) (proj2 (proj1 T)) (proj2 T) E).
  Qed.
  Lemma session_inv fl sp s ks G s' : session gr u8 cl s ks G s' -> forall G0, inv fl sp (fst s) G0 -> inv fl sp (fst s') (G0 ++ G).
  Proof.
    induction 1 as [s|s k ks s1 s2 G1 G2 H A T S IH]; intros G0 I; [rewrite app_nil_r; exact I|].
    rewrite app_assoc. apply IH. eapply do_call_inv; eauto.
  Qed.
  Lemma new_inv fl sp : inv fl sp (new_compiler fl sp) [].
  Proof.
    constructor; cbn; auto.
    - intros w Hw. assert (A : forallb (fun b => ascii7 b && negb (Ascii.eqb b "000")) w = true /\ (existsb (Ascii.eqb dollar) w = false \/ w = joinerEncode HASH)).
      { repeat (destruct Hw as [<-|Hw]; [split; [reflexivity|auto]|]). destruct Hw. }
      destruct A as [A1 A2]. split; [apply ascii_text; exact A1|]. destruct A2 as [A2| ->]; [left|right; left; apply joiner_coded, hash_name].
      intros K. assert (existsb (Ascii.eqb dollar) w = true) by (apply existsb_exists; exists dollar; split; [exact K|apply Ascii.eqb_refl]). congruence.
    - intros w Hw. cbn in Hw |- *. tauto.
    - intros w [].
    - intros n [<-|[]]. apply hash_name.
    - intros _. auto 10.
    - apply root_name.
    - intros e [].
    - intros k. cbn. intros e r [].
  Qed.
End Calls.
