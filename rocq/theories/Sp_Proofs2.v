(** Proofs about the spell checker: tokenization and Speller::check. *)
From Coq Require Import Permutation NArith.
From Verif Require Import Base OrdMap Flags_Model Flags_Spec Flags_Proofs BT_Model BT_Spec OLF_Model OLC_Model OLC_Spec OLL_Model OLL_Spec OLL_Proofs OLL_Proofs2 OLL_Proofs3 Sp_Model Sp_Spec Sp_Proofs.
From Verif Require Import Tok_Model Tok_Spec Tok_Proofs.
From Verif Require An_Spec.

(** * Tokenization *)
Section Input.
  Variables (dec : N -> Z) (tr : transducer) (g : graph) (addr : nat -> N).
  Hypothesis R : represents dec tr g addr.
  Let names := a_table (tr_alphabet tr).
  Let inputs := N.to_nat (h_input_symbols (tr_header tr)).
  Let Sy (x : bstr) : Prop := input_symbol g x \/ x = EPSILON.
  Hypothesis Hsym : forall x, In x names -> x <> [] /\ no_nul x.
  Hypothesis Hsmall : (N.of_nat (length names) < 32767)%N.
  Hypothesis Hin : inputs <= length names.
  Hypothesis Hpos : 0 < inputs.
  Variable en : encoder.
  Hypothesis Hen : new_encoder (tr_alphabet tr) inputs = Ok en.

  Lemma grown_fresh : grown tr g (tr_alphabet tr) en [].
  Proof.
    constructor.
    - rewrite app_nil_r. destruct (tr_alphabet tr); reflexivity.
    - rewrite app_nil_r. exact Hen.
    - intros x [].
    - constructor.
    - cbn [length]. fold names. lia.
  Qed.

  Definition numbered (other k : N) (x : bstr) : Prop :=
    Sy x /\ nth_error names (N.to_nat k) = Some x \/ ~ Sy x /\ k = other /\ other <> OLF_Model.NO_SYMBOL.
  Lemma input_spec other fuel : forall s, length s <= fuel -> no_nul s ->
    match input_initialize fuel en s other with
    | Ok (Some ks) => exists ts, tokens g s ts /\ Forall2 (numbered other) ks ts
    | Ok None => forall ts, tokens g s ts -> other = OLF_Model.NO_SYMBOL /\ exists x, In x ts /\ ~ Sy x
    | Ub => other <> OLF_Model.NO_SYMBOL /\ forall ts, ~ tokens g s ts
    | _ => False
    end.
  Proof.
    pose proof grown_fresh as G. pose proof (regs_ok tr g Hsym Hin Hpos _ _ _ G) as RO.
    assert (LS : forall w, latest (base_regs tr ++ extra_regs tr []) w <> None <-> Sy w).
    { intros w. rewrite (latest_spec dec tr g addr R Hin Hpos _ _ _ w G). unfold Sy. simpl. tauto. }
    induction fuel as [|fuel IH]; intros s Lf Ns.
    - destruct s as [|c s]; [|simpl in Lf; lia]. simpl. exists []. split; constructor.
    - destruct s as [|b0 s0]; [simpl; exists []; split; constructor|].
      set (s := b0 :: s0) in *.
      assert (Es : input_initialize (S fuel) en s other =
        rbind (encoder_find_key en s) (fun '(k, n) =>
          if (k =? OLF_Model.NO_SYMBOL)%N then
            match nbyte_utf8 b0 with
            | O => Ok None
            | n =>
                if (other =? OLF_Model.NO_SYMBOL)%N then Ok None
                else if (length s <? n)%nat then Ub
                else rmap (option_map (cons other)) (input_initialize fuel en (skipn n s) other)
            end
          else rmap (option_map (cons k)) (input_initialize fuel en (skipn n s) other))) by reflexivity.
      rewrite Es. clear Es.
      destruct (encoder_spec _ s RO ltac:(discriminate)) as (e' & n & k & Ee & Ef & H).
      assert (e' = en) by (pose proof (gr_en _ _ _ _ _ G); congruence). subst e'. rewrite Ef. cbn [rbind].
      destruct H as [(w & (HS & HP & HL) & HN & Hn & ->)|(NP & ->)].
      + change OLF_Model.NO_SYMBOL with 65535%N in *. rewrite (proj2 (N.eqb_neq n 65535) Hn).
        destruct HP as (r & Er). rewrite Er. rewrite (skipn_prefix).
        assert (Wn : 0 < length w).
        { apply latest_bound in HN as HB; [|exact RO]. destruct w; [destruct HB; congruence|simpl; lia]. }
        assert (Lr : length s = length w + length r) by (rewrite Er, app_length; reflexivity).
        apply LS in HS. rewrite Er in HL.
        assert (LP : longest_prefix Sy (w ++ r) w).
        { split; [exact HS|]. split; [apply prefix_refl|]. intros w' HS' HP'. apply HL; [|exact HP']. apply LS, HS'. }
        assert (Wne : w <> []) by (destruct w; [simpl in Wn; lia|discriminate]).
        rewrite Er in Ns. destruct (OLL_Proofs.no_nul_app g _ _ Ns) as (_ & Nr).
        assert (Nw : numbered other n w).
        { left. split; [exact HS|]. pose proof (latest_token dec tr g addr R Hin Hpos _ _ _ _ _ G HN) as (Tk & _).
          rewrite (gr_al _ _ _ _ _ G) in Tk. cbn [set_table a_table] in Tk. rewrite app_nil_r in Tk. exact Tk. }
        specialize (IH r ltac:(lia) Nr).
        destruct (input_initialize fuel en r other) as [[ks|]| | |]; cbn [rmap rbind option_map]; [| |destruct IH| |destruct IH].
        * destruct IH as (ts & H1 & H2). exists (w :: ts). split; [apply seg_sym; assumption|]. constructor; [exact Nw|exact H2].
        * intros ts Tts. destruct (tokens_sym tr g Hin Hpos w r ts LP Wne Tts) as (ts' & -> & T2). destruct (IH ts' T2) as (H1 & x & H2 & H3).
          split; [exact H1|]. exists x. split; [right; exact H2|exact H3].
        * destruct IH as (No & IH). split; [exact No|]. intros ts Tts. destruct (tokens_sym tr g Hin Hpos w r ts LP Wne Tts) as (ts' & -> & T2). exact (IH ts' T2).
      + change (NO_SYMBOL =? OLF_Model.NO_SYMBOL)%N with true. cbv iota.
        assert (NS : no_prefix Sy s) by (intros w HS; apply NP, LS, HS).
        rewrite nbyte_char_length. destruct (char_length b0) as [|m] eqn:Eb.
        * intros ts Tts. exfalso. unfold s in Tts. inversion Tts as [|w r ts' (HS & HP & _) _ E|c r ts' _ OC _ E]; subst.
          -- apply (NS w HS). unfold s. rewrite <- E. exact HP.
          -- destruct c as [|b c]; [destruct OC|]. injection E as -> _. unfold one_char in OC. rewrite Eb in OC. discriminate.
        * set (m' := S m) in *. destruct (N.eqb_spec other OLF_Model.NO_SYMBOL) as [Eo|No].
          { intros ts Tts. split; [exact Eo|]. unfold s in Tts. inversion Tts as [|w r ts' (HS & HP & _) _ E|c r ts' NPc OC _ E]; subst.
            - exfalso. apply (NS w HS). unfold s. rewrite <- E. exact HP.
            - exists c. split; [left; reflexivity|]. intros C. apply (NPc c C). apply prefix_refl. }
          destruct (Nat.ltb_spec (length s) m') as [Lt|Ge].
          { split; [exact No|]. intros ts Tts. unfold s in Tts. inversion Tts as [|w r ts' (HS & HP & _) _ E|c r ts' _ OC _ E]; subst.
            - apply (NS w HS). unfold s. rewrite <- E. exact HP.
            - destruct c as [|b c]; [destruct OC|]. injection E as -> E. unfold one_char in OC. rewrite Eb in OC.
              assert (X : length s = length (b0 :: c) + length r) by (unfold s; rewrite <- E; cbn [length]; rewrite app_length; lia). lia. }
          set (c := firstn m' s). set (r := skipn m' s).
          assert (Er : s = c ++ r) by (symmetry; apply firstn_skipn).
          assert (Lc : length c = m') by (unfold c; rewrite firstn_length; lia).
          assert (Oc : one_char c) by (unfold one_char; assert (X : c = b0 :: firstn m s0) by reflexivity; rewrite X in Lc |- *; rewrite Eb; exact Lc).
          assert (Lr : length s = m' + length r) by (rewrite Er, app_length, Lc; reflexivity).
          destruct (OLL_Proofs.no_nul_app g c r ltac:(rewrite <- Er; exact Ns)) as (Nc & Nr).
          assert (NSc : ~ Sy c) by (intros C; apply (NS c C); rewrite Er; apply prefix_refl).
          specialize (IH r ltac:(unfold m' in *; lia) Nr).
          destruct (input_initialize fuel en r other) as [[ks|]| | |]; cbn [rmap rbind option_map]; [| |destruct IH| |destruct IH].
          -- destruct IH as (ts & H1 & H2). exists (c :: ts). split; [rewrite Er; apply seg_chr; [rewrite <- Er; exact NS|exact Oc|exact H1]|].
             constructor; [right; auto|exact H2].
          -- intros ts Tts. destruct (tokens_char tr g Hin Hpos c r ts) as (ts' & -> & T2); [rewrite <- Er; exact NS|exact Oc|rewrite <- Er; exact Tts|].
             destruct (IH ts' T2) as (H1 & x & H2 & H3). split; [exact H1|]. exists x. split; [right; exact H2|exact H3].
          -- destruct IH as (_ & IH). split; [exact No|]. intros ts Tts. destruct (tokens_char tr g Hin Hpos c r ts) as (ts' & -> & T2); [rewrite <- Er; exact NS|exact Oc|rewrite <- Er; exact Tts|]. exact (IH ts' T2).
  Qed.
End Input.

(** * Speller::check *)
Section Check.
  Variables (dec : N -> Z) (tr : transducer) (g : graph) (addr : nat -> N).
  Hypothesis R : represents dec tr g addr.
  Hypothesis HS : structure_ok g.
  Hypothesis SM : small tr.
  Let names := a_table (tr_alphabet tr).
  Let T := tr_tables tr.
  Let al := tr_alphabet tr.
  Let F := a_fd (tr_alphabet tr).
  Hypothesis HA : alphabet_of_table names = Ok (tr_alphabet tr).
  Hypothesis HW : t_wclass (tr_tables tr) = true.
  Hypothesis Hsmall : (N.of_nat (length names) < 32767)%N.
  Hypothesis Hdef : ~ In DEFAULT names.
  Hypothesis Hval : forall x f, In x names -> denotes x f -> nonempty_value f.
  Hypothesis Hin : N.to_nat (h_input_symbols (tr_header tr)) <= length names.
  Variable input : list N.

  Definition config : Type := nat * fenv * list bstr.
  Definition tok (k : N) (x : bstr) : Prop := nth_error names (N.to_nat k) = Some x /\ input_symbol g x.
  Definition sits (n : node) (c : config) : Prop :=
    let '(s, e, ts) := c in
    n_lexicon n = addr s /\ s < length (sts g) /\ fd_rel F e (n_flags n) /\ Forall2 tok (skipn (n_input n) input) ts /\ n_input n <= length input.
  Definition final_c (c : config) : Prop :=
    let '(s, e, ts) := c in ts = [] /\ exists fw, mget Nat.compare s (fin g) = Some fw.
  Definition succ_c (c c' : config) : Prop :=
    let '(s, e, ts) := c in let '(s', e', ts') := c' in
    exists a, In a (nth s (sts g) []) /\ s' = tgt a
      /\ (free_step e a e' /\ ts' = ts \/ input_symbol g (isy a) /\ ts = isy a :: ts' /\ e' = e).

  Definition visit (n : node) : res (bool * list node) :=
    rbind (if (n_input n =? length input)%nat then final_index T (n_lexicon n) else Ok false) (fun f =>
    if f then Ok (true, [])
    else
      rbind (lexicon_epsilons dec al T n) (fun c1 =>
      rbind (lexicon_consume dec T input n) (fun c2 => Ok (false, c1 ++ c2)))).
  Lemma check_loop_bfs fuel : forall q, check_loop dec al T fuel input q = bfs node visit fuel q.
  Proof.
    induction fuel as [|fuel IH]; intros [|n q]; simpl; try reflexivity. unfold visit. destruct (if (n_input n =? length input)%nat then _ else _) as [f| | |]; cbn [rbind]; try reflexivity.
    destruct f; [reflexivity|]. destruct (lexicon_epsilons dec al T n); cbn [rbind]; try reflexivity. destruct (lexicon_consume dec T input n); cbn [rbind]; try reflexivity. apply IH.
  Qed.

  Lemma skipn_nth {A} i (l : list A) x r : skipn i l = x :: r -> nth_error l i = Some x /\ skipn (S i) l = r.
  Proof. revert l. induction i as [|i IH]; intros [|y l] E; simpl in *; try discriminate; [injection E as <- <-; auto|]. destruct l; [destruct i; discriminate|]. apply (IH _ E). Qed.
  Lemma skipn_nil_nth {A} i (l : list A) : skipn i l = [] -> nth_error l i = None.
  Proof. intros E. apply nth_error_None. pose proof (skipn_length i l) as L. rewrite E in L. simpl in L. lia. Qed.

  Lemma consume_spec n s e ts : sits n (s, e, ts) -> exists cs, lexicon_consume dec T input n = Ok cs
    /\ (forall c, In c cs -> exists a ts', In a (nth s (sts g) []) /\ input_symbol g (isy a) /\ ts = isy a :: ts' /\ sits c (tgt a, e, ts'))
    /\ (forall a ts', In a (nth s (sts g) []) -> input_symbol g (isy a) -> ts = isy a :: ts' -> exists c, In c cs /\ sits c (tgt a, e, ts')).
  Proof.
    intros (En & Hs & HF & HT & Hp). unfold lexicon_consume. destruct (skipn (n_input n) input) as [|k rest] eqn:Sk.
    - rewrite (skipn_nil_nth _ _ Sk). inversion HT; subst. exists []. split; [reflexivity|]. split; [intros c []|intros a ts' _ _ C; discriminate C].
    - destruct (skipn_nth _ _ _ _ Sk) as (Ek & Sk'). rewrite Ek. inversion HT as [|? x ? ts1 (Kx & Ix) HT' E1 E2]; subst.
      destruct (symbol_arcs_spec dec tr g addr R SM Hsmall s k x Hs Kx Ix) as (es & Ea & Fo). fold T in Ea. rewrite En, Ea. cbn [rmap rbind]. eexists. split; [reflexivity|].
      assert (Hp' : S (n_input n) <= length input) by (apply nth_error_Some; congruence).
      assert (Next : forall a en, In a (nth s (sts g) []) -> stands_for dec names addr a en ->
        sits (update_input n (te_output en) (S (n_input n)) (n_mutator n) (te_target en) (entry_weight dec T en)) (tgt a, e, ts1)).
      { intros a en Ha (_ & _ & Htg & _). unfold sits, update_input. cbn [n_lexicon n_flags n_input]. split; [exact Htg|]. split; [exact (proj1 (proj2 HS) s a Ha)|].
        split; [exact HF|]. split; [exact HT'|exact Hp']. }
      assert (Fl : forall a, In a (filter (fun a => bstr_eqb (isy a) x) (nth s (sts g) [])) <-> In a (nth s (sts g) []) /\ isy a = x) by (intros a; rewrite filter_In, bstr_eqb_eq; reflexivity).
      split.
      + intros c Hc. apply in_map_iff in Hc. destruct Hc as (en & <- & Hen). destruct (Forall2_In_r _ _ _ _ Fo Hen) as (a & Ha & Hst).
        apply Fl in Ha. destruct Ha as (Ha & Ea'). exists a, ts1. split; [exact Ha|]. rewrite Ea'. split; [exact Ix|]. split; [reflexivity|]. exact (Next a en Ha Hst).
      + intros a ts' Ha Ia E. injection E as E ->. destruct (Forall2_In_l _ _ _ _ Fo (proj2 (Fl a) (conj Ha (eq_sym E)))) as (en & Hen & Hst).
        eexists. split; [apply in_map_iff; exists en; split; [reflexivity|exact Hen]|]. exact (Next a en Ha Hst).
  Qed.

  Lemma moved_sits n s e ts c a e' : sits n (s, e, ts) -> In a (nth s (sts g) []) -> moved tr addr n c a e' -> sits c (tgt a, e', ts).
  Proof.
    intros (En & Hs & HF & HT & Hp) Ha (k & fs & _ & HF' & ->). unfold sits. cbn [n_lexicon n_flags n_input].
    split; [reflexivity|]. split; [exact (proj1 (proj2 HS) s a Ha)|]. auto.
  Qed.
  Lemma visit_spec n c : sits n c -> exists b cs, visit n = Ok (b, cs) /\ (b = true <-> final_c c)
    /\ (b = false -> (forall m, In m cs -> exists c', succ_c c c' /\ sits m c') /\ (forall c', succ_c c c' -> exists m, In m cs /\ sits m c')).
  Proof.
    destruct c as ((s & e) & ts). intros Hn. pose proof Hn as (En & Hs & HF & HT & Hp). unfold visit.
    destruct (lexicon_epsilons_spec dec tr g addr R SM Hsmall HA HW Hdef Hval Hin n e s En Hs HF) as (c1 & E1 & K1 & K2).
    destruct (consume_spec n s e ts Hn) as (c2 & E2 & J1 & J2).
    assert (X : exists f, (if (n_input n =? length input)%nat then final_index T (n_lexicon n) else Ok false) = Ok f /\ (f = true <-> final_c (s, e, ts))).
    { destruct (Nat.eqb_spec (n_input n) (length input)) as [E|E].
      - rewrite En. unfold T. rewrite (final_index_spec dec tr g addr R s Hs). eexists. split; [reflexivity|]. rewrite E, skipn_all in HT. inversion HT; subst.
        destruct (mget Nat.compare s (fin g)) as [fw|] eqn:M.
        + split; [intros _|reflexivity]. split; [reflexivity|]. rewrite M. eauto.
        + split; [discriminate|]. intros (_ & fw & C). congruence.
      - exists false. split; [reflexivity|]. split; [discriminate|]. intros (-> & _). inversion HT as [H0|]. exfalso.
        pose proof (skipn_length (n_input n) input) as L. rewrite <- H0 in L. simpl in L. lia. }
    destruct X as (f & -> & Hf). cbn [rbind]. destruct f.
    - exists true, []. split; [reflexivity|]. split; [exact Hf|]. discriminate.
    - fold al T in E1. rewrite E1. cbn [rbind]. rewrite E2. cbn [rbind]. exists false, (c1 ++ c2). split; [reflexivity|]. split; [exact Hf|]. intros _. split.
      + intros m Hm. apply in_app_or in Hm. destruct Hm as [Hm|Hm].
        * destruct (K1 m Hm) as (a & e' & Ha & St & Mv). exists (tgt a, e', ts). split; [exists a; auto|]. exact (moved_sits n s e ts m a e' Hn Ha Mv).
        * destruct (J1 m Hm) as (a & ts' & Ha & Ia & -> & Mv). exists (tgt a, e, ts'). split; [|exact Mv]. exists a. auto 6.
      + intros ((s' & e') & ts') (a & Ha & -> & [(St & ->)|(Ia & -> & ->)]).
        * destruct (K2 a e' Ha St) as (m & Hm & Mv). exists m. split; [apply in_or_app; left; exact Hm|]. exact (moved_sits n s e ts m a e' Hn Ha Mv).
        * destruct (J2 a ts' Ha Ia eq_refl) as (m & Hm & Mv). exists m. split; [apply in_or_app; right; exact Hm|exact Mv].
  Qed.

  (** Accepting configurations are those with an accepting run. *)
  Lemma accept_run s e ts : (forall x, In x ts -> input_symbol g x) ->
    (accept config final_c succ_c (s, e, ts) <-> exists r t fw, lookup_run g s e r ts t /\ mget Nat.compare t (fin g) = Some fw).
  Proof.
    intros I. split.
    - intros A. remember (s, e, ts) as c eqn:Ec. revert s e ts I Ec. induction A as [c Fc|c c' Sc A IH]; intros s e ts I ->.
      + destruct Fc as (-> & fw & M). exists [], s, fw. split; [constructor|exact M].
      + destruct c' as ((s' & e') & ts'). destruct Sc as (a & Ha & -> & K).
        assert (I' : forall x, In x ts' -> input_symbol g x) by (intros x Hx; apply I; destruct K as [(_ & <-)|(_ & -> & _)]; [exact Hx|right; exact Hx]).
        destruct (IH _ _ _ I' eq_refl) as (r & t & fw & L & M). destruct K as [([(Ea & ->)|(x & Dx & Sx & ->)] & ->)|(Ia & -> & ->)].
        * exists ((a, None) :: r), t, fw. split; [apply lr_epsilon; assumption|exact M].
        * exists ((a, None) :: r), t, fw. split; [apply (lr_flag g s e a x); assumption|exact M].
        * exists ((a, Some (isy a)) :: r), t, fw. split; [apply lr_known; auto|exact M].
    - intros (r & t & fw & L & M). revert I. induction L as [s e|s e a r ts t Ha Ea L IH|s e a x r ts t Ha Dx Sx L IH|s e a x r ts t Ha Ea Ix L IH|s e a x r ts t Ha Ea Nx L IH]; intros I.
      + apply ac_final. split; [reflexivity|eauto].
      + apply (ac_succ _ _ _ _ (tgt a, e, ts)); [|exact (IH M I)]. exists a. split; [exact Ha|]. split; [reflexivity|]. left. split; [left; auto|reflexivity].
      + apply (ac_succ _ _ _ _ (tgt a, fst (Flags_Spec.step x e), ts)); [|exact (IH M I)]. exists a. split; [exact Ha|]. split; [reflexivity|]. left. split; [right; eauto|reflexivity].
      + apply (ac_succ _ _ _ _ (tgt a, e, ts)); [|apply (IH M); intros y Hy; apply I; right; exact Hy]. exists a. split; [exact Ha|]. split; [reflexivity|]. right. rewrite Ea. auto.
      + exfalso. apply Nx, I. left. reflexivity.
  Qed.

End Check.

Section Chains.
  Variable g : graph.
  Hypothesis HS : structure_ok g.
  Lemma some_state : 0 < length (sts g).
  Proof. destruct HS as (H & _). destruct (sts g); [congruence|simpl; lia]. Qed.
  (** Without cycles of epsilon and flag transitions chains are bounded. *)
  Hypothesis Hcyc : forall s c, ~ An_Spec.cycle An_Spec.free_arc g s c.
  Lemma free_step_arc e a e' : free_step e a e' -> An_Spec.free_arc a.
  Proof. intros [(E & _)|(x & D & _)]; [left; exact E|right]. apply is_diacritic_denotes. eauto. Qed.
  Lemma path_snoc s c t a : path g s c t -> In a (nth t (sts g) []) -> path g s (c ++ [a]) (tgt a).
  Proof. induction 1; intros H'; simpl; econstructor; eauto. constructor. Qed.
  Lemma chain_bound d : forall s e ts v, NoDup v -> (forall x, In x v -> x < length (sts g)) ->
    (forall x, In x v -> exists c, path g x c s /\ Forall An_Spec.free_arc c) -> length ts * S (length (sts g)) + (length (sts g) - length v) <= d -> low config (succ_c g) d (s, e, ts).
  Proof.
    induction d as [|d IH]; intros s e ts v ND Bd Ps L.
    - intros ((s' & e') & ts') (a & Ha & -> & K). assert (Ht : tgt a < length (sts g)) by exact (proj1 (proj2 HS) s a Ha).
      destruct K as [(St & ->)|(_ & -> & _)]; [|simpl in L; lia].
      assert (In (tgt a) v).
      { destruct (in_dec Nat.eq_dec (tgt a) v) as [H|H]; [exact H|exfalso]. assert (ND' : NoDup (tgt a :: v)) by (constructor; assumption).
        assert (Lv : length (tgt a :: v) <= length (seq 0 (length (sts g)))) by (apply NoDup_incl_length; [exact ND'|]; intros x [<- |Hx]; apply in_seq; [lia|specialize (Bd x Hx); lia]).
        rewrite seq_length in Lv. simpl in Lv. lia. }
      destruct (Ps (tgt a) H) as (c & P & Fc). apply (Hcyc (tgt a) (c ++ [a])). split; [destruct c; discriminate|]. split; [exact (path_snoc _ _ _ _ P Ha)|].
      apply Forall_app. split; [exact Fc|]. constructor; [exact (free_step_arc _ _ _ St)|constructor].
    - intros ((s' & e') & ts') (a & Ha & -> & K). assert (Ht : tgt a < length (sts g)) by exact (proj1 (proj2 HS) s a Ha).
      destruct K as [(St & ->)|(_ & -> & _)].
      + assert (Ni : ~ In (tgt a) v).
        { intros H. destruct (Ps (tgt a) H) as (c & P & Fc). apply (Hcyc (tgt a) (c ++ [a])). split; [destruct c; discriminate|]. split; [exact (path_snoc _ _ _ _ P Ha)|].
          apply Forall_app. split; [exact Fc|]. constructor; [exact (free_step_arc _ _ _ St)|constructor]. }
        assert (ND' : NoDup (tgt a :: v)) by (constructor; assumption).
        assert (Lv : length (tgt a :: v) <= length (seq 0 (length (sts g)))) by (apply NoDup_incl_length; [exact ND'|]; intros x [<- |Hx]; apply in_seq; [lia|specialize (Bd x Hx); lia]).
        rewrite seq_length in Lv. cbn [length] in Lv.
        apply (IH (tgt a) e' ts (tgt a :: v) ND'); [intros x [<- |Hx]; [exact Ht|apply Bd, Hx]| |cbn [length]; lia].
        intros x [<- |Hx]; [exists []; split; constructor|]. destruct (Ps x Hx) as (c & P & Fc). exists (c ++ [a]). split; [exact (path_snoc _ _ _ _ P Ha)|].
        apply Forall_app. split; [exact Fc|]. constructor; [exact (free_step_arc _ _ _ St)|constructor].
      + apply (IH (tgt a) e' ts' [tgt a]); [constructor; [intros []|constructor]|intros x [<- |[]]; exact Ht|intros x [<- |[]]; exists []; split; constructor|].
        cbn [length] in *. lia.
  Qed.
End Chains.
