(** Proofs about lookup in the optimized-lookup format, part 3: lookup as a whole. *)
From Coq Require Import NArith Permutation.
From Verif Require Import Base OrdMap Flags_Model Flags_Spec Flags_Proofs BT_Model BT_Spec An_Spec LK_Model LK_Proofs OLF_Model OLF_Proofs OLC_Model OLL_Model OLC_Spec OLC_Proofs OLC_Proofs5 OLC_Proofs7 OLL_Spec.
From Verif Require Import Tok_Model Tok_Spec Tok_Proofs OLL_Proofs OLL_Proofs2.

(** * The search stays inside the tables *)
Section Total.
  Variables (dec : N -> Z) (tr : transducer) (g : graph) (addr : nat -> N).
  Hypothesis R : represents dec tr g addr.
  Hypothesis HS : structure_ok g.
  Let names := a_table (tr_alphabet tr).
  Let inputs := N.to_nat (h_input_symbols (tr_header tr)).
  Let T := tr_tables tr.
  Let F := a_fd (tr_alphabet tr).
  Hypothesis HA : alphabet_of_table names = Ok (tr_alphabet tr).
  Hypothesis Hsmall : (N.of_nat (length names) < 32767)%N.
  Hypothesis Hdef : ~ In DEFAULT names.
  Hypothesis Hval : forall x f, In x names -> denotes x f -> nonempty_value f.
  Hypothesis Hin : inputs <= length names.
  Variable extra : list bstr.
  Let al := set_table (tr_alphabet tr) (names ++ extra).
  Variable limit : option nat.

  (** Every token is an input symbol, or unknown and identity are (or they have no number). *)
  Definition readable (ts : list bstr) : Prop :=
    (forall x, In x ts -> input_symbol g x)
    \/ (forall nm, nm = UNKNOWN \/ nm = IDENTITY -> In nm names -> input_symbol g nm).
  Lemma readable_tl x ts : readable (x :: ts) -> readable ts.
  Proof. intros [H|H]; [left; intros y Hy; apply H; right; exact Hy|right; exact H]. Qed.

  Definition call_total (rec : list N -> list (N * N) -> Z -> fdstate -> N -> lstate -> res lstate) : Prop :=
    forall input ts path w fs e s st, tokens_ok tr g extra input ts -> readable ts -> fd_rel F e fs -> s < length (sts g) ->
    exists st', rec input path w fs (addr s) st = Ok st'.

  Lemma symbol_found s k nm : s < length (sts g) -> nth_error names k = Some nm -> input_symbol g nm ->
    exists hit es, symbol_entries T (addr s) (N.of_nat k) = Ok (hit, es)
      /\ Forall2 (stands_for dec names addr) (filter (fun a => bstr_eqb (isy a) nm) (nth s (sts g) [])) es.
  Proof.
    intros Hs E I. destruct (proj2 (rep_inputs _ _ _ _ R nm) I) as (j & Ej & Lj & Nj). fold names in Ej.
    assert (j = k) by (apply (proj1 (NoDup_nth_error names) (rep_names _ _ _ _ R)); [apply nth_error_Some; congruence|congruence]). subst j.
    destruct (rep_symbol _ _ _ _ R s nm k Hs E Lj Nj) as (hit & es & H1 & H2 & _). eauto.
  Qed.

  Section Step.
    Variable rec : list N -> list (N * N) -> Z -> fdstate -> N -> lstate -> res lstate.
    Hypothesis Hrec : call_total rec.
    Variables (path : list (N * N)) (w : Z) (fs : fdstate) (e : fenv) (s : nat).
    Hypothesis HF : fd_rel F e fs.
    Hypothesis Hs : s < length (sts g).
    Lemma target_in a : In a (nth s (sts g) []) -> tgt a < length (sts g).
    Proof. intros H. exact (proj1 (proj2 HS) s a H). Qed.
    Lemma free_total input ts es : forall arcs, Forall2 (stands_for dec names addr) arcs es -> tokens_ok tr g extra input ts -> readable ts ->
      (forall a, In a arcs -> In a (nth s (sts g) []) /\ free_input (isy a) = true) ->
      forall st, exists st', free_loop dec al T rec path w fs input es st = Ok st'.
    Proof.
      induction es as [|en es IH]; intros arcs H Ht Hr Ha st; inversion H as [|a ? arcs' ? Hst H']; subst; cbn [free_loop]; [eauto|].
      destruct (Ha a (or_introl eq_refl)) as (Harc & Hfree). pose proof Hst as (Hi & Ho & Htg & _).
      assert (IH' : forall st, exists st', free_loop dec al T rec path w fs input es st = Ok st') by (intros st0; apply (IH arcs' H' Ht Hr); intros b Hb; apply Ha; right; exact Hb).
      cbv zeta. rewrite Htg. destruct (N.eqb_spec (te_input en) 0) as [Z|NZ].
      - destruct (Hrec input ts (path ++ [(te_input en, te_output en)]) (w + weight_of dec T en)%Z fs e (tgt a) st Ht Hr HF (target_in a Harc)) as (st1 & ->).
        cbn [rbind]. apply IH'.
      - assert (Di : exists x, denotes (isy a) x).
        { apply is_diacritic_denotes. unfold free_input in Hfree. apply orb_true_iff in Hfree. destruct Hfree as [X|X]; [|exact X].
          apply bstr_eqb_eq in X. exfalso. apply NZ. apply (zero_eps dec tr g addr R _ _ Hi) in X. lia. }
        destruct Di as (x & Dx). destruct (flag_op dec tr g addr R HA Hdef nil _ _ _ Hi Dx) as (op & Eop & Mop).
        change (a_fd al) with (a_fd (tr_alphabet tr)). rewrite Eop.
        assert (Nx : nonempty_value x) by (apply (Hval (isy a)); [exact (nth_error_In _ _ Hi)|exact Dx]).
        destruct (F_ok dec tr g addr R HA Hsmall Hdef Hin nil) as (FO & FS & _). destruct (apply_op_step F FO FS e fs op x HF Mop Nx) as (fs' & -> & HF').
        destruct (snd (Flags_Spec.step x e)); [|apply IH']. destruct (has_trav _ st); [apply IH'|].
        destruct (Hrec input ts (path ++ [(te_input en, te_output en)]) (w + weight_of dec T en)%Z fs' _ (tgt a) (add_trav (addr (tgt a), fs_values fs) st) Ht Hr HF' (target_in a Harc)) as (st1 & ->).
        cbn [rbind]. apply IH'.
    Qed.
    Lemma consume_total k rest ts es : forall arcs, Forall2 (stands_for dec names addr) arcs es -> tokens_ok tr g extra rest ts -> readable ts ->
      (forall a, In a arcs -> In a (nth s (sts g) [])) ->
      forall st, exists st', consume_loop dec al T rec path w fs k rest es st = Ok st'.
    Proof.
      induction es as [|en es IH]; intros arcs H Ht Hr Ha st; inversion H as [|a ? arcs' ? Hst H']; subst; cbn [consume_loop]; [eauto|].
      pose proof Hst as (Hi & Ho & Htg & _). cbv zeta. rewrite Htg.
      edestruct (Hrec rest ts) as (st1 & E1); [exact Ht|exact Hr|exact HF|apply target_in, Ha; left; reflexivity|]. rewrite E1.
      cbn [rbind]. apply (IH arcs' H' Ht Hr). intros b Hb. apply Ha. right. exact Hb.
    Qed.
    Lemma attempt_total k rest ts j nm st : tokens_ok tr g extra rest ts -> readable ts -> nth_error names j = Some nm -> input_symbol g nm ->
      exists st', attempt dec al T rec path w fs k rest (addr s) (N.of_nat j) st = Ok st'.
    Proof.
      intros Ht Hr E I. unfold attempt. destruct (symbol_found s j nm Hs E I) as (hit & es & -> & H). cbn [rbind].
      destruct (consume_total k rest ts es _ H Ht Hr) with (st := st) as (st1 & ->); [intros a Ha; apply filter_In in Ha; apply Ha|]. cbn [rbind]. eauto.
    Qed.
  End Step.

  Lemma search_total d : call_total (get_analyses dec al T limit d).
  Proof.
    induction d as [|d IH]; intros input ts path w fs e s st Ht Hr HF Hs; [simpl; eauto|].
    rewrite get_analyses_S. cbv zeta. destruct (enough_results limit _); [eauto|].
    match goal with |- exists st', rbind ?m _ = _ => assert (X : exists st1, m = Ok st1) end.
    { destruct input; [|eauto]. unfold T. rewrite (rep_final _ _ _ _ R s Hs). cbn [rmap rbind]. eauto. }
    destruct X as (st1 & ->). cbn [rbind].
    destruct (rep_free _ _ _ _ R s Hs) as (hit & es & l & E2 & PL & FL & _).
    assert (X : free_entries al T (addr s) = Ok (hit, es)) by exact E2. rewrite X. cbn [rbind].
    assert (Hl : forall a, In a l -> In a (nth s (sts g) []) /\ free_input (isy a) = true) by (intros a Ha; apply (Permutation_in a PL) in Ha; apply filter_In in Ha; exact Ha).
    destruct (free_total _ IH path w fs e s HF Hs input ts es l FL Ht Hr Hl st1) as (st2 & ->). cbn [rbind].
    generalize (if hit then set_found true st2 else st2). intros st3.
    destruct input as [|k rest]; inversion Ht as [|? x ? ts' (Hk & Hx) Ht' EE]; subst; [eauto|].
    destruct (al_facts dec tr g addr R HA Hdef extra) as (OC & _ & UK & ID & DF). fold names al in OC, UK, ID, DF.
    rewrite DF. change (negb (OLF_Model.NO_SYMBOL =? OLF_Model.NO_SYMBOL)%N) with false. cbn [andb].
    match goal with |- exists st', rbind ?m _ = _ => assert (Y : exists st4, m = Ok st4) end.
    { rewrite OC. pose proof (readable_tl _ _ Hr) as Hr'. pose proof Hk as (Ek & Hkk). destruct Hkk as [(Sx & Lk)|(Sx & Lk)].
      - assert (Ix : input_symbol g x) by (destruct Sx as [C|C]; [exact C|contradiction]).
        rewrite (proj2 (N.ltb_lt _ _)) by (fold names inputs in Lk; lia).
        assert (En' : nth_error names (N.to_nat k) = Some x).
        { cbn [set_table a_table] in Ek. rewrite nth_error_app1 in Ek by (fold names inputs in Lk; fold names; lia). exact Ek. }
        pose proof (attempt_total _ IH path w fs e s HF Hs k rest ts' _ x st3 Ht' Hr' En' Ix) as Y. rewrite N2Nat.id in Y. exact Y.
      - rewrite (proj2 (N.ltb_ge _ _)) by (fold names in Lk; lia).
        assert (NIx : ~ input_symbol g x) by (intros C; apply Sx; left; exact C).
        destruct Hr as [Hr|Hr]; [destruct (NIx (Hr x (or_introl eq_refl)))|].
        assert (One : forall nm sta v, (nm = UNKNOWN \/ nm = IDENTITY) -> v = match position nm names with Some k => N.of_nat k | None => OLF_Model.NO_SYMBOL end ->
          exists stb, (if (v =? OLF_Model.NO_SYMBOL)%N then Ok sta else attempt dec al T (get_analyses dec al T limit d) path w fs k rest (addr s) v sta) = Ok stb).
        { intros nm sta v Hnm ->. destruct (position nm names) as [j|] eqn:Ej; [|change (OLF_Model.NO_SYMBOL =? OLF_Model.NO_SYMBOL)%N with true; eauto].
          apply position_nth in Ej. destruct (N.of_nat j =? OLF_Model.NO_SYMBOL)%N; [eauto|].
          apply (attempt_total _ IH path w fs e s HF Hs k rest ts' _ nm sta Ht' Hr' Ej). apply Hr; [exact Hnm|exact (nth_error_In _ _ Ej)]. }
        destruct (One IDENTITY st3 (a_identity al) (or_intror eq_refl) ID) as (st5 & ->). cbn [rbind].
        apply (One UNKNOWN st5 (a_unknown al) (or_introl eq_refl) UK). }
    destruct Y as (st4 & ->). cbn [rbind]. eauto.
  Qed.
End Total.

(** * Lookup *)
Section Top.
  Variables (dec : N -> Z) (tr : transducer) (g : graph) (addr : nat -> N).
  Hypothesis R : represents dec tr g addr.
  Hypothesis HS : structure_ok g.
  Let names := a_table (tr_alphabet tr).
  Let inputs := N.to_nat (h_input_symbols (tr_header tr)).
  Hypothesis HA : alphabet_of_table names = Ok (tr_alphabet tr).
  Hypothesis HW : t_wclass (tr_tables tr) = true.
  Hypothesis Hsym : forall x, In x names -> x <> [] /\ no_nul x.
  Hypothesis Hsmall : (N.of_nat (length names) < 32767)%N.
  Hypothesis Hdef : ~ In DEFAULT names.
  Hypothesis Hval : forall x f, In x names -> denotes x f -> nonempty_value f.
  Hypothesis Hin : inputs <= length names.
  Hypothesis Hpos : 0 < inputs.

  Lemma tokens_fun s ts : tokens g s ts -> forall ts', tokens g s ts' -> ts = ts'.
  Proof.
    assert (NE : forall x, input_symbol g x \/ x = EPSILON -> x <> []).
    { intros x H. apply (S_spec dec tr g addr R Hin Hpos) in H. destruct H as (k & _ & E). apply nth_error_In in E. apply Hsym in E. apply E. }
    induction 1 as [|w r ts LP H IH|c r ts NP OC H IH]; intros ts' H'.
    - inversion H' as [|w r ts2 (Hw & _) _ E|c r ts2 _ OC _ E]; subst; [reflexivity| |].
      + apply app_eq_nil in E. destruct E as (-> & _). destruct (NE [] Hw eq_refl).
      + apply app_eq_nil in E. destruct E as (-> & _). destruct OC.
    - pose proof (NE w (proj1 LP)) as Hw. destruct (tokens_sym tr g Hin Hpos w r ts' LP Hw H') as (ts2 & -> & H2). f_equal. apply IH, H2.
    - destruct (tokens_char tr g Hin Hpos c r ts' NP OC H') as (ts2 & -> & H2). f_equal. apply IH, H2.
  Qed.
  Lemma tokens_concat s ts : tokens g s ts -> s = concat ts.
  Proof. induction 1; simpl; congruence. Qed.

  Lemma used_grown al en : used dec tr al en -> exists extra, grown tr g al en extra.
  Proof.
    induction 1 as [en E|al en depth limit s res al' en' U IH Ns L E].
    - exists []. constructor.
      + rewrite app_nil_r. destruct (tr_alphabet tr); reflexivity.
      + rewrite app_nil_r. exact E.
      + intros x [].
      + constructor.
      + cbn [length]. fold names. lia.
    - destruct IH as (extra & G). unfold lookup_fd_pairs in E. apply rbind_Ok in E. destruct E as (((o & al1) & en1) & E1 & E).
      pose proof (initialize_spec dec tr g addr R Hsym Hin Hpos (length s) s al en extra (le_n _) G Ns L) as I. rewrite E1 in I. destruct I as ((extra' & G' & _) & _).
      destruct o as [input|]; [|injection E as _ <- <-; eauto]. destruct (get_analyses _ _ _ _ _ _ _ _ _ _ _); cbn [rmap rbind] in E; try discriminate. injection E as _ <- <-. eauto.
  Qed.

  Lemma dom_env0 : dom_ok tr env0.
  Proof. intros f H. destruct H. reflexivity. Qed.
  Lemma fd_env0 : fd_rel (a_fd (tr_alphabet tr)) env0 (fdstate_new (a_fd (tr_alphabet tr))).
  Proof. destruct (F_ok dec tr g addr R HA Hsmall Hdef Hin nil) as (H1 & _ & H2). apply fd_rel_new; assumption. Qed.
  Lemma states_nonempty : 0 < length (sts g).
  Proof. destruct HS as (H & _). destruct (sts g); [congruence|simpl; lia]. Qed.

  Lemma no_epsilon_tokens s ts : no_epsilon s -> tokens g s ts -> ~ In EPSILON ts.
  Proof.
    intros N H. apply tokens_concat in H. intros I. apply N. apply in_split in I. destruct I as (l1 & l2 & ->).
    rewrite concat_app in H. cbn [concat] in H. eauto.
  Qed.
  Lemma tokens_all_ok extra ks ts : ~ In EPSILON ts -> Forall2 (token tr g (set_table (tr_alphabet tr) (names ++ extra))) ks ts -> tokens_ok tr g extra ks ts.
  Proof.
    intros N H. unfold tokens_ok. fold names. induction H as [|k x ks ts H1 H2 IH]; constructor.
    - split; [exact H1|]. intros ->. apply N. left. reflexivity.
    - apply IH. intros C. apply N. right. exact C.
  Qed.

  Theorem lookup_spec al en depth limit s res al' en' : used dec tr al en -> no_nul s -> no_epsilon s ->
    (N.of_nat (length (a_table al) + length s) <= 65535)%N ->
    lookup_fd_pairs dec depth limit (tr_tables tr) al en s = Ok (res, al', en') ->
    (forall x, In x res -> exists ts r, tokens g s ts /\ length r < depth /\ result g ts r (fst x) (snd x))
    /\ (forall ts r w ps, tokens g s ts -> result g ts r w ps -> length r < depth -> unrepeated [] env0 r ->
          (match limit with Some m => length res < m | None => True end) -> In (w, ps) res)
    /\ (forall m, limit = Some m -> length res <= m).
  Proof.
    intros U Ns NE L E. destruct (used_grown al en U) as (extra & G).
    unfold lookup_fd_pairs in E. apply rbind_Ok in E. destruct E as (((o & al1) & en1) & E1 & E).
    pose proof (initialize_spec dec tr g addr R Hsym Hin Hpos (length s) s al en extra (le_n _) G Ns L) as I. rewrite E1 in I. destruct I as ((extra' & G' & _) & _ & I).
    destruct o as [input|].
    2:{ injection E as <- <- <-. split; [intros x []|]. split; [intros ts r w ps Ht; destruct (I ts Ht)|]. intros m _. simpl. lia. }
    destruct I as (ts & Ht & FT). rewrite (gr_al _ _ _ _ _ G') in *. clear G'.
    pose proof (no_epsilon_tokens s ts NE Ht) as Nts. pose proof (tokens_all_ok extra' input ts Nts FT) as TO.
    destruct (get_analyses _ _ _ _ _ _ _ _ _ _ _) as [st'| | |] eqn:EA; cbn [rmap rbind] in E; try discriminate. injection E as <- <- <-.
    fold names in EA.
    assert (CV : covers tr g addr [] (l_travs (LState [] [] false))) by (intros p []).
    change (a_fd (set_table (tr_alphabet tr) (names ++ extra'))) with (a_fd (tr_alphabet tr)) in EA.
    pose proof (rep_start _ _ _ _ R) as A0. assert (EA' := EA). rewrite <- A0 in EA'.
    pose proof (search_ok dec tr g addr R HS HA HW Hsmall Hdef Hval Hin extra' limit depth input ts [] 0%Z _ env0 0 [] _ st' TO fd_env0 dom_env0 states_nonempty CV EA') as P.
    split; [|split].
    - intros x Hx. destruct (po_new _ _ _ _ _ P x Hx) as [[]|(r & t & fw & Lr & Ld & Hfw & ->)].
      exists ts, r. split; [exact Ht|]. split; [exact Ld|]. exists t, fw. split; [exact Lr|]. split; [exact Hfw|]. cbn [fst snd]. split; [lia|reflexivity].
    - intros ts2 r w ps Ht2 (t & fw & Lr & Hfw & -> & ->) Ld UR LM. rewrite <- (tokens_fun s ts Ht ts2 Ht2) in Lr.
      apply (po_all _ _ _ _ _ P).
      + unfold enough_results. destruct limit as [m|]; [|reflexivity]. apply Nat.leb_gt. exact LM.
      + exists r, t, fw. split; [exact Lr|]. split; [exact UR|]. split; [exact Ld|]. split; [exact Hfw|]. reflexivity.
    - intros m Em. apply (po_max _ _ _ _ _ P m Em). simpl. lia.
  Qed.

  (** No reads outside the tables. *)
  Theorem lookup_inside al en depth limit s ts : used dec tr al en -> no_nul s -> no_epsilon s ->
    (N.of_nat (length (a_table al) + length s) <= 65535)%N -> tokens g s ts ->
    (forall x, In x ts -> input_symbol g x) \/ input_symbol g UNKNOWN /\ input_symbol g IDENTITY ->
    exists res al' en', lookup_fd_pairs dec depth limit (tr_tables tr) al en s = Ok (res, al', en').
  Proof.
    intros U Ns NE L Ht Hr. destruct (used_grown al en U) as (extra & G).
    unfold lookup_fd_pairs.
    pose proof (initialize_spec dec tr g addr R Hsym Hin Hpos (length s) s al en extra (le_n _) G Ns L) as I.
    destruct (initialize_input (length s) s al en) as [((o & al1) & en1)| | |]; [|destruct I|destruct (I ts Ht)|destruct I].
    destruct I as ((extra' & G' & _) & _ & I). cbn [rbind]. destruct o as [input|]; [|eauto].
    destruct I as (ts2 & Ht2 & FT). rewrite <- (tokens_fun s ts Ht ts2 Ht2) in FT. rewrite (gr_al _ _ _ _ _ G') in *.
    pose proof (tokens_all_ok extra' input ts (no_epsilon_tokens s ts NE Ht) FT) as TO.
    assert (RD : readable tr g ts) by (destruct Hr as [Hr|(H1 & H2)]; [left; exact Hr|right; intros nm [-> | ->] _; assumption]).
    destruct (search_total dec tr g addr R HS HA Hsmall Hdef Hval Hin extra' limit depth input ts [] 0%Z _ env0 0 (LState [] [] false) TO RD fd_env0 states_nonempty) as (st' & E).
    rewrite (rep_start _ _ _ _ R) in E.
    assert (E2 : get_analyses dec (set_table (tr_alphabet tr) (a_table (tr_alphabet tr) ++ extra')) (tr_tables tr) limit depth input [] 0%Z
      (fdstate_new (a_fd (set_table (tr_alphabet tr) (a_table (tr_alphabet tr) ++ extra')))) 0 (LState [] [] false) = Ok st') by exact E.
    fold names in E2 |- *. rewrite E2. cbn [rmap rbind]. eauto.
  Qed.
End Top.

(** * Converted transducers *)
Lemma converted_facts enc g weighted tr : well_formed g -> plain g -> to_ol enc g weighted = Ok tr ->
  alphabet_of_table (a_table (tr_alphabet tr)) = Ok (tr_alphabet tr)
  /\ t_wclass (tr_tables tr) = true
  /\ (forall x, In x (a_table (tr_alphabet tr)) -> In x (alpha g))
  /\ (N.of_nat (length (a_table (tr_alphabet tr))) < 32767)%N
  /\ N.to_nat (h_input_symbols (tr_header tr)) <= length (a_table (tr_alphabet tr))
  /\ 0 < N.to_nat (h_input_symbols (tr_header tr)).
Proof.
  intros (HS & Sy & Sp & _) (_ & _ & _ & ND & L) H. destruct (to_ol_Ok enc g weighted tr H) as (k & ix & al & _ & _ & HA & ->).
  cbn [tr_tables tr_alphabet tr_header header_make h_input_symbols t_wclass].
  destruct (alphabet_of_table_Ok _ al HA (symbol_table_NoDup g)) as (EN & _). rewrite EN.
  assert (I : forall x, In x (symbol_table g) -> In x (alpha g)).
  { intros x Hx. apply symbol_table_In in Hx. destruct Hx as [-> |[Hx|(a & Ha & Hx)]]; [exact Sp|exact Hx|].
    apply all_arcs_In in Ha. destruct Ha as (s & Ha). destruct (Sy s a Ha) as (H1 & H2). destruct Hx as [-> | ->]; assumption. }
  split; [exact HA|]. split; [reflexivity|]. split; [exact I|].
  assert (Ln : length (symbol_table g) <= length (alpha g)) by (apply NoDup_incl_length; [apply symbol_table_NoDup|exact I]).
  split; [lia|]. rewrite Nat2N.id. split; [|apply seen_pos].
  unfold symbol_table, seen_inputs. cbn [length]. rewrite !app_length. lia.
Qed.
