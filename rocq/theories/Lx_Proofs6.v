(** Proofs for lexc, part 6: what compileLexical makes of the collected entries. *)
From Verif Require Import Base OrdMap BT_Model BT_Spec Tok_Model Tok_Spec Tok_Proofs Str_Model Str_Spec Str_Proofs2 Lx_Model Lx_Spec Lx_Proofs Lx_Proofs2 Lx_Proofs3 Lx_Proofs4 Lx_Proofs5.

(** * Zeros *)
Lemma zeros_none t : ~ occurs ZERO t -> zeros t = t.
Proof.
  assert (G : forall n t, length t <= n -> ~ occurs ZERO t -> zeros t = t).
  { clear t. induction n as [|n IH]; intros t L H; [destruct t; [reflexivity|cbn in L; lia]|]. destruct t as [|a r]; [reflexivity|].
    assert (R : zeros r = r) by (apply IH; [cbn in L; lia|intros (x & y & E); apply H; exists (a :: x), y; cbn [app]; rewrite E; reflexivity]).
    assert (M : forall b c d e f r', r = b :: c :: d :: e :: f :: r' -> bstr_eqb [a; b; c; d; e; f] (B "@ZERO@") = false).
    { intros b c d e f r' ->. apply bstr_eqb_neq. intros E. apply H. exists [], r'. change ([] ++ ZERO ++ r') with (B "@ZERO@" ++ r'). rewrite <- E. reflexivity. }
    destruct r as [|b [|c [|d [|e [|f r']]]]]; cbn [zeros]; cbn [zeros] in R; rewrite ?R; try reflexivity.
    rewrite (M _ _ _ _ _ _ eq_refl). first [reflexivity | f_equal; exact R]. }
  intros H. exact (G (length t) t (le_n _) H).
Qed.
Lemma zeros_first a b : (forall a' b', a ++ ZERO ++ b = a' ++ ZERO ++ b' -> length a <= length a') -> zeros (a ++ ZERO ++ b) = a ++ B "0" ++ zeros b.
Proof.
  induction a as [|x a IH]; intros M.
  - reflexivity.
  - cbn [app]. assert (R : zeros (a ++ ZERO ++ b) = a ++ B "0" ++ zeros b).
    { apply IH. intros a' b' E. specialize (M (x :: a') b'). cbn [app length] in M. rewrite E in M. specialize (M eq_refl). lia. }
    assert (N : forall b1 c d e f r', a ++ ZERO ++ b = b1 :: c :: d :: e :: f :: r' -> bstr_eqb [x; b1; c; d; e; f] (B "@ZERO@") = false).
    { intros b1 c d e f r' E. apply bstr_eqb_neq. intros K. specialize (M [] r'). cbn [app length] in M. rewrite E in M.
      assert (Q : x :: b1 :: c :: d :: e :: f :: r' = ZERO ++ r') by (change (x :: b1 :: c :: d :: e :: f :: r') with ([x; b1; c; d; e; f] ++ r'); rewrite K; reflexivity).
      specialize (M Q). lia. }
    rewrite <- R. destruct (a ++ ZERO ++ b) as [|b1 [|c [|d [|e [|f r']]]]] eqn:E; try (cbn [zeros]; reflexivity).
    change (zeros (x :: b1 :: c :: d :: e :: f :: r')) with (if bstr_eqb [x; b1; c; d; e; f] (B "@ZERO@") then "0"%char :: zeros r' else x :: zeros (b1 :: c :: d :: e :: f :: r')).
    rewrite (N _ _ _ _ _ _ eq_refl). reflexivity.
Qed.
Lemma replace_zeros t : one_zero t -> replace_zero t = zeros t.
Proof.
  intros H. destruct (replace_zero_cases t) as [[N ->]|(a & b & -> & -> & M)]; [symmetry; apply zeros_none; exact N|].
  rewrite zeros_first by exact M. rewrite (zeros_none b); [reflexivity|]. intros (x & y & ->). apply (H a x y). reflexivity.
Qed.

Definition sm : bstr -> bstr := substitute small_substitutions.
Lemma sm_other s : s <> ZERO_EPS -> s <> OTHER_EPS -> s <> ZERO -> sm s = s.
Proof.
  intros H1 H2 H3. unfold sm, substitute, small_substitutions. cbn [mget].
  destruct (bcmp s ZERO_EPS) eqn:E1; [apply bcmp_eq in E1; congruence| |];
  (destruct (bcmp s OTHER_EPS) eqn:E2; [apply bcmp_eq in E2; congruence| |];
   (destruct (bcmp s ZERO) eqn:E3; [apply bcmp_eq in E3; congruence|reflexivity|reflexivity])).
Qed.
Lemma sm_coded w : coded w -> sm w = w.
Proof. intros (b & -> & _). apply sm_other; discriminate. Qed.
Lemma sm_silent t : silent t -> sm (fix_zero t) = EPS.
Proof. intros [->|[->|[->| ->]]]; vm_compute; reflexivity. Qed.
Lemma silent_dec t : silent t \/ ~ silent t.
Proof.
  unfold silent. destruct (bstr_eq_dec t (B "0")) as [->|N1]; [auto|]. destruct (bstr_eq_dec t (B "@0@")) as [->|N2]; [auto|].
  destruct (bstr_eq_dec t (B "@@ANOTHER_EPSILON@@")) as [->|N3]; [auto|]. destruct (bstr_eq_dec t (B "@_EPSILON_SYMBOL_@")) as [->|N4]; [auto|]. right. tauto.
Qed.
Lemma sm_loud t : usable t -> ~ silent t -> fix_zero t = zeros t /\ sm (zeros t) = zeros t /\ visible (zeros t).
Proof.
  intros [H|[H V]] N; [contradiction|]. assert (F : fix_zero t = zeros t).
  { unfold fix_zero. destruct (bstr_eqb t (B "0")) eqn:E; [|apply replace_zeros; exact H]. apply bstr_eqb_eq in E. exfalso. apply N. left. exact E. }
  split; [exact F|]. split; [|exact V]. destruct V as (V1 & V2 & _ & V4). apply sm_other; auto. intros E. apply V4. rewrite E. exists []. reflexivity.
Qed.
Definition dn (ts : list bstr) : list bstr := strip (map (fun t => sm (fix_zero t)) ts).
Lemma visible_not_eps s : visible s -> s <> EPS.
Proof. intros (_ & _ & V & _) ->. apply V. exists (B "EPSILON_SYMBOL_@"). reflexivity. Qed.
Lemma dn_denote ts : Forall usable ts -> forall x, denote ts x <-> x = dn ts.
Proof.
  induction 1 as [|t ts Ht Hts IH]; intros x.
  - split; [inversion 1; reflexivity|intros ->; constructor].
  - unfold dn. cbn [map strip filter]. destruct (silent_dec t) as [Sl|Sl].
    + rewrite (sm_silent t Sl). change (bstr_eqb EPS EPS) with true. cbn [negb]. fold (strip (map (fun t => sm (fix_zero t)) ts)). change (strip _) with (dn ts).
      split; [inversion 1; subst; [apply IH; assumption|contradiction]|intros ->; apply dn_silent; [exact Sl|apply IH; reflexivity]].
    + destruct (sm_loud t Ht Sl) as (-> & -> & V). pose proof (visible_not_eps _ V) as Ne. apply bstr_eqb_neq in Ne. rewrite Ne. cbn [negb].
      fold (strip (map (fun t => sm (fix_zero t)) ts)). change (strip _) with (dn ts).
      split; [inversion 1; subst; [contradiction|f_equal; apply IH; assumption]|intros ->; apply dn_symbol; [exact Sl|apply IH; reflexivity]].
Qed.
Lemma dn_padded n ts : dn (padded n ts) = dn ts.
Proof.
  unfold dn, padded. rewrite map_app, strip_app. rewrite <- app_nil_r. f_equal.
  induction (n - length ts) as [|k IH]; [reflexivity|]. cbn [repeat map strip filter]. change (sm (fix_zero OTHER_EPS)) with EPS. change (bstr_eqb EPS EPS) with true. exact IH.
Qed.
Lemma dn_symbols ts : Forall usable ts -> Forall good_token ts -> Forall (fun y => hidden_symbol y = false /\ ~ In dollar y) (dn ts).
Proof.
  intros U Gd. apply Forall_forall. intros y Hy. unfold dn in Hy. apply filter_In in Hy. destruct Hy as [Hy Ne].
  apply in_map_iff in Hy. destruct Hy as (t & <- & Ht). rewrite Forall_forall in U, Gd. specialize (U t Ht). specialize (Gd t Ht).
  destruct (silent_dec t) as [Sl|Sl]; [rewrite (sm_silent t Sl) in Ne; discriminate|].
  destruct (sm_loud t U Sl) as (E1 & E2 & V). rewrite E1, E2. assert (D : ~ In dollar (zeros t)) by (rewrite <- E1; apply plain_fix, Gd). split; [|exact D].
  destruct V as (V1 & V2 & V3 & V4). unfold hidden_symbol. cbn [existsb].
  assert (P : forall p, ~ starts p (zeros t) -> bstr_eqb (firstn (length p) (zeros t)) p = false).
  { intros p Hp. apply bstr_eqb_neq. intros E. apply Hp. exists (skipn (length p) (zeros t)). rewrite <- E at 1. symmetry. apply firstn_skipn. }
  assert (Q : forall p, ~ starts (dollar :: p) (zeros t)) by (intros p [r E]; apply D; rewrite E; left; reflexivity).
  rewrite (P OTHER_EPS V4), (P (B "@_") V3), (P (B "$_LEXC_JOINER.") (Q _)), (P (B "$P.LEXNAME.") (Q _)), (P (B "$R.LEXNAME.") (Q _)). reflexivity.
Qed.

(** * Words of the filter *)
Lemma first_code gr split (S : bstr -> Prop) w f us : coded w -> S w -> (forall v, S v -> shape v /\ v <> []) ->
  segmentation S (character gr split) (w ++ f) us -> exists us', us = w :: us' /\ segmentation S (character gr split) f us'.
Proof.
  intros Hc Hw HS H.
  assert (L : longest_prefix S (w ++ f) w).
  { destruct Hc as (b & Ew & Nb & Nr). split; [exact Hw|]. split; [exists f; reflexivity|].
    intros v Hv P. destruct (HS v Hv) as [Sv Nv]. rewrite (code_prefix b f v Nb Nr Sv Nv), <- Ew; [lia|].
    rewrite Ew in P. cbn [app] in P. rewrite <- app_assoc in P. exact P. }
  remember (w ++ f) as s eqn:Es. destruct H as [|v r ts L' H|c r ts N Hx H].
  - destruct Hc as (b & -> & _). discriminate.
  - pose proof (longest_det _ _ _ _ L L') as <-. apply app_inv_head in Es. subst. eauto.
  - destruct (N w Hw (proj1 (proj2 L))).
Qed.
Lemma jw_spec gr u8 c l r ns : forall ws, joiner_words gr u8 c l r ns = Ok ws ->
  (forall v, In v ws -> exists n, In n ns /\ tokens gr u8 c false (l n ++ r n) = Ok v) /\
  (forall n, In n ns -> exists v, In v ws /\ tokens gr u8 c false (l n ++ r n) = Ok v).
Proof.
  induction ns as [|n ns IH]; intros ws H; cbn [joiner_words] in H.
  - injection H as <-. split; [intros v []|intros n []].
  - destruct (tokens gr u8 c false (l n ++ r n)) as [v| | |] eqn:T; try discriminate. cbn [rbind] in H.
    destruct (joiner_words gr u8 c l r ns) as [vs| | |]; try discriminate. cbn [rmap] in H. injection H as <-.
    destruct (IH vs eq_refl) as [I1 I2]. split.
    + intros v' [<-|K]; [exists n; split; [left; reflexivity|exact T]|]. destruct (I1 v' K) as (m & Hm & Tm). exists m. split; [right; exact Hm|exact Tm].
    + intros m [<-|K]; [exists v; split; [left; reflexivity|exact T]|]. destruct (I2 m K) as (v' & Hv & Tm). exists v'. split; [right; exact Hv|exact Tm].
Qed.
Lemma known_dec c w : knows c w \/ ~ knows c w.
Proof.
  unfold knows. destruct (in_dec bstr_eq_dec w (known c)) as [H|H]; [|right; tauto]. destruct (bstr_eq_dec w []) as [->|N]; [right; tauto|auto].
Qed.

Section Words.
  Variable gr : bstr -> nat.
  Variable u8 : bstr -> bool.
  Hypothesis Hgr : forall x, x <> [] -> utf8 x -> exists c r, x = c ++ r /\ length c = gr x /\ utf8 c /\ c <> [].
  Variable fl : bool.
  Variable c : lexc.
  Hypothesis HT : forall w, In w (known c) -> text w /\ shape w.
  Let HS : forall w, knows c w -> shape w /\ w <> [].
  Proof. intros w [N K]. split; [apply HT; exact K|exact N]. Qed.
  Let HK : forall w, In w (known c) -> text w.
  Proof. intros w K. apply HT, K. Qed.
  Lemma code_token w v : coded w -> text w -> knows c w -> tokens gr u8 c false w = Ok v -> v = [(w, w)].
  Proof. intros Hc [U _] Hw T. eapply (tokens_as gr u8 Hgr c false w v [w]); eauto. apply seg_end; auto. Qed.
  Lemma word_tokens n v : name n -> tokens gr u8 c false (cc fl n ++ nc fl n) = Ok v ->
    Forall (fun p => fst p = snd p /\ fst p <> EPS) v /\ word_shape fl (knows c) (map fst v) /\
    (knows c (cc fl n) -> knows c (nc fl n) -> map fst v = [cc fl n; nc fl n]).
  Proof.
    intros Hn T. assert (U : utf8 (cc fl n ++ nc fl n)) by (apply utf8_app; [apply cc_text|apply nc_text]; exact Hn).
    destruct (tokens_ok gr u8 Hgr c false _ v HK U T) as (ts & -> & Sg).
    assert (Em : map fst (dup ts) = ts) by (unfold dup; rewrite map_map; cbn [fst]; apply map_id).
    pose proof (seg_concat _ _ _ _ _ Sg) as Ec. rewrite Em. split; [|split].
    - apply Forall_forall. intros p Hp. unfold dup in Hp. apply in_map_iff in Hp. destruct Hp as (t & <- & Ht). cbn [fst snd]. split; [reflexivity|].
      intros E. assert (K : In "@"%char (cc fl n ++ nc fl n)).
      { rewrite <- Ec. apply in_concat. exists t. split; [exact Ht|]. rewrite E. left. reflexivity. }
      apply in_app_or in K. destruct K as [K|K]; [exact (cc_no_at fl n Hn K)|exact (nc_no_at fl n Hn K)].
    - destruct (known_dec c (cc fl n)) as [K1|K1].
      + destruct (first_code gr false (knows c) _ _ _ (cc_coded fl n Hn) K1 HS Sg) as (us & -> & Sg').
        rewrite <- (app_nil_r (nc fl n)) in Sg'. destruct (known_dec c (nc fl n)) as [K2|K2].
        * destruct (first_code gr false (knows c) _ _ _ (nc_coded fl n Hn) K2 HS Sg') as (us' & -> & Sg'').
          inversion Sg'' as [|w r ts L H E|w r ts N' Hx H E]; subst; [left; eauto| |].
          -- apply app_eq_nil in E. destruct E as [-> _]. destruct (proj1 (proj1 L) eq_refl).
          -- apply app_eq_nil in E. destruct E as [-> _]. destruct Hx as [_ Hx]. congruence.
        * destruct (seg_unknown gr false (knows c) _ _ _ (nc_coded fl n Hn) K2 HS Sg') as (t & us' & -> & J). right. right. exists n, t, us'. auto.
      + destruct (seg_unknown gr false (knows c) _ _ _ (cc_coded fl n Hn) K1 HS Sg) as (t & us' & -> & J). right. left. exists t, us'. auto.
    - intros K1 K2. eapply seg_det; [exact Sg|reflexivity| |intros w Hw; exact (proj1 Hw)].
      apply seg_code; auto; [apply cc_coded; exact Hn|]. apply seg_end; auto. apply nc_coded; exact Hn.
  Qed.
End Words.

(** * Up to the composition with the filter *)
Definition sm2 (p : bstr * bstr) : bstr * bstr := (sm (fst p), sm (snd p)).
Definition bd (e : entry) : list (bstr * bstr) :=
  match e_body e with Literal u l => body_label u l | Regexp _ => [(e_key e, e_key e)] end.
Definition both (s : bstr) : bstr * bstr := (s, s).
Lemma label_bd fl e : label fl e = both (nc fl (e_lexicon e)) :: bd e ++ [both (cc fl (e_continuation e))].
Proof. unfold label, bd. destruct (e_body e); reflexivity. Qed.
Definition obody (e : entry) : list bstr := strip (map snd (map sm2 (bd e))).
Definition cat_of (start stop : list (bstr * bstr)) (A : wlang) : wlang := w_cat (w_cat (w_word start) (w_map sm (w_star A))) (w_word stop).
Lemma map_fst_combine {A B} (a : list A) : forall (b : list B), length a = length b -> map fst (combine a b) = a.
Proof. induction a as [|x a IH]; intros [|y b] L; try discriminate; [reflexivity|]. cbn [combine map fst]. f_equal. apply IH. injection L as L. exact L. Qed.
Lemma map_snd_combine {A B} (a : list A) : forall (b : list B), length a = length b -> map snd (combine a b) = b.
Proof. induction a as [|x a IH]; intros [|y b] L; try discriminate; [reflexivity|]. cbn [combine map snd]. f_equal. apply IH. injection L as L. exact L. Qed.
Lemma body_fst u l : map fst (map sm2 (body_label u l)) = map (fun t => sm (fix_zero t)) (padded (length l) u).
Proof.
  unfold body_label. rewrite map_map. cbn [sm2 fst]. rewrite <- (map_map fst sm), map_fst_combine, map_map; [reflexivity|].
  rewrite !map_length, !padded_length. lia.
Qed.
Lemma body_snd u l : map snd (map sm2 (body_label u l)) = map (fun t => sm (fix_zero t)) (padded (length u) l).
Proof.
  unfold body_label. rewrite map_map. cbn [sm2 snd]. rewrite <- (map_map snd sm), map_snd_combine, map_map; [reflexivity|].
  rewrite !map_length, !padded_length. lia.
Qed.
Lemma strip_coded w r : coded w -> strip (w :: r) = w :: strip r.
Proof. intros (b & -> & _). reflexivity. Qed.
Lemma key_code fl c e : entry_ok fl c e -> coded (e_key e).
Proof. intros []. apply key_coded; assumption. Qed.

Section Compile.
  Variable gr : bstr -> nat.
  Variable u8 : bstr -> bool.
  Hypothesis Hgr : forall x, x <> [] -> utf8 x -> exists c r, x = c ++ r /\ length c = gr x /\ utf8 c /\ c <> [].
  Variable fl sp : bool.
  Variable c : lexc.
  Variable G : list entry.
  Hypothesis I : inv fl sp c G.
  Hypothesis HU : Forall usable_entry G.
  Hypothesis Hinit : exists e, In e G /\ e_lexicon e = initialName c.
  Notation A := (accepts (stringsTrie c)).
  Notation init := (initialName c).

  Definition c1 : lexc := if fl then add_known (flagJoinerEncode HASH true) (add_known (flagJoinerEncode HASH false) c) else c.
  Lemma ext_c1 : ext c c1.
  Proof.
    unfold c1. destruct fl; [|apply ext_refl]. destruct (nc_shape true HASH hash_name), (cc_shape true HASH hash_name).
    eapply ext_trans; apply ext_known; assumption.
  Qed.
  Lemma c1_text w : In w (known c1) -> text w /\ shape w.
  Proof. exact (i_text _ _ _ _ (ext_inv _ _ _ _ _ ext_c1 I) w). Qed.
  Lemma c1_hash : knows c1 (cc fl HASH) /\ knows c1 (nc fl HASH).
  Proof.
    assert (N1 : cc fl HASH <> []) by (apply coded_nonempty, cc_coded, hash_name). assert (N2 : nc fl HASH <> []) by (apply coded_nonempty, nc_coded, hash_name).
    pose proof (i_hashcode _ _ _ _ I) as Hh. unfold knows, c1. destruct fl; cbn [cc nc]; repeat split; auto; cbn; apply in_or_app; cbn; auto.
    left. apply in_or_app. right. left. reflexivity.
  Qed.
  Lemma G_knows e : In e G -> knows c1 (nc fl (e_lexicon e)) /\ knows c1 (cc fl (e_continuation e)) /\ knows c1 (cc fl (e_lexicon e)).
  Proof.
    intros He. destruct (i_G _ _ _ _ I e He). pose proof (ext_incl _ _ ext_c1) as Inc.
    repeat split; auto; apply coded_nonempty; [apply nc_coded|apply cc_coded|apply cc_coded]; assumption.
  Qed.
  Lemma init_known : knows c (cc fl init).
  Proof.
    destruct Hinit as (e & He & <-). destruct (i_G _ _ _ _ I e He). split; [apply coded_nonempty, cc_coded|]; assumption.
  Qed.
  Lemma entry_out e : In e G -> Forall (fun y => hidden_symbol y = false /\ (knows c1 y \/ ~ In dollar y)) (obody e).
  Proof.
    intros He. pose proof (i_G _ _ _ _ I e He) as K. pose proof (key_code _ _ _ K) as Kc. destruct K.
    rewrite Forall_forall in HU. specialize (HU e He). unfold usable_entry in HU. unfold obody, bd. destruct (e_body e) as [u l|r].
    - rewrite body_snd. change (strip (map _ (padded (length u) l))) with (dn (padded (length u) l)). rewrite dn_padded.
      eapply Forall_impl; [|apply dn_symbols; tauto]. cbn beta. tauto.
    - cbn [map sm2 snd fst]. rewrite (sm_coded _ Kc), (strip_coded _ _ Kc). cbn [strip filter]. constructor; [|constructor].
      split; [reflexivity|]. left. split; [apply coded_nonempty, Kc|]. apply (ext_incl _ _ ext_c1). exact k_body.
  Qed.
  Lemma labels_outs es : Forall (fun e => In e G) es -> strip (map snd (map sm2 (labels fl es))) = outs fl obody es.
  Proof.
    induction 1 as [|e es He Hes IH]; [reflexivity|]. unfold labels in *. cbn [map concat outs]. rewrite !map_app, strip_app, IH, label_bd.
    destruct (i_G _ _ _ _ I e He). cbn [map both sm2 snd fst]. rewrite (sm_coded _ (nc_coded fl _ k_lex)), (strip_coded _ _ (nc_coded fl _ k_lex)).
    cbn [app]. f_equal. rewrite !map_app, strip_app. unfold obody. rewrite <- app_assoc. f_equal. cbn [map sm2 both snd fst].
    rewrite (sm_coded _ (cc_coded fl _ k_cont)), (strip_coded _ _ (cc_coded fl _ k_cont)). reflexivity.
  Qed.
  Lemma cat_iff start stop l w : cat_of start stop A l w <->
    exists es, Forall (fun e => In e G) es /\ entries_of A fl es w /\ l = start ++ map sm2 (labels fl es) ++ stop.
  Proof.
    unfold cat_of, w_cat, w_word, w_map. split.
    - intros (l1 & w1 & l2 & w2 & (l3 & w3 & l4 & w4 & (-> & ->) & (l5 & H & ->) & -> & ->) & (-> & ->) & -> & ->).
      apply (star_entries _ _ _ _ _ _ I) in H. destruct H as (es & F & E & ->). exists es. split; [exact F|]. split; [|rewrite <- app_assoc; reflexivity].
      replace (0 + w4 + 0)%Z with w4 by lia. exact E.
    - intros (es & F & E & ->). exists (start ++ map sm2 (labels fl es)), w, stop, 0%Z. split; [|split; [auto|split; [apply app_assoc|lia]]].
      exists start, 0%Z, (map sm2 (labels fl es)), w. split; [auto|]. split; [|split; [reflexivity|lia]].
      exists (labels fl es). split; [|reflexivity]. apply (star_entries _ _ _ _ _ _ I). eauto.
  Qed.
  Lemma filtered start stop words l w :
    tokens gr u8 c false (cc fl init) = Ok start -> tokens gr u8 c1 false (nc fl HASH) = Ok stop ->
    joiner_words gr u8 c1 (cc fl) (nc fl) (lexiconNames c) = Ok words ->
    (w_compose (cat_of start stop A) (joiners_all words (cat_of start stop A)) l w <->
     exists es, Forall (fun e => In e G) es /\ entries_of A fl es w /\ linked init es /\
       l = both (cc fl init) :: map sm2 (labels fl es) ++ [both (nc fl HASH)]).
  Proof.
    intros T1 T2 TW. pose proof (i_init _ _ _ _ I) as Hi.
    rewrite (code_token gr u8 Hgr c (i_text _ _ _ _ I) _ _ (cc_coded fl _ Hi) (cc_text fl _ Hi) init_known T1).
    rewrite (code_token gr u8 Hgr c1 c1_text _ _ (nc_coded fl _ hash_name) (nc_text fl _ hash_name) (proj2 c1_hash) T2). clear T1 T2 start stop.
    destruct (jw_spec _ _ _ _ _ _ _ TW) as [J1 J2].
    assert (HW : forall v, In v words -> Forall (fun p : bstr * bstr => fst p = snd p /\ fst p <> EPS) v).
    { intros v Hv. destruct (J1 v Hv) as (n & Hn & T). apply (word_tokens gr u8 Hgr fl c1 c1_text n v (i_names _ _ _ _ I n Hn) T). }
    set (LX := cat_of [(cc fl init, cc fl init)] [(nc fl HASH, nc fl HASH)] A).
    assert (HWS : forall w0, word_of words w0 -> word_shape fl (knows c1) w0).
    { intros w0 (v & Hv & ->). destruct (J1 v Hv) as (n & Hn & T). apply (word_tokens gr u8 Hgr fl c1 c1_text n v (i_names _ _ _ _ I n Hn) T). }
    assert (HWG : forall n, In n (lexiconNames c) -> knows c1 (cc fl n) -> knows c1 (nc fl n) -> word_of words [cc fl n; nc fl n]).
    { intros n Hn K1 K2. destruct (J2 n Hn) as (v & Hv & T). exists v. split; [exact Hv|]. symmetry.
      apply (word_tokens gr u8 Hgr fl c1 c1_text n v (i_names _ _ _ _ I n Hn) T); assumption. }
    assert (EO : forall es, Forall (fun e => In e G) es ->
      strip (map snd ([(cc fl init, cc fl init)] ++ map sm2 (labels fl es) ++ [(nc fl HASH, nc fl HASH)])) = cc fl init :: outs fl obody es ++ [nc fl HASH]).
    { intros es F. cbn [app map snd]. rewrite (strip_coded _ _ (cc_coded fl _ Hi)), map_app, strip_app, (labels_outs es F). f_equal. f_equal.
      cbn [map snd]. exact (strip_coded _ [] (nc_coded fl _ hash_name)). }
    unfold w_compose. split.
    - intros (l1 & w1 & l2 & w2 & H1 & H2 & Hc & ->). destruct (joiners_id _ _ _ _ HW H2) as [-> Hid].
      apply (composed_id l2 Hid) in Hc. destruct Hc as [-> Hm]. apply cat_iff in H1. destruct H1 as (es & F & E & ->).
      exists es. split; [exact F|]. split; [rewrite Z.add_0_r; exact E|]. split; [|reflexivity].
      assert (P : passes (word_of words) (fun y => hidden_symbol y = false /\ out_symbol LX y) (cc fl init :: outs fl obody es ++ [nc fl HASH])).
      { apply (joiners_passes words LX HW). exists l2, 0%Z. split; [exact H2|]. rewrite Hm. apply EO. exact F. }
      eapply (chain_sound fl (knows c1) (word_of words) _ obody HWS); [| | | |exact P].
      + intros y Hy. exact (proj1 Hy).
      + intros e He. rewrite Forall_forall in F. destruct (G_knows e (F e He)) as (Q1 & Q2 & _). split; [exact Q1|]. split; [exact Q2|]. apply entry_out. auto.
      + destruct init_known as [N K]. split; [exact N|apply (ext_incl _ _ ext_c1); exact K].
      + apply c1_hash.
    - intros (es & F & E & L & ->).
      assert (HL : LX ([(cc fl init, cc fl init)] ++ map sm2 (labels fl es) ++ [(nc fl HASH, nc fl HASH)]) w) by (apply cat_iff; eauto).
      assert (P : passes (word_of words) (fun y => hidden_symbol y = false /\ out_symbol LX y) (cc fl init :: outs fl obody es ++ [nc fl HASH])).
      { apply chain_complete; auto.
        - intros e He. rewrite Forall_forall in F. destruct (G_knows e (F e He)) as (Q1 & _ & Q3). split.
          + apply HWG; auto. apply (i_G _ _ _ _ I e (F e He)).
          + pose proof (entry_out e (F e He)) as Q. apply Forall_forall. intros y Hy. rewrite Forall_forall in Q. split; [apply (Q y Hy)|].
            exists ([(cc fl init, cc fl init)] ++ map sm2 (labels fl es) ++ [(nc fl HASH, nc fl HASH)]), w. split; [exact HL|].
            assert (Ho : In y (outs fl obody es)).
            { clear -He Hy. induction es as [|e' es IH]; [destruct He|]. cbn [outs]. right. apply in_or_app. destruct He as [->|He]; [left; exact Hy|right; right; auto]. }
            cbn [app map snd]. right. rewrite map_app. apply in_or_app. left.
            rewrite <- (labels_outs es) in Ho by (apply Forall_forall; auto). unfold strip in Ho. apply filter_In in Ho. apply Ho.
        - apply HWG; [apply (i_hash _ _ _ _ I)|apply c1_hash|apply c1_hash]. }
      apply (joiners_passes words LX HW) in P. destruct P as (l2 & w2 & J & Hm). destruct (joiners_id _ _ _ _ HW J) as [-> Hid].
      exists ([(cc fl init, cc fl init)] ++ map sm2 (labels fl es) ++ [(nc fl HASH, nc fl HASH)]), w, l2, 0%Z.
      split; [exact HL|]. split; [exact J|]. split; [|lia]. apply (composed_id l2 Hid). split; [reflexivity|]. rewrite Hm. symmetry. apply EO. exact F.
  Qed.
End Compile.
