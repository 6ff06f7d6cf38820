(** Proofs for lexc, part 5: chains of entries. *)
From Verif Require Import Base OrdMap BT_Model BT_Spec BT_Proofs5 BT_Props Tok_Model Tok_Spec Tok_Proofs Str_Model Str_Spec Str_Proofs2 Lx_Model Lx_Spec Lx_Proofs Lx_Proofs2 Lx_Proofs3 Lx_Proofs4.

(** * The trie *)
Lemma body_nonempty u l : Forall good_token u -> Forall good_token l -> Forall (fun p => fst p <> [] /\ snd p <> []) (body_label u l).
Proof.
  intros Hu Hl. unfold body_label. apply Forall_forall. intros [x y] H. cbn [fst snd].
  assert (A : forall n ts, Forall good_token ts -> forall z, In z (map fix_zero (padded n ts)) -> z <> []).
  { intros n ts F z Hz. apply in_map_iff in Hz. destruct Hz as (t & <- & Ht). apply fix_nonempty. unfold padded in Ht. apply in_app_or in Ht.
    destruct Ht as [Ht|Ht]; [rewrite Forall_forall in F; apply F; exact Ht|]. apply repeat_spec in Ht. rewrite Ht. discriminate. }
  split; [exact (A _ _ Hu x (in_combine_l _ _ _ _ H))|exact (A _ _ Hl y (in_combine_r _ _ _ _ H))].
Qed.
Lemma coded_nonempty w : coded w -> w <> [].
Proof. intros (b & -> & _). discriminate. Qed.
Lemma label_nonempty fl c e : entry_ok fl c e -> Forall (fun p => fst p <> [] /\ snd p <> []) (label fl e).
Proof.
  intros K. unfold label. constructor; [cbn; split; apply coded_nonempty, nc_coded, K|]. apply Forall_app. split.
  - pose proof (k_body _ _ _ K) as B. destruct (e_body e) as [u l|r]; [apply body_nonempty; tauto|]. constructor; [|constructor]. cbn. split; discriminate.
  - constructor; [|constructor]. cbn. split; apply coded_nonempty, cc_coded, K.
Qed.
Lemma trie_accepts fl sp c G : inv fl sp c G -> forall l w, accepts (stringsTrie c) l w <-> min_weight (map (stored fl) G) l w.
Proof.
  intros I. destruct (C17_trie (map (stored fl) G)) as (g & E & A & _).
  - apply Forall_forall. intros x Hx. apply in_map_iff in Hx. destruct Hx as (e & <- & He). cbn [stored fst]. eapply label_nonempty. apply (i_G _ _ _ _ I e He).
  - rewrite (i_trie _ _ _ _ I) in E. injection E as ->. exact A.
Qed.
Lemma min_exists es l : (exists w, In (l, w) es) -> exists w, min_weight es l w.
Proof.
  induction es as [|[l0 w0] es IH]; intros [w H]; [destruct H|].
  assert (D : (exists w, In (l, w) es) \/ ~ exists w, In (l, w) es).
  { clear. induction es as [|[l1 w1] es IH]; [right; intros [w []]|]. destruct (pairs_eq_dec l l1) as [->|N]; [left; exists w1; left; reflexivity|].
    destruct IH as [[w H]|H]; [left; exists w; right; exact H|right; intros [w [K|K]]; [congruence|eauto]]. }
  destruct D as [D|D].
  - destruct (IH D) as (v & V1 & V2). destruct (pairs_eq_dec l l0) as [<-|N].
    + exists (Z.min v w0). split.
      * destruct (Z.le_ge_cases v w0); [rewrite Z.min_l by assumption; right; exact V1|rewrite Z.min_r by assumption; left; reflexivity].
      * intros u [K|K]; [injection K as ->; lia|specialize (V2 u K); lia].
    + exists v. split; [right; exact V1|]. intros u [K|K]; [congruence|auto].
  - destruct H as [H|H]; [|exfalso; eauto]. injection H as -> ->. exists w. split; [left; reflexivity|].
    intros u [K|K]; [injection K as ->; lia|exfalso; eauto].
Qed.
Lemma trie_sound fl sp c G l w : inv fl sp c G -> accepts (stringsTrie c) l w -> exists e, In e G /\ l = label fl e /\ w = e_weight e.
Proof.
  intros I H. apply (trie_accepts _ _ _ _ I) in H. destruct H as [H _]. apply in_map_iff in H. destruct H as (e & E & He).
  unfold stored in E. injection E as <- <-. eauto.
Qed.
Lemma trie_complete fl sp c G e : inv fl sp c G -> In e G -> exists w, (w <= e_weight e)%Z /\ accepts (stringsTrie c) (label fl e) w.
Proof.
  intros I H. assert (K : In (label fl e, e_weight e) (map (stored fl) G)) by (apply in_map_iff; exists e; auto).
  destruct (min_exists (map (stored fl) G) (label fl e)) as [w M]; [eauto|]. exists w. split; [apply M; exact K|]. apply (trie_accepts _ _ _ _ I). exact M.
Qed.

(** * The filter *)
Lemma strip_app a b : strip (a ++ b) = strip a ++ strip b.
Proof. apply filter_app. Qed.
Lemma composed_id l2 : Forall (fun p : bstr * bstr => fst p = snd p /\ fst p <> EPS) l2 -> forall l1 l,
  composed l1 l2 l <-> l = l1 /\ map fst l2 = strip (map snd l1).
Proof.
  intros F l1 l. split.
  - intros H. induction H as [|x y z l1 l2 l Hy H IH|x l1 l2 l H IH|z l1 l2 l H IH]; [auto| | |].
    + inversion F as [|p q [E _] F2]; subst. cbn [fst snd] in E. subst z. destruct (IH F2) as [-> E2]. split; [reflexivity|].
      cbn [map strip filter snd fst]. apply bstr_eqb_neq in Hy. rewrite Hy. cbn [negb]. f_equal. exact E2.
    + destruct (IH F) as [-> E2]. split; [reflexivity|]. cbn [map strip filter snd]. change (bstr_eqb EPS EPS) with true. cbn [negb]. exact E2.
    + inversion F as [|p q [E N] F2]; subst. cbn [fst snd] in *. congruence.
  - intros [-> E]. revert l2 F E. induction l1 as [|[x y] l1 IH]; intros l2 F E.
    + destruct l2; [constructor|discriminate].
    + cbn [map strip filter snd] in E. destruct (bstr_eqb y EPS) eqn:Ey; cbn [negb] in E.
      * apply bstr_eqb_eq in Ey. subst y. apply cm_left. apply IH; auto.
      * destruct l2 as [|[a b] l2]; [discriminate|]. inversion F as [|p q [E1 E2] F2]; subst. cbn [fst snd map] in *. subst b.
        injection E as -> E. apply cm_both; [exact E2|]. apply IH; auto.
Qed.
(** Sequences of symbols that the filter lets through. *)
Inductive passes (W : list bstr -> Prop) (V : bstr -> Prop) : list bstr -> Prop :=
| ps_nil : passes W V []
| ps_word w o : W w -> passes W V o -> passes W V (w ++ o)
| ps_sym y o : V y -> passes W V o -> passes W V (y :: o).
Definition word_of (words : list (list (bstr * bstr))) (w : list bstr) : Prop := exists v, In v words /\ w = map fst v.
Definition out_symbol (lexicons : wlang) (y : bstr) : Prop := exists l w, lexicons l w /\ In y (map snd l).
Lemma joiners_passes words lex : (forall v, In v words -> Forall (fun p : bstr * bstr => fst p = snd p /\ fst p <> EPS) v) ->
  forall o, (exists l2 w, joiners_all words lex l2 w /\ map fst l2 = o) <->
            passes (word_of words) (fun y => hidden_symbol y = false /\ out_symbol lex y) o.
Proof.
  intros HW o. split.
  - intros (l2 & w & H & <-). unfold joiners_all in H. induction H as [|l1 w1 l2 w2 [_ H] H2 IH]; [constructor|].
    rewrite map_app. destruct H as [H|(y & l0 & w0 & L & Iy & Hd & ->)].
    + apply ps_word; [exists l1; auto|exact IH].
    + cbn [map fst app]. apply ps_sym; [|exact IH]. split; [exact Hd|]. exists l0, w0. auto.
  - induction 1 as [|w o (v & Hv & ->) H (l2 & u & J & <-)|y o [Hd (l0 & w0 & L & Iy)] H (l2 & u & J & <-)].
    + exists [], 0%Z. split; [constructor|reflexivity].
    + exists (v ++ l2), (0 + u)%Z. split; [apply ws_cons; auto|apply map_app].
    + exists ([(y, y)] ++ l2), (0 + u)%Z. split; [|reflexivity]. apply ws_cons; [|exact J]. split; [reflexivity|]. right. exists y, l0, w0. auto.
Qed.
Lemma joiners_id words lex l2 w : (forall v, In v words -> Forall (fun p : bstr * bstr => fst p = snd p /\ fst p <> EPS) v) ->
  joiners_all words lex l2 w -> w = 0%Z /\ Forall (fun p : bstr * bstr => fst p = snd p /\ fst p <> EPS) l2.
Proof.
  intros HW H. unfold joiners_all in H. induction H as [|l1 w1 l2 w2 [-> H] H2 [-> IH]]; [split; constructor|]. split; [reflexivity|].
  apply Forall_app. split; [|exact IH]. destruct H as [H|(y & l0 & w0 & L & Iy & Hd & ->)]; [auto|]. constructor; [|constructor]. cbn. split; [reflexivity|].
  intros ->. discriminate.
Qed.

(** * Linked entries *)
Fixpoint linked (a : bstr) (es : list entry) : Prop :=
  match es with [] => a = HASH | e :: es => a = e_lexicon e /\ linked (e_continuation e) es end.
Fixpoint outs (fl : bool) (body : entry -> list bstr) (es : list entry) : list bstr :=
  match es with
  | [] => []
  | e :: es => nc fl (e_lexicon e) :: body e ++ cc fl (e_continuation e) :: outs fl body es
  end.
Lemma nc_hidden fl n : hidden_symbol (nc fl n) = true.
Proof. destruct fl; reflexivity. Qed.
Lemma cc_hidden fl n : hidden_symbol (cc fl n) = true.
Proof. destruct fl; reflexivity. Qed.
(** How words look: the two codes of a name, or something that no known symbol begins. *)
Definition junk (S : bstr -> Prop) (t : bstr) : Prop := ~ S t /\ exists r, t = dollar :: r.
Definition word_shape (fl : bool) (S : bstr -> Prop) (w : list bstr) : Prop :=
  (exists n, w = [cc fl n; nc fl n]) \/ (exists t r, w = t :: r /\ junk S t) \/ (exists n t r, w = cc fl n :: t :: r /\ junk S t).
Section Chain.
  Variable fl : bool.
  Variable S : bstr -> Prop.
  Variable W : list bstr -> Prop.
  Variable V : bstr -> Prop.
  Variable body : entry -> list bstr.
  Hypothesis HW : forall w, W w -> word_shape fl S w.
  Hypothesis HV : forall y, V y -> hidden_symbol y = false.
  Lemma pass_code a b o : S (cc fl a) -> S (nc fl b) -> passes W V (cc fl a :: nc fl b :: o) -> a = b /\ passes W V o.
  Proof.
    intros Sa Sb H. inversion H as [|w o' Hw Ho E|y o' Hy Ho E]; subst.
    - destruct (HW w Hw) as [[n ->]|[(t & r & -> & J & _)|(n & t & r & -> & J & _)]]; cbn [app] in E.
      + injection E as E1 E2 E3. apply cc_inj in E1. apply nc_inj in E2. subst. auto.
      + injection E as E1 _. congruence.
      + injection E as E1 E2 _. congruence.
    - pose proof (HV _ Hy) as Q. rewrite cc_hidden in Q. discriminate.
  Qed.
  Lemma pass_body bs o : Forall (fun y => hidden_symbol y = false /\ (S y \/ ~ In dollar y)) bs -> passes W V (bs ++ o) -> Forall V bs /\ passes W V o.
  Proof.
    induction 1 as [|y bs [Hd Hy] Hb IH]; intros H; [auto|]. cbn [app] in H. inversion H as [|w o' Hw Ho E|y' o' Vy Ho E]; subst.
    - exfalso. destruct (HW w Hw) as [[n ->]|[(t & r & -> & J & q & E')|(n & t & r & -> & J)]]; cbn [app] in E.
      + injection E as E _. rewrite <- E, cc_hidden in Hd. discriminate.
      + injection E as E _. subst t. destruct Hy as [Hy|Hy]; [contradiction|]. apply Hy. rewrite E'. left. reflexivity.
      + injection E as E _. rewrite <- E, cc_hidden in Hd. discriminate.
    - destruct (IH Ho). auto.
  Qed.
  Lemma chain_sound es : (forall e, In e es -> S (nc fl (e_lexicon e)) /\ S (cc fl (e_continuation e)) /\ Forall (fun y => hidden_symbol y = false /\ (S y \/ ~ In dollar y)) (body e)) ->
    forall a, S (cc fl a) -> S (nc fl HASH) -> passes W V (cc fl a :: outs fl body es ++ [nc fl HASH]) -> linked a es.
  Proof.
    induction es as [|e es IH]; intros He a Sa Sh H; cbn [outs linked app] in *.
    - apply pass_code in H; tauto.
    - destruct (He e (or_introl eq_refl)) as (S1 & S2 & Hb). apply pass_code in H; auto. destruct H as [-> H]. split; [reflexivity|].
      rewrite <- app_assoc in H. apply pass_body in H; [|exact Hb]. cbn [app] in H. apply IH; auto; [intros e' K; apply He; right; exact K|tauto].
  Qed.
  Lemma chain_complete es : (forall e, In e es -> W [cc fl (e_lexicon e); nc fl (e_lexicon e)] /\ Forall V (body e)) -> W [cc fl HASH; nc fl HASH] ->
    forall a, linked a es -> passes W V (cc fl a :: outs fl body es ++ [nc fl HASH]).
  Proof.
    intros He Hh. induction es as [|e es IH]; intros a L; cbn [outs linked app] in *.
    - subst a. apply (ps_word W V [cc fl HASH; nc fl HASH] []); [exact Hh|constructor].
    - destruct L as [-> L]. destruct (He e (or_introl eq_refl)) as [He1 He2].
      apply (ps_word W V [cc fl (e_lexicon e); nc fl (e_lexicon e)] _); [exact He1|]. rewrite <- app_assoc.
      assert (R : passes W V ((cc fl (e_continuation e) :: outs fl body es) ++ [nc fl HASH])) by (apply IH; [intros e' K; apply He; right; exact K|exact L]).
      clear -He2 R. induction He2 as [|y bs Hy Hb IH]; [exact R|]. apply ps_sym; auto.
  Qed.
End Chain.

(** * The star of the trie *)
Inductive entries_of (A : wlang) (fl : bool) : list entry -> Z -> Prop :=
| eo_nil : entries_of A fl [] 0%Z
| eo_cons e es w w' : A (label fl e) w -> entries_of A fl es w' -> entries_of A fl (e :: es) (w + w')%Z.
Definition labels (fl : bool) (es : list entry) : list (bstr * bstr) := concat (map (label fl) es).
Lemma star_entries fl sp c G l w : inv fl sp c G ->
  (w_star (accepts (stringsTrie c)) l w <-> exists es, Forall (fun e => In e G) es /\ entries_of (accepts (stringsTrie c)) fl es w /\ l = labels fl es).
Proof.
  intros I. split.
  - induction 1 as [|l1 w1 l2 w2 H1 H2 (es & F & E & ->)]; [exists []; repeat split; constructor|].
    destruct (trie_sound _ _ _ _ _ _ I H1) as (e & He & -> & Ew). exists (e :: es). split; [constructor; auto|]. split; [constructor; auto|reflexivity].
  - intros (es & F & E & ->). induction E as [|e es w w' H E IH]; [constructor|]. inversion F; subst. apply ws_cons; auto.
Qed.
