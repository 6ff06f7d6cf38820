From Verif Require Import Base Flags_Model Tok_Model Tok_Spec.
Local Open Scope nat_scope.

Definition no_ff (s : bstr) : Prop := ~ In "255"%char s.

Lemma oob_spec b : oob b = true <-> b = "255"%char.
Proof. apply Ascii.eqb_eq. Qed.
Lemma no_ff_cons b s : no_ff (b :: s) <-> oob b = false /\ no_ff s.
Proof.
  unfold no_ff. simpl. destruct (oob b) eqn:E.
  - apply oob_spec in E. split; [intros H; elim H; left; congruence|intros [? _]; discriminate].
  - split.
    + intros H. split; [reflexivity|tauto].
    + intros [_ H] [K|K]; [|tauto]. apply (proj2 (oob_spec b)) in K. congruence.
Qed.

(** * Trie *)
Fixpoint tmem (t : trie) (w : bstr) : bool :=
  match w with
  | [] => false
  | b :: r =>
      match r with
      | [] => t_leaf t b
      | _ :: _ => match t_rest t b with Some c => tmem c r | None => false end
      end
  end.

Lemma t_rest_set t b c b' : t_rest (t_set_rest t b c) b' = if Ascii.eqb b' b then Some c else t_rest t b'.
Proof.
  destruct t as [rs l]; simpl. destruct (Ascii.eqb_spec b' b) as [->|N].
  - apply (mget_mset_same acmp acmp_eq).
  - apply (mget_mset_other acmp acmp_eq); exact N.
Qed.
Lemma t_leaf_set_rest t b c b' : t_leaf (t_set_rest t b c) b' = t_leaf t b'.
Proof. destruct t; reflexivity. Qed.
Lemma t_rest_set_leaf t b b' : t_rest (t_set_leaf t b) b' = t_rest t b'.
Proof. destruct t; reflexivity. Qed.
Lemma t_leaf_set t b b' : t_leaf (t_set_leaf t b) b' = Ascii.eqb b' b || t_leaf t b'.
Proof.
  destruct t as [rs l]; simpl. apply eq_true_iff_eq.
  rewrite (smem_In acmp acmp_eq), (In_sadd acmp acmp_eq), orb_true_iff, Ascii.eqb_eq, (smem_In acmp acmp_eq). tauto.
Qed.
Lemma tmem_empty w : tmem trie_empty w = false.
Proof. destruct w as [|b [|c w]]; reflexivity. Qed.

Lemma trie_add_mem s : forall t, s <> [] -> no_ff s ->
  exists t', trie_add s t = Ok t' /\ forall w, tmem t' w = bstr_eqb w s || tmem t w.
Proof.
  induction s as [|b r IH]; intros t Hs Hff; [congruence|].
  apply no_ff_cons in Hff. destruct Hff as [Hb Hr]. cbn [trie_add]. rewrite Hb.
  destruct r as [|c r'].
  - eexists; split; [reflexivity|]. intros [|b' [|c' w']]; simpl; [reflexivity| |].
    + rewrite t_leaf_set, andb_true_r. reflexivity.
    + rewrite t_rest_set_leaf, andb_false_r. reflexivity.
  - set (child := match t_rest t b with Some c0 => c0 | None => trie_empty end).
    destruct (IH child ltac:(discriminate) Hr) as (t' & Ht' & Hmem). rewrite Ht'. cbn [rmap].
    eexists; split; [reflexivity|]. intros [|b' [|c' w']].
    + reflexivity.
    + simpl. rewrite t_leaf_set_rest, andb_false_r. reflexivity.
    + change (tmem (t_set_rest t b t') (b' :: c' :: w'))
        with (match t_rest (t_set_rest t b t') b' with Some c0 => tmem c0 (c' :: w') | None => false end).
      rewrite t_rest_set. change (bstr_eqb (b' :: c' :: w') (b :: c :: r'))
        with (Ascii.eqb b' b && bstr_eqb (c' :: w') (c :: r')).
      change (tmem t (b' :: c' :: w'))
        with (match t_rest t b' with Some c0 => tmem c0 (c' :: w') | None => false end).
      destruct (Ascii.eqb_spec b' b) as [->|N]; [|reflexivity].
      rewrite Hmem. cbn [andb]. f_equal. unfold child.
      destruct (t_rest t b); [reflexivity|apply tmem_empty].
Qed.

Fixpoint descend (t : trie) (p : bstr) : option trie :=
  match p with
  | [] => Some t
  | b :: r => match t_rest t b with Some c => descend c r | None => None end
  end.
Definition clean (t : trie) : Prop :=
  forall p t', descend t p = Some t' -> t_rest t' nul = None /\ t_leaf t' nul = false.

Lemma clean_empty : clean trie_empty.
Proof. intros [|b p] t' H; simpl in H; [injection H as <-; split; reflexivity|discriminate]. Qed.
Lemma clean_child t b c : clean t -> t_rest t b = Some c -> clean c.
Proof. intros H Hb p t' Hd. apply (H (b :: p)). simpl. rewrite Hb. exact Hd. Qed.

Lemma trie_add_clean s : forall t t', clean t -> no_nul s -> trie_add s t = Ok t' -> clean t'.
Proof.
  induction s as [|b r IH]; intros t t' Hc Hn H; [discriminate|].
  cbn [trie_add] in H. destruct (oob b); [discriminate|].
  assert (Hb : nul <> b) by (intros K; apply Hn; left; symmetry; exact K).
  destruct r as [|c r'].
  - injection H as <-. intros [|b' p] t'' Hd; simpl in Hd.
    + injection Hd as <-. rewrite t_rest_set_leaf, t_leaf_set.
      destruct (Ascii.eqb_spec nul b); [congruence|]. exact (Hc [] t eq_refl).
    + rewrite t_rest_set_leaf in Hd. apply (Hc (b' :: p)). exact Hd.
  - set (child := match t_rest t b with Some c0 => c0 | None => trie_empty end) in *.
    destruct (trie_add (c :: r') child) as [t1| | |] eqn:E; try discriminate.
    injection H as <-.
    assert (Hchild : clean child).
    { unfold child. destruct (t_rest t b) eqn:Eb; [eapply clean_child; eassumption|apply clean_empty]. }
    assert (Ht1 : clean t1).
    { eapply IH; [exact Hchild| |exact E]. intros K; apply Hn; right; exact K. }
    intros [|b' p] t'' Hd; simpl in Hd.
    + injection Hd as <-. rewrite t_rest_set, t_leaf_set_rest.
      destruct (Ascii.eqb_spec nul b); [congruence|]. exact (Hc [] t eq_refl).
    + rewrite t_rest_set in Hd. destruct (Ascii.eqb_spec b' b) as [->|N].
      * exact (Ht1 p _ Hd).
      * apply (Hc (b' :: p)). exact Hd.
Qed.

Lemma trie_find_longest s : forall t, clean t -> no_ff s ->
  exists o, trie_find t s = Ok o /\
  match o with
  | Some n => 1 <= n <= length s /\ tmem t (firstn n s) = true /\
              forall m, n < m <= length s -> tmem t (firstn m s) = false
  | None => forall m, m <= length s -> tmem t (firstn m s) = false
  end.
Proof.
  induction s as [|b r IH]; intros t Hc Hff.
  - destruct (Hc [] t eq_refl) as [H1 H2]. cbn [trie_find]. rewrite H1, H2.
    eexists; split; [reflexivity|]. cbn. intros m Hm. destruct m; reflexivity.
  - apply no_ff_cons in Hff. destruct Hff as [Hb Hr]. cbn [trie_find]. rewrite Hb.
    assert (Hone : forall m, tmem t (firstn (S m) (b :: r)) =
              match firstn m r with [] => t_leaf t b
              | w => match t_rest t b with Some c => tmem c w | None => false end end).
    { intros m. cbn [firstn tmem]. destruct (firstn m r); reflexivity. }
    assert (Hpos : forall m, 1 <= m <= length r -> firstn m r <> []).
    { intros m Hm K. apply (f_equal (@length ascii)) in K. rewrite firstn_length in K. simpl in K. lia. }
    destruct (t_rest t b) as [c|] eqn:Eb.
    + destruct (IH c (clean_child _ _ _ Hc Eb) Hr) as (o & -> & Ho). cbn [rmap].
      destruct o as [n|].
      * exists (Some (S n)). split; [reflexivity|]. destruct Ho as (H1 & H2 & H3).
        split; [simpl; lia|]. split.
        -- rewrite Hone. pose proof (Hpos n H1). destruct (firstn n r); [congruence|exact H2].
        -- intros m Hm. destruct m as [|m]; [lia|]. simpl in Hm. rewrite Hone.
           pose proof (Hpos m ltac:(lia)). specialize (H3 m ltac:(lia)). destruct (firstn m r); [congruence|exact H3].
      * assert (Hno : forall m, 1 < m <= length (b :: r) -> tmem t (firstn m (b :: r)) = false).
        { intros m Hm. destruct m as [|m]; [lia|]. simpl in Hm. rewrite Hone.
          pose proof (Hpos m ltac:(lia)). specialize (Ho m ltac:(lia)). destruct (firstn m r); [congruence|exact Ho]. }
        destruct (t_leaf t b) eqn:El; eexists; (split; [reflexivity|]).
        -- split; [simpl; lia|]. split; [rewrite Hone; simpl; first [exact El | reflexivity]|exact Hno].
        -- intros [|[|m]] Hm; [reflexivity|rewrite Hone; simpl; first [exact El | reflexivity]|apply Hno; lia].
    + assert (Hno : forall m, 1 < m <= length (b :: r) -> tmem t (firstn m (b :: r)) = false).
      { intros m Hm. destruct m as [|m]; [lia|]. simpl in Hm. rewrite Hone.
        pose proof (Hpos m ltac:(lia)). destruct (firstn m r); [congruence|reflexivity]. }
      destruct (t_leaf t b) eqn:El; eexists; (split; [reflexivity|]).
      * split; [simpl; lia|]. split; [rewrite Hone; simpl; first [exact El | reflexivity]|exact Hno].
      * intros [|[|m]] Hm; [reflexivity|rewrite Hone; simpl; first [exact El | reflexivity]|apply Hno; lia].
Qed.

(** * Configuration *)
Lemma configure_ok regs : forall t, clean (multi_char_symbols t) ->
  (forall k s, In (k, s) regs -> no_nul s /\ no_ff s) ->
  exists t', configure regs t = Ok t' /\ clean (multi_char_symbols t') /\
    (forall w, tmem (multi_char_symbols t') w = true <-> registered regs w \/ tmem (multi_char_symbols t) w = true) /\
    (forall w, In w (skip_symbol_set t') <-> skipped regs w \/ In w (skip_symbol_set t)).
Proof.
  induction regs as [|[k s] regs IH]; intros t Hc Hok.
  - exists t. split; [reflexivity|]. split; [exact Hc|]. split; intros w;
      unfold registered, skipped; simpl; (split; [auto|]).
    + intros [(_ & k & [])|K]; exact K.
    + intros [(_ & [])|K]; exact K.
  - cbn [configure]. destruct (Hok k s (or_introl eq_refl)) as [Hn Hf].
    assert (Hok' : forall k s, In (k, s) regs -> no_nul s /\ no_ff s) by (intros; eapply Hok; right; eassumption).
    destruct s as [|b s].
    + replace (if k then add_skip_symbol [] t else add_multichar_symbol [] t) with (@Ok tokenizer t) by (destruct k; reflexivity).
      cbn [rbind]. destruct (IH t Hc Hok') as (t' & H1 & H2 & H3 & H4). exists t'.
      split; [exact H1|]. split; [exact H2|]. split; intros w.
      * rewrite H3. unfold registered. simpl. split.
        -- intros [(A & k' & K)|K]; [left; eauto|auto].
        -- intros [(A & k' & [K|K])|K]; [congruence|left; eauto|auto].
      * rewrite H4. unfold skipped. simpl. split.
        -- intros [(A & K)|K]; [left; auto|auto].
        -- intros [(A & [K|K])|K]; [congruence|left; auto|auto].
    + destruct (trie_add_mem (b :: s) (multi_char_symbols t) ltac:(discriminate) Hf) as (m & Hm & Hmem).
      pose proof (trie_add_clean _ _ _ Hc Hn Hm) as Hcm.
      set (t1 := {| multi_char_symbols := m; skip_symbol_set := if k then sadd bcmp (b :: s) (skip_symbol_set t) else skip_symbol_set t |}).
      replace (if k then add_skip_symbol (b :: s) t else add_multichar_symbol (b :: s) t) with (@Ok tokenizer t1).
      2: { unfold add_skip_symbol, add_multichar_symbol. rewrite Hm. destruct k; reflexivity. }
      cbn [rbind]. destruct (IH t1 Hcm Hok') as (t' & H1 & H2 & H3 & H4). exists t'.
      split; [exact H1|]. split; [exact H2|]. split; intros w.
      * rewrite H3. unfold t1; simpl multi_char_symbols. rewrite Hmem, orb_true_iff, bstr_eqb_eq. unfold registered. simpl.
        split.
        -- intros [(A & k' & K)|[->|K]]; [left; eauto|left; split; [discriminate|exists k; auto]|auto].
        -- intros [(A & k' & [K|K])|K]; [injection K as _ <-; auto|left; eauto|auto].
      * rewrite H4. unfold t1; simpl skip_symbol_set. unfold skipped. simpl. destruct k.
        -- rewrite (In_sadd bcmp bcmp_eq). split.
           ++ intros [(A & K)|[->|K]]; [left; auto|left; split; [discriminate|auto]|auto].
           ++ intros [(A & [K|K])|K]; [injection K as <-; auto|left; auto|auto].
        -- split.
           ++ intros [(A & K)|K]; auto.
           ++ intros [(A & [K|K])|K]; [discriminate|left; auto|auto].
Qed.

(** * UTF-8 shape *)
Lemma utf8_char_len c b r : utf8_char c -> forall d, utf8_char d -> c = b :: r -> hd_error d = Some b ->
  length c = length d /\ length c = lead_width b.
Proof.
  intros Hc d Hd E1 E2. inversion Hc; subst; injection H as <- <- || injection H0 as <- <- || idtac;
  inversion Hd; subst; simpl in E2; injection E2; intros; subst; try discriminate; split; reflexivity.
Qed.

Lemma utf8_char_nonempty c : utf8_char c -> c <> [].
Proof. intros H; inversion H; discriminate. Qed.
Lemma utf8_char_noff c : utf8_char c -> no_ff c.
Proof.
  intros H K.
  assert (Hcont : forall x, cont_byte x -> x <> "255"%char).
  { intros x (b0 & b1 & b2 & b3 & b4 & b5 & ->) E. discriminate. }
  inversion H; subst; simpl in K; decompose [or] K; try contradiction; try discriminate;
    match goal with E : ?x = "255"%char |- _ => exact (Hcont x ltac:(assumption) E) end.
Qed.
Lemma utf8_noff s : utf8 s -> no_ff s.
Proof.
  intros (cs & Hcs & ->) K. apply in_concat in K. destruct K as (c & Hc & Hin).
  rewrite Forall_forall in Hcs. exact (utf8_char_noff c (Hcs c Hc) Hin).
Qed.
Lemma utf8_nil : utf8 [].
Proof. exists []. split; [constructor|reflexivity]. Qed.
Lemma utf8_app a b : utf8 a -> utf8 b -> utf8 (a ++ b).
Proof.
  intros (ca & Ha & ->) (cb & Hb & ->). exists (ca ++ cb). split; [apply Forall_app; auto|].
  symmetry; apply concat_app.
Qed.
Lemma utf8_head b s : utf8 (b :: s) -> exists c r, b :: s = c ++ r /\ utf8_char c /\ utf8 r /\ length c = lead_width b.
Proof.
  intros (cs & Hcs & E). destruct cs as [|c cs]; [discriminate|]. inversion Hcs as [|? ? Hc Hcs']; subst.
  exists c, (concat cs). split; [exact E|]. split; [exact Hc|]. split; [exists cs; auto|].
  destruct c as [|b' c]; [elim (utf8_char_nonempty [] Hc eq_refl)|].
  simpl in E. injection E as <- _.
  exact (proj2 (utf8_char_len (b :: c) b c Hc (b :: c) Hc eq_refl eq_refl)).
Qed.
Lemma utf8_char_prefix c d r r' : utf8_char c -> utf8_char d -> c ++ r = d ++ r' -> c = d /\ r = r'.
Proof.
  intros Hc Hd E.
  assert (L : length c = length d).
  { destruct c as [|b c]; [elim (utf8_char_nonempty _ Hc eq_refl)|].
    destruct d as [|b' d]; [elim (utf8_char_nonempty _ Hd eq_refl)|].
    assert (b' = b) by (simpl in E; congruence). subst b'.
    exact (proj1 (utf8_char_len (b :: c) b c Hc (b :: d) Hd eq_refl eq_refl)). }
  apply (f_equal (firstn (length c))) in E as E1. rewrite firstn_app, firstn_all, Nat.sub_diag in E1.
  rewrite L, firstn_app, firstn_all, Nat.sub_diag in E1. simpl in E1. rewrite !app_nil_r in E1.
  subst d. split; [reflexivity|]. eapply app_inv_head; exact E.
Qed.
Lemma utf8_cancel w r : utf8 (w ++ r) -> utf8 w -> utf8 r.
Proof.
  intros H (cs & Hcs & ->). revert r H. induction cs as [|c cs IH]; intros r H; [exact H|].
  inversion Hcs as [|? ? Hc Hcs']; subst. simpl in H. rewrite <- app_assoc in H.
  destruct H as (ds & Hds & E). destruct ds as [|d ds].
  - simpl in E. apply app_eq_nil in E. destruct E as [E _]. elim (utf8_char_nonempty _ Hc E).
  - inversion Hds as [|? ? Hd Hds']; subst. simpl in E.
    apply (utf8_char_prefix c d) in E; [|assumption|assumption]. destruct E as [-> E].
    apply IH; [assumption|]. exists ds. auto.
Qed.

(** * The loop *)
Section Loop.
  Variable grapheme : bstr -> nat.

  Definition keep (t : tokenizer) (x : bstr) : bool := negb (is_skip_symbol t x).

  Lemma tok_loop_lossless split t fuel : forall s ts,
    tok_loop grapheme fuel split t s = Ok ts ->
    exists ts0, concat ts0 = s /\ Forall (fun w => w <> []) ts0 /\ ts = filter (keep t) ts0.
  Proof.
    induction fuel as [|fuel IH]; intros [|b s] ts H; cbn [tok_loop] in H; try discriminate.
    - injection H as <-. exists []. repeat split; constructor.
    - injection H as <-. exists []. repeat split; constructor.
    - destruct (next_symbol_size grapheme split t (b :: s)) as [n| | |]; try discriminate. cbn [rbind] in H.
      destruct (Nat.eqb_spec n 0) as [|Hn]; [discriminate|].
      destruct (Nat.ltb_spec (length (b :: s)) n) as [|Hl]; [discriminate|].
      destruct (tok_loop grapheme fuel split t (skipn n (b :: s))) as [ts1| | |] eqn:E; try discriminate.
      injection H as <-. destruct (IH _ _ E) as (ts0 & H1 & H2 & H3).
      exists (firstn n (b :: s) :: ts0). split; [|split].
      + cbn [concat]. rewrite H1. apply firstn_skipn.
      + constructor; [|exact H2]. destruct n; [congruence|discriminate].
      + cbn [filter]. unfold keep at 1. destruct (is_skip_symbol t (firstn n (b :: s))); cbn [negb]; rewrite H3; reflexivity.
  Qed.

  Variable split : bool.
  Variable regs : list (bool * bstr).
  Variable t : tokenizer.
  Hypothesis Hcl : clean (multi_char_symbols t).
  Hypothesis Hmem : forall w, tmem (multi_char_symbols t) w = true <-> registered regs w.
  Hypothesis Hskip : forall w, In w (skip_symbol_set t) <-> skipped regs w.
  Hypothesis Hu : forall k w, In (k, w) regs -> utf8 w.
  Hypothesis Hgr : split = false -> forall s, s <> [] -> utf8 s ->
    exists c r, s = c ++ r /\ length c = grapheme s /\ utf8 c /\ c <> [].

  Definition first_char (c r : bstr) : Prop :=
    if split then utf8_char c else length c = grapheme (c ++ r) /\ c <> [].

  Lemma firstn_prefix n (s : bstr) : prefix_of (firstn n s) s.
  Proof. exists (skipn n s). symmetry; apply firstn_skipn. Qed.
  Lemma prefix_firstn w (s : bstr) : prefix_of w s -> w = firstn (length w) s /\ length w <= length s.
  Proof.
    intros [r ->]. rewrite firstn_app, firstn_all, Nat.sub_diag, app_length. simpl. rewrite app_nil_r.
    split; [reflexivity|lia].
  Qed.

  Lemma tok_loop_seg fuel : forall s, length s <= fuel -> utf8 s ->
    exists ts ts0, tok_loop grapheme fuel split t s = Ok ts /\
      segmentation (registered regs) first_char s ts0 /\
      ts = filter (keep t) ts0.
  Proof.
    induction fuel as [|fuel IH]; intros s Hlen Hs.
    - destruct s; [|simpl in Hlen; lia]. exists [], []. split; [reflexivity|]. split; [constructor|reflexivity].
    - destruct s as [|b s]; [exists [], []; split; [reflexivity|]; split; [constructor|reflexivity]|].
      cbn [tok_loop next_symbol_size].
      destruct (trie_find_longest (b :: s) (multi_char_symbols t) Hcl (utf8_noff _ Hs)) as (o & -> & Ho).
      cbn [rmap rbind].
      assert (Hcont : forall w r, b :: s = w ++ r -> w <> [] -> utf8 w ->
         (segmentation (registered regs) first_char r = segmentation (registered regs) first_char r) ->
         (forall ts0, segmentation (registered regs) first_char r ts0 ->
                      segmentation (registered regs) first_char (b :: s) (w :: ts0)) ->
         exists ts ts0,
          (if length w =? 0 then Diverge
           else if length (b :: s) <? length w then Ub
           else rbind (tok_loop grapheme fuel split t (skipn (length w) (b :: s)))
             (fun ts => Ok (if is_skip_symbol t (firstn (length w) (b :: s)) then ts else firstn (length w) (b :: s) :: ts))) = Ok ts /\
          segmentation (registered regs) first_char (b :: s) ts0 /\ ts = filter (keep t) ts0).
      { intros w r E Hw Huw _ Hseg.
        assert (Hl : length (b :: s) = length w + length r) by (rewrite E; apply app_length).
        destruct (Nat.eqb_spec (length w) 0) as [K|_]; [destruct w; [congruence|discriminate]|].
        destruct (Nat.ltb_spec (length (b :: s)) (length w)) as [K|_]; [lia|].
        assert (Esk : skipn (length w) (b :: s) = r)
          by (rewrite E, skipn_app, skipn_all, Nat.sub_diag; reflexivity).
        assert (Efn : firstn (length w) (b :: s) = w)
          by (rewrite E, firstn_app, firstn_all, Nat.sub_diag; apply app_nil_r).
        rewrite Esk, Efn.
        destruct (IH r) as (ts & ts0 & H1 & H2 & H3).
        { assert (length w <> 0) by (destruct w; [congruence|discriminate]). lia. }
        { rewrite E in Hs. eapply utf8_cancel; eassumption. }
        rewrite H1. cbn [rbind]. eexists; exists (w :: ts0). split; [reflexivity|]. split; [apply Hseg; exact H2|].
        cbn [filter]. unfold keep at 1. destruct (is_skip_symbol t w); cbn [negb]; rewrite H3; reflexivity. }
      destruct o as [n|].
      + destruct Ho as (H1 & H2 & H3). set (w := firstn n (b :: s)) in *.
        assert (Hlw : length w = n) by (unfold w; rewrite firstn_length; lia).
        assert (E : b :: s = w ++ skipn n (b :: s)) by (symmetry; apply firstn_skipn).
        apply Hmem in H2.
        destruct (Hcont w (skipn n (b :: s)) E) as (ts & ts0 & K1 & K2 & K3).
        * exact (proj1 H2).
        * destruct H2 as (_ & k & Hin). eapply Hu; exact Hin.
        * reflexivity.
        * intros ts0 Hts. rewrite E at 1. apply seg_sym; [|exact Hts].
          split; [exact H2|]. split; [exists (skipn n (b :: s)); reflexivity|].
          intros w' Hw' Hp. rewrite <- E in Hp. destruct (prefix_firstn w' (b :: s) Hp) as [Ew Hle].
          destruct (Nat.le_gt_cases (length w') (length w)) as [|Hgt]; [assumption|].
          apply Hmem in Hw'. rewrite Ew, H3 in Hw' by lia. discriminate.
        * rewrite Hlw in K1. exists ts, ts0. auto.
      + assert (Hno : no_prefix (registered regs) (b :: s)).
        { intros w Hw Hp. destruct (prefix_firstn w (b :: s) Hp) as [Ew Hle].
          apply Hmem in Hw. rewrite Ew, Ho in Hw by exact Hle. discriminate. }
        destruct (Bool.bool_dec split true) as [Esp|Esp].
        * rewrite Esp. destruct (utf8_head b s Hs) as (c & r & E & Hc & Hr & Hlc).
          destruct (Hcont c r E (utf8_char_nonempty c Hc)) as (ts & ts0 & K1 & K2 & K3).
          -- exists [c]. split; [repeat constructor; assumption|simpl; symmetry; apply app_nil_r].
          -- reflexivity.
          -- intros ts0 Hts. rewrite E. rewrite E in Hno. apply seg_chr; [exact Hno| |exact Hts].
             unfold first_char. rewrite Esp. exact Hc.
          -- rewrite Hlc, Esp in K1. exists ts, ts0. auto.
        * apply not_true_is_false in Esp. rewrite Esp.
          destruct (Hgr Esp (b :: s) ltac:(discriminate) Hs) as (c & r & E & Hlc & Huc & Hne).
          destruct (Hcont c r E Hne Huc) as (ts & ts0 & K1 & K2 & K3).
          -- reflexivity.
          -- intros ts0 Hts. rewrite E. rewrite E in Hno. apply seg_chr; [exact Hno| |exact Hts].
             unfold first_char. rewrite Esp. rewrite <- E. split; [exact Hlc|exact Hne].
          -- rewrite Hlc, Esp in K1. exists ts, ts0. auto.
  Qed.

  Lemma keep_spec x : x <> [] -> keep t x = true <-> ~ skipped regs x.
  Proof.
    intros Hx. unfold keep, is_skip_symbol. destruct x as [|b x]; [congruence|].
    rewrite negb_true_iff, <- not_true_iff_false, (smem_In bcmp bcmp_eq), Hskip. tauto.
  Qed.
End Loop.

(** * Pair alignment *)
Lemma align_short_spec xs : forall ys, length xs <= length ys ->
  align_short xs ys =
  combine (map fst xs ++ repeat internal_epsilon (length ys - length xs)) (map fst ys).
Proof.
  induction xs as [|[a a'] xs IH]; intros ys H.
  - simpl. rewrite Nat.sub_0_r. clear H. induction ys as [|[b b'] ys IH]; simpl; [reflexivity|rewrite IH; reflexivity].
  - destruct ys as [|[b b'] ys]; simpl in H; [lia|]. simpl. rewrite IH by lia. reflexivity.
Qed.
Lemma align_long_spec ys : forall xs, length ys <= length xs ->
  align_long xs ys =
  combine (map fst xs) (map fst ys ++ repeat internal_epsilon (length xs - length ys)).
Proof.
  induction ys as [|[b b'] ys IH]; intros xs H.
  - assert (E : align_long xs [] = pad_out xs) by (destruct xs as [|[]]; reflexivity). rewrite E.
    simpl. rewrite Nat.sub_0_r. clear H E. induction xs as [|[a a'] xs IH]; simpl; [reflexivity|rewrite IH; reflexivity].
  - destruct xs as [|[a a'] xs]; simpl in H; [lia|]. simpl. rewrite IH by lia. reflexivity.
Qed.

Lemma combine_fst {A C} (l : list A) (l' : list C) : length l = length l' -> map fst (combine l l') = l.
Proof. revert l'; induction l as [|a l IH]; intros [|c l'] H; simpl in *; try lia; [reflexivity|f_equal; apply IH; lia]. Qed.
Lemma combine_snd {A C} (l : list A) (l' : list C) : length l = length l' -> map snd (combine l l') = l'.
Proof. revert l'; induction l as [|a l IH]; intros [|c l'] H; simpl in *; try lia; [reflexivity|f_equal; apply IH; lia]. Qed.

Lemma map_fst_dup (xs : list bstr) : map fst (map (fun x : bstr => (x, x)) xs) = xs.
Proof. rewrite map_map. simpl. apply map_id. Qed.

Lemma tokenize_pair_spec gr u8 split t i o ps :
  tokenize_pair gr u8 split t i o = Ok ps ->
  exists xs ys, tokenize_one_level gr u8 split t i = Ok xs /\ tokenize_one_level gr u8 split t o = Ok ys /\
    map fst ps = xs ++ repeat internal_epsilon (length ys - length xs) /\
    map snd ps = ys ++ repeat internal_epsilon (length xs - length ys).
Proof.
  unfold tokenize_pair. destruct (negb (u8 i)); [discriminate|]. destruct (negb (u8 o)); [discriminate|].
  unfold tokenize. destruct (tokenize_one_level gr u8 split t i) as [xs| | |]; try discriminate.
  destruct (tokenize_one_level gr u8 split t o) as [ys| | |]; try discriminate.
  cbn [rmap rbind]. intros H. injection H as <-. exists xs, ys. split; [reflexivity|]. split; [reflexivity|].
  rewrite !map_length.
  destruct (Nat.ltb_spec (length xs) (length ys)) as [H|H].
  - rewrite align_short_spec by (rewrite !map_length; lia). rewrite !map_fst_dup, !map_length.
    assert (L : length (xs ++ repeat internal_epsilon (length ys - length xs)) = length ys)
      by (rewrite app_length, repeat_length; lia).
    rewrite combine_fst, combine_snd by exact L. split; [reflexivity|].
    replace (length xs - length ys) with 0 by lia. simpl. symmetry; apply app_nil_r.
  - rewrite align_long_spec by (rewrite !map_length; lia). rewrite !map_fst_dup, !map_length.
    assert (L : length xs = length (ys ++ repeat internal_epsilon (length xs - length ys)))
      by (rewrite app_length, repeat_length; lia).
    rewrite combine_fst, combine_snd by exact L. split; [|reflexivity].
    replace (length ys - length xs) with 0 by lia. simpl. symmetry; apply app_nil_r.
Qed.

(** * Space separated *)
Lemma space_loop_spec s : forall cur,
  match cur with
  | None => spaced s (map fst (space_loop s None))
  | Some w => w <> [] -> ~ In " "%char w -> spaced (w ++ s) (map fst (space_loop s (Some w)))
  end.
Proof.
  induction s as [|c r IH]; intros [w|]; simpl.
  - intros Hw Hs. apply (sp_word w [] []); auto. constructor.
  - constructor.
  - intros Hw Hs. destruct (Ascii.eqb_spec c " ") as [->|N].
    + simpl. apply (sp_word w _ (" "%char :: r)); auto.
      * right; exists r; reflexivity.
      * constructor. exact (IH None).
    + specialize (IH (Some (w ++ [c]))). simpl in IH. rewrite <- app_assoc in IH. apply IH.
      * destruct w; discriminate.
      * intros K. apply in_app_or in K. destruct K as [K|[K|[]]]; [tauto|congruence].
  - destruct (Ascii.eqb_spec c " ") as [->|N].
    + constructor. exact (IH None).
    + apply (IH (Some [c])); [discriminate|]. intros [K|[]]; congruence.
Qed.
Lemma space_loop_dup s : forall cur, Forall (fun p => fst p = snd p) (space_loop s cur).
Proof.
  induction s as [|c r IH]; intros [w|]; simpl; try (repeat constructor; fail).
  - destruct (Ascii.eqb c " "); [constructor; [reflexivity|]|]; apply IH.
  - destruct (Ascii.eqb c " "); apply IH.
Qed.

(** * Encoder *)
Fixpoint olook (t : oltrie) (w : bstr) : N :=
  match w with
  | [] => NO_SYMBOL
  | b :: r =>
      match r with
      | [] => o_symbol t b
      | _ :: _ => match o_letter t b with Some c => olook c r | None => NO_SYMBOL end
      end
  end.

Lemma o_letter_set t b c b' : o_letter (o_set_letter t b c) b' = if Ascii.eqb b' b then Some c else o_letter t b'.
Proof.
  destruct t as [rs l]; simpl. destruct (Ascii.eqb_spec b' b) as [->|N].
  - apply (mget_mset_same acmp acmp_eq).
  - apply (mget_mset_other acmp acmp_eq); exact N.
Qed.
Lemma o_symbol_set_letter t b c b' : o_symbol (o_set_letter t b c) b' = o_symbol t b'.
Proof. destruct t; reflexivity. Qed.
Lemma o_letter_set_symbol t b n b' : o_letter (o_set_symbol t b n) b' = o_letter t b'.
Proof. destruct t; reflexivity. Qed.
Lemma o_symbol_set t b n b' : o_symbol (o_set_symbol t b n) b' = if Ascii.eqb b' b then n else o_symbol t b'.
Proof.
  destruct t as [rs l]; simpl. destruct (Ascii.eqb_spec b' b) as [->|N].
  - rewrite (mget_mset_same acmp acmp_eq); reflexivity.
  - rewrite (mget_mset_other acmp acmp_eq) by exact N; reflexivity.
Qed.
Lemma olook_empty w : olook oltrie_empty w = NO_SYMBOL.
Proof. destruct w as [|b [|c w]]; reflexivity. Qed.

(** letters[b] is non-NULL exactly when a longer key starts with b. *)
Definition long_key (t : oltrie) (b : ascii) : Prop := o_letter t b <> None.

Lemma ol_add_look s k : forall t, s <> [] ->
  exists t', ol_add s k t = Ok t' /\
    (forall w, olook t' w = if bstr_eqb w s then k else olook t w) /\
    (forall b, o_letter t' b <> None <-> o_letter t b <> None \/ (exists r, s = b :: r /\ r <> [])).
Proof.
  induction s as [|b r IH]; intros t Hs; [congruence|]. cbn [ol_add].
  destruct r as [|c r'].
  - eexists; split; [reflexivity|]. split.
    + intros [|b' [|c' w']]; simpl; [reflexivity| |].
      * rewrite o_symbol_set, andb_true_r. reflexivity.
      * rewrite o_letter_set_symbol, andb_false_r. reflexivity.
    + intros b'. rewrite o_letter_set_symbol. split; [auto|]. intros [H|(r & E & Hr)]; [exact H|].
      injection E as <- <-. congruence.
  - set (child := match o_letter t b with Some c0 => c0 | None => oltrie_empty end).
    destruct (IH child ltac:(discriminate)) as (t' & Ht' & Hmem & _). rewrite Ht'. cbn [rmap].
    eexists; split; [reflexivity|]. split.
    + intros [|b' [|c' w']].
      * reflexivity.
      * simpl. rewrite o_symbol_set_letter, andb_false_r. reflexivity.
      * change (olook (o_set_letter t b t') (b' :: c' :: w'))
          with (match o_letter (o_set_letter t b t') b' with Some c0 => olook c0 (c' :: w') | None => NO_SYMBOL end).
        rewrite o_letter_set. change (bstr_eqb (b' :: c' :: w') (b :: c :: r'))
          with (Ascii.eqb b' b && bstr_eqb (c' :: w') (c :: r')).
        change (olook t (b' :: c' :: w'))
          with (match o_letter t b' with Some c0 => olook c0 (c' :: w') | None => NO_SYMBOL end).
        destruct (Ascii.eqb_spec b' b) as [->|N]; [|reflexivity].
        rewrite Hmem. cbn [andb]. unfold child.
        destruct (bstr_eqb (c' :: w') (c :: r')); [reflexivity|].
        destruct (o_letter t b); [reflexivity|apply olook_empty].
    + intros b'. rewrite o_letter_set. destruct (Ascii.eqb_spec b' b) as [->|N].
      * split; [intros _; right; exists (c :: r'); split; [reflexivity|discriminate]|intros _; discriminate].
      * split; [auto|]. intros [H|(r & E & Hr)]; [exact H|]. congruence.
Qed.

Fixpoint odescend (t : oltrie) (p : bstr) : option oltrie :=
  match p with
  | [] => Some t
  | b :: r => match o_letter t b with Some c => odescend c r | None => None end
  end.
Definition oclean (t : oltrie) : Prop :=
  forall p t', odescend t p = Some t' -> o_letter t' nul = None /\ o_symbol t' nul = NO_SYMBOL.
Lemma oclean_empty : oclean oltrie_empty.
Proof. intros [|b p] t' H; simpl in H; [injection H as <-; split; reflexivity|discriminate]. Qed.
Lemma oclean_child t b c : oclean t -> o_letter t b = Some c -> oclean c.
Proof. intros H Hb p t' Hd. apply (H (b :: p)). simpl. rewrite Hb. exact Hd. Qed.

Lemma ol_add_clean s k : forall t t', oclean t -> no_nul s -> ol_add s k t = Ok t' -> oclean t'.
Proof.
  induction s as [|b r IH]; intros t t' Hc Hn H; [discriminate|].
  cbn [ol_add] in H.
  assert (Hb : nul <> b) by (intros K; apply Hn; left; symmetry; exact K).
  destruct r as [|c r'].
  - injection H as <-. intros [|b' p] t'' Hd; simpl in Hd.
    + injection Hd as <-. rewrite o_letter_set_symbol, o_symbol_set.
      destruct (Ascii.eqb_spec nul b); [congruence|]. exact (Hc [] t eq_refl).
    + rewrite o_letter_set_symbol in Hd. apply (Hc (b' :: p)). exact Hd.
  - set (child := match o_letter t b with Some c0 => c0 | None => oltrie_empty end) in *.
    destruct (ol_add (c :: r') k child) as [t1| | |] eqn:E; try discriminate.
    injection H as <-.
    assert (Hchild : oclean child).
    { unfold child. destruct (o_letter t b) eqn:Eb; [eapply oclean_child; eassumption|apply oclean_empty]. }
    assert (Ht1 : oclean t1).
    { eapply IH; [exact Hchild| |exact E]. intros K; apply Hn; right; exact K. }
    intros [|b' p] t'' Hd; simpl in Hd.
    + injection Hd as <-. rewrite o_letter_set, o_symbol_set_letter.
      destruct (Ascii.eqb_spec nul b); [congruence|]. exact (Hc [] t eq_refl).
    + rewrite o_letter_set in Hd. destruct (Ascii.eqb_spec b' b) as [->|N].
      * exact (Ht1 p _ Hd).
      * apply (Hc (b' :: p)). exact Hd.
Qed.

(** Longest key of a lookup function [look] that starts [s]. *)
Definition best (look : bstr -> N) (s : bstr) (n : N) (k : nat) : Prop :=
  (n <> NO_SYMBOL /\ 1 <= k <= length s /\ look (firstn k s) = n /\
     forall m, k < m <= length s -> look (firstn m s) = NO_SYMBOL) \/
  (n = NO_SYMBOL /\ k = 1 /\ forall m, m <= length s -> look (firstn m s) = NO_SYMBOL).

Lemma ol_find_best s : forall t, oclean t -> exists n k, ol_find t s = Ok (n, k) /\ best (olook t) s n k.
Proof.
  induction s as [|b r IH]; intros t Hc.
  - destruct (Hc [] t eq_refl) as [H1 H2]. cbn [ol_find]. rewrite H1, H2.
    do 2 eexists; split; [reflexivity|]. right. split; [reflexivity|]. split; [reflexivity|].
    intros m _. destruct m; reflexivity.
  - cbn [ol_find].
    assert (Hone : forall m, olook t (firstn (S m) (b :: r)) =
              match firstn m r with [] => o_symbol t b
              | w => match o_letter t b with Some c => olook c w | None => NO_SYMBOL end end).
    { intros m. cbn [firstn olook]. destruct (firstn m r); reflexivity. }
    assert (Hpos : forall m, 1 <= m <= length r -> firstn m r <> []).
    { intros m Hm K. apply (f_equal (@length ascii)) in K. rewrite firstn_length in K. simpl in K. lia. }
    assert (Hsingle : (forall m, 1 < m <= length (b :: r) -> olook t (firstn m (b :: r)) = NO_SYMBOL) ->
              best (olook t) (b :: r) (o_symbol t b) 1).
    { intros Hno. destruct (N.eq_dec (o_symbol t b) NO_SYMBOL) as [E|E].
      - right. split; [exact E|]. split; [reflexivity|].
        intros [|[|m]] Hm; [reflexivity|rewrite Hone; simpl; exact E|apply Hno; lia].
      - left. split; [exact E|]. split; [simpl; lia|]. split; [rewrite Hone; reflexivity|exact Hno]. }
    destruct (o_letter t b) as [c|] eqn:Eb.
    + destruct (IH c (oclean_child _ _ _ Hc Eb)) as (n & k & -> & Hb). cbn [rmap].
      destruct (N.eqb_spec n NO_SYMBOL) as [->|Hn].
      * destruct Hb as [(K & _)|(_ & -> & Hno)]; [congruence|].
        do 2 eexists; split; [reflexivity|]. apply Hsingle.
        intros m Hm. destruct m as [|m]; [lia|]. simpl in Hm. rewrite Hone.
        pose proof (Hpos m ltac:(lia)). specialize (Hno m ltac:(lia)). destruct (firstn m r); [congruence|exact Hno].
      * destruct Hb as [(_ & H1 & H2 & H3)|(K & _)]; [|congruence].
        do 2 eexists; split; [reflexivity|]. left. split; [exact Hn|]. split; [simpl; lia|]. split.
        -- rewrite Hone. pose proof (Hpos k H1). destruct (firstn k r); [congruence|exact H2].
        -- intros m Hm. destruct m as [|m]; [lia|]. simpl in Hm. rewrite Hone.
           pose proof (Hpos m ltac:(lia)). specialize (H3 m ltac:(lia)). destruct (firstn m r); [congruence|exact H3].
    + do 2 eexists; split; [reflexivity|]. apply Hsingle.
      intros m Hm. destruct m as [|m]; [lia|]. simpl in Hm. rewrite Hone.
      pose proof (Hpos m ltac:(lia)). destruct (firstn m r); [congruence|reflexivity].
Qed.

(** Encoder invariant relative to the history. *)
Record enc_inv (regs : list (bstr * N)) (e : encoder) : Prop := {
  ei_clean : oclean (e_letters e);
  ei_look : forall w, olook (e_letters e) w = match latest regs w with Some n => n | None => NO_SYMBOL end;
  ei_letter : forall b, o_letter (e_letters e) b <> None <-> exists r, r <> [] /\ latest regs (b :: r) <> None;
  ei_ascii : forall b, should_ascii_tokenize b = true -> e_ascii_at e b <> NO_SYMBOL ->
     o_letter (e_letters e) b = None /\ e_ascii_at e b = o_symbol (e_letters e) b
}.

Lemma latest_app regs s k w :
  latest (regs ++ [(s, k)]) w = if bstr_eqb s w then Some k else latest regs w.
Proof.
  induction regs as [|[s' k'] r IH]; simpl; [destruct (bstr_eqb s w); reflexivity|].
  rewrite IH. destruct (bstr_eqb s w); reflexivity.
Qed.

Lemma read_inv regs e s k : enc_inv regs e -> s <> [] -> no_nul s -> (k < NO_SYMBOL)%N ->
  exists e', read_input_symbol s k e = Ok e' /\ enc_inv (regs ++ [(s, k)]) e'.
Proof.
  intros [Hcl Hlook Hlet Hasc] Hs Hn Hk.
  destruct s as [|b r]; [congruence|]. unfold read_input_symbol.
  set (asc1 := if (length (b :: r) =? 1) && should_ascii_tokenize b &&
           negb (match o_letter (e_letters e) b with Some _ => true | None => false end)
        then mset acmp b k (e_ascii e) else e_ascii e).
  set (at1 := match mget acmp b asc1 with Some n => n | None => NO_SYMBOL end).
  set (asc2 := if (1 <? length (b :: r)) && should_ascii_tokenize b && negb (at1 =? NO_SYMBOL)%N
        then mset acmp b NO_SYMBOL asc1 else asc1).
  destruct (ol_add_look (b :: r) k (e_letters e) ltac:(discriminate)) as (l & Hl & Hll & Hlb).
  rewrite Hl. cbn [rmap]. eexists; split; [reflexivity|].
  assert (Hclean : oclean l) by (eapply ol_add_clean; eassumption).
  constructor; cbn [e_letters e_ascii].
  - exact Hclean.
  - intros w. rewrite Hll, latest_app.
    destruct (bstr_eqb_spec w (b :: r)) as [->|N]; [rewrite bstr_eqb_refl; reflexivity|].
    destruct (bstr_eqb_spec (b :: r) w); [congruence|]. apply Hlook.
  - intros b'. rewrite Hlb, Hlet. split.
    + intros [(r' & Hr' & H)|(r' & E & Hr')].
      * exists r'. split; [exact Hr'|]. rewrite latest_app. destruct (bstr_eqb _ _); [discriminate|exact H].
      * exists r'. split; [exact Hr'|]. rewrite latest_app, E, bstr_eqb_refl. discriminate.
    + intros (r' & Hr' & H). rewrite latest_app in H. destruct (bstr_eqb_spec (b :: r) (b' :: r')) as [E|N].
      * right. exists r'. auto.
      * left. exists r'. auto.
  - unfold e_ascii_at. cbn [e_ascii]. intros b' Hb' Hne.
    assert (Hsym : forall x, o_symbol l x = if bstr_eqb [x] (b :: r) then k else o_symbol (e_letters e) x).
    { intros x. exact (Hll [x]). }
    destruct (ascii_dec b' b) as [->|Nb].
    + destruct r as [|c r'].
      * (* single byte *)
        unfold asc2 in *. cbn [length] in *. cbn [Nat.ltb Nat.leb andb] in *.
        unfold asc1 in *. cbn [length Nat.eqb andb] in *. rewrite Hb' in *. cbn [andb] in *.
        assert (Hlet' : o_letter l b <> None <-> o_letter (e_letters e) b <> None).
        { rewrite Hlb. split; [|auto]. intros [H|(r' & E & Hr')]; [exact H|]. congruence. }
        destruct (o_letter (e_letters e) b) as [x|] eqn:El; cbn [negb] in *.
        -- destruct (Hasc b Hb' Hne) as [K _]. congruence.
        -- rewrite (mget_mset_same acmp acmp_eq) in *. split.
           ++ destruct (o_letter l b) eqn:E'; [|reflexivity]. elim (proj1 Hlet'); [discriminate|reflexivity].
           ++ rewrite Hsym, bstr_eqb_refl. reflexivity.
      * (* longer key: the entry is removed *)
        exfalso. unfold asc2 in Hne. cbn [length] in Hne.
        replace (1 <? S (S (length r'))) with true in Hne by reflexivity. rewrite Hb' in Hne. cbn [andb] in Hne.
        assert (E1 : asc1 = e_ascii e) by reflexivity.
        destruct (N.eqb_spec at1 NO_SYMBOL) as [E|E]; cbn [negb] in Hne.
        -- apply Hne. exact E.
        -- rewrite (mget_mset_same acmp acmp_eq) in Hne. congruence.
    + assert (E2 : mget acmp b' asc2 = mget acmp b' (e_ascii e)).
      { unfold asc2, asc1. repeat match goal with |- context[if ?c then _ else _] => destruct c end;
          rewrite ?(mget_mset_other acmp acmp_eq) by exact Nb; reflexivity. }
      rewrite E2 in *. destruct (Hasc b' Hb' Hne) as [K1 K2]. split.
      * destruct (o_letter l b') eqn:E'; [|reflexivity].
        assert (Hnn : o_letter l b' <> None) by congruence. apply Hlb in Hnn.
        destruct Hnn as [H|(r' & E & _)]; congruence.
      * rewrite Hsym. destruct (bstr_eqb_spec [b'] (b :: r)) as [E|_]; [congruence|]. exact K2.
Qed.

Lemma enc_inv_new : enc_inv [] encoder_new.
Proof.
  constructor.
  - apply oclean_empty.
  - intros w. apply olook_empty.
  - intros b. cbn. split; [congruence|]. intros (r & _ & H); congruence.
  - intros b _ H. elim H. reflexivity.
Qed.

Lemma register_inv regs2 : forall regs1 e, enc_inv regs1 e ->
  Forall (fun '(s, k) => s <> [] /\ no_nul s /\ (k < NO_SYMBOL)%N) regs2 ->
  exists e', register regs2 e = Ok e' /\ enc_inv (regs1 ++ regs2) e'.
Proof.
  induction regs2 as [|[s k] r IH]; intros regs1 e Hi HF.
  - exists e. rewrite app_nil_r. split; [reflexivity|exact Hi].
  - inversion HF as [|? ? Hx HF']; subst. cbn in Hx. destruct Hx as (H1 & H2 & H3).
    destruct (read_inv regs1 e s k Hi H1 H2 H3) as (e1 & He1 & Hi1). cbn [register]. rewrite He1. cbn [rbind].
    destruct (IH _ _ Hi1 HF') as (e' & He' & Hi'). exists e'. split; [exact He'|].
    rewrite <- app_assoc in Hi'. exact Hi'.
Qed.

Lemma encoder_best regs e s : enc_inv regs e -> s <> [] ->
  exists n k, encoder_find_key e s = Ok (n, k) /\
    best (fun w => match latest regs w with Some n => n | None => NO_SYMBOL end) s n k.
Proof.
  intros [Hcl Hlook Hlet Hasc] Hs. destruct s as [|b r]; [congruence|].
  destruct (ol_find_best (b :: r) (e_letters e) Hcl) as (n & k & Hf & Hb).
  assert (Hb' : best (fun w => match latest regs w with Some n => n | None => NO_SYMBOL end) (b :: r) n k).
  { unfold best in *. destruct Hb as [(A1 & A2 & A3 & A4)|(A1 & A2 & A3)].
    - left. repeat split; try tauto; try lia; [rewrite <- Hlook; exact A3|]. intros m Hm. rewrite <- Hlook. auto.
    - right. repeat split; auto. intros m Hm. rewrite <- Hlook. auto. }
  unfold encoder_find_key.
  destruct (should_ascii_tokenize b) eqn:Ea; cbn [negb orb]; [|exists n, k; auto].
  destruct (N.eqb_spec (e_ascii_at e b) NO_SYMBOL) as [E|E]; [exists n, k; auto|].
  destruct (Hasc b Ea E) as [K1 K2]. cbn [ol_find] in Hf. rewrite K1 in Hf. injection Hf as <- <-.
  rewrite K2. exists (o_symbol (e_letters e) b), 1. auto.
Qed.

Lemma latest_bound regs w n :
  Forall (fun '(s, k) => s <> [] /\ no_nul s /\ (k < NO_SYMBOL)%N) regs ->
  latest regs w = Some n -> (n < NO_SYMBOL)%N /\ w <> [].
Proof.
  intros HF. induction HF as [|[s k] r Hx HF IH]; simpl; [discriminate|].
  cbn in Hx. destruct Hx as (H1 & H2 & H3).
  destruct (latest r w) as [m|]; [intros E; injection E as <-; auto|].
  destruct (bstr_eqb_spec s w) as [->|]; [|discriminate]. intros E; injection E as <-. auto.
Qed.

Lemma encoder_spec regs s :
  Forall (fun '(w, k) => w <> [] /\ no_nul w /\ (k < NO_SYMBOL)%N) regs -> s <> [] ->
  exists e n k, register regs encoder_new = Ok e /\ encoder_find_key e s = Ok (n, k) /\
    ((exists w, longest_prefix (fun w => latest regs w <> None) s w /\
                latest regs w = Some n /\ n <> NO_SYMBOL /\ k = length w) \/
     (no_prefix (fun w => latest regs w <> None) s /\ n = NO_SYMBOL)).
Proof.
  intros HF Hs. destruct (register_inv regs [] encoder_new enc_inv_new HF) as (e & He & Hi).
  cbn [app] in Hi. destruct (encoder_best regs e s Hi Hs) as (n & k & Hf & Hb).
  exists e, n, k. split; [exact He|]. split; [exact Hf|].
  assert (Hno : forall m, match latest regs (firstn m s) with Some n => n | None => NO_SYMBOL end = NO_SYMBOL ->
                latest regs (firstn m s) = None).
  { intros m H. destruct (latest regs (firstn m s)) eqn:E; [|reflexivity].
    apply (latest_bound regs) in E; [|exact HF]. subst. lia. }
  destruct Hb as [(A1 & A2 & A3 & A4)|(A1 & A2 & A3)].
  - left. exists (firstn k s). assert (Hk : length (firstn k s) = k) by (rewrite firstn_length; lia).
    assert (Hl : latest regs (firstn k s) = Some n).
    { destruct (latest regs (firstn k s)); congruence. }
    split; [|split; [exact Hl|split; [exact A1|symmetry; exact Hk]]].
    split; [congruence|]. split; [apply firstn_prefix|]. intros w' Hw' Hp.
    destruct (prefix_firstn w' s Hp) as [E Hle].
    destruct (Nat.le_gt_cases (length w') (length (firstn k s))) as [|Hgt]; [assumption|].
    elim Hw'. rewrite E. apply Hno. apply A4. lia.
  - right. split; [|exact A1]. intros w Hw Hp. destruct (prefix_firstn w s Hp) as [E Hle].
    apply Hw. rewrite E. apply Hno. apply A3. exact Hle.
Qed.

(** * Flag alignment *)
Lemma sub_refl_nil {A} (l : list A) : sub [] l.
Proof. induction l; constructor; assumption. Qed.

Lemma flag_align_spec fuel : forall xs ys, length xs + length ys <= fuel ->
  let ps := flag_align fuel xs ys in
  Forall (fun p => is_diacritic (fst p) = true \/ is_diacritic (snd p) = true -> fst p = snd p) ps /\
  sub xs (map fst ps) /\ sub ys (map snd ps).
Proof.
  induction fuel as [|fuel IH]; intros xs ys H; cbn zeta.
  - destruct xs, ys; simpl in H; try lia. simpl. split; [constructor|split; constructor].
  - cbn [flag_align].
    assert (He : is_diacritic internal_epsilon = false) by reflexivity.
    destruct xs as [|x xs], ys as [|y ys]; simpl in H.
    + split; [constructor|split; constructor].
    + destruct (IH [] ys ltac:(simpl; lia)) as (A1 & A2 & A3).
      destruct (is_diacritic y) eqn:Ey; (split; [constructor; [|exact A1]|split; [apply sub_refl_nil|]]); simpl.
      * auto.
      * apply sub_keep; exact A3.
      * intros [K|K]; congruence.
      * apply sub_keep; exact A3.
    + destruct (IH xs [] ltac:(simpl; lia)) as (A1 & A2 & A3).
      destruct (is_diacritic x) eqn:Ex; (split; [constructor; [|exact A1]|split; [|apply sub_refl_nil]]); simpl.
      * auto.
      * apply sub_keep; exact A2.
      * intros [K|K]; congruence.
      * apply sub_keep; exact A2.
    + destruct (IH xs ys ltac:(lia)) as (A1 & A2 & A3).
      destruct ((negb (is_diacritic x) && negb (is_diacritic y)) || bstr_eqb x y) eqn:E.
      * split; [constructor; [|exact A1]|split; apply sub_keep; assumption]. simpl. intros K.
        apply orb_true_iff in E. destruct E as [E|E]; [|apply bstr_eqb_eq; exact E].
        apply andb_true_iff in E. destruct E as [E1 E2]. apply negb_true_iff in E1, E2. destruct K; congruence.
      * split; [repeat (constructor; [reflexivity|]); exact A1|]. simpl. split.
        -- apply sub_keep, sub_skip, A2.
        -- apply sub_skip, sub_keep, A3.
Qed.

Lemma tokenize_and_align_spec gr u8 split t i o ps :
  tokenize_and_align gr u8 split t i o = Ok ps ->
  Forall (fun p => is_diacritic (fst p) = true \/ is_diacritic (snd p) = true -> fst p = snd p) ps /\
  exists xs ys, tokenize_one_level gr u8 split t i = Ok xs /\ tokenize_one_level gr u8 split t o = Ok ys /\
    sub xs (map fst ps) /\ sub ys (map snd ps).
Proof.
  unfold tokenize_and_align. destruct (negb (u8 i)); [discriminate|]. destruct (negb (u8 o)); [discriminate|].
  unfold tokenize. destruct (tokenize_one_level gr u8 split t i) as [xs| | |]; try discriminate.
  destruct (tokenize_one_level gr u8 split t o) as [ys| | |]; try discriminate.
  cbn [rmap rbind]. intros H.
  assert (E : flag_align (length (map (fun x : bstr => (x, x)) xs) + length (map (fun x : bstr => (x, x)) ys))
       (map fst (map (fun x : bstr => (x, x)) xs)) (map fst (map (fun x : bstr => (x, x)) ys)) = ps).
  { destruct (map (fun x : bstr => (x, x)) xs), (map (fun x : bstr => (x, x)) ys); try discriminate. injection H as <-. reflexivity. }
  rewrite !map_fst_dup, !map_length in E.
  destruct (flag_align_spec _ xs ys (le_n _)) as (A1 & A2 & A3). rewrite E in *.
  split; [exact A1|]. exists xs, ys. auto.
Qed.

(** The tokenizer theorem assembled. *)
Lemma tokenize_segmentation gr u8 split regs s :
  (forall k w, In (k, w) regs -> utf8 w /\ no_nul w) ->
  (split = false -> forall x, x <> [] -> utf8 x ->
     exists c r, x = c ++ r /\ length c = gr x /\ utf8 c /\ c <> []) ->
  utf8 s -> u8 s = true ->
  exists t ts ts0, configure regs tok_new = Ok t /\
    tokenize_one_level gr u8 split t s = Ok ts /\
    segmentation (registered regs) (first_char gr split) s ts0 /\
    ts = filter (keep t) ts0 /\
    (forall x, In x ts <-> In x ts0 /\ ~ skipped regs x).
Proof.
  intros Hregs Hgr Hs Hv.
  destruct (configure_ok regs tok_new clean_empty) as (t & H1 & H2 & H3 & H4).
  { intros k w Hin. destruct (Hregs k w Hin) as [Hu Hn]. split; [exact Hn|apply utf8_noff; exact Hu]. }
  assert (Hmem : forall w, tmem (multi_char_symbols t) w = true <-> registered regs w).
  { intros w. rewrite H3. simpl. rewrite tmem_empty. intuition discriminate. }
  assert (Hskip : forall w, In w (skip_symbol_set t) <-> skipped regs w).
  { intros w. rewrite H4. simpl. tauto. }
  destruct (tok_loop_seg gr split regs t H2 Hmem) with (fuel := length s) (s := s) as (ts & ts0 & K1 & K2 & K3); auto.
  { intros k w Hin. exact (proj1 (Hregs k w Hin)). }
  exists t, ts, ts0. split; [exact H1|]. split; [unfold tokenize_one_level; rewrite Hv; exact K1|].
  split; [exact K2|]. split; [exact K3|].
  assert (Hne : Forall (fun w => w <> []) ts0).
  { clear -K2. induction K2 as [|w r ts [[Hw _] _] _ IH|c r ts _ Hc _ IH]; constructor; auto.
    unfold first_char in Hc. destruct split; [apply utf8_char_nonempty; exact Hc|tauto]. }
  rewrite Forall_forall in Hne. intros x. rewrite K3, filter_In. split.
  - intros [A1 A2]. split; [exact A1|]. apply (keep_spec regs t Hskip x (Hne x A1)). exact A2.
  - intros [A1 A2]. split; [exact A1|]. apply (keep_spec regs t Hskip x (Hne x A1)). exact A2.
Qed.
