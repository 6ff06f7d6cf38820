(** Proofs for lexc, part 1: how names, data and continuations are tokenized together. *)
From Verif Require Import Base BT_Model Tok_Model Tok_Spec Tok_Proofs Str_Model Str_Spec Str_Proofs2 Lx_Model Lx_Spec.

(** * Segmentations *)
Section Seg.
  Variable gr : bstr -> nat.
  Variable split : bool.
  Notation C := (character gr split).
  Lemma character_det c r c' r' : c ++ r = c' ++ r' -> C c r -> C c' r' -> c = c' /\ r = r'.
  Proof.
    intros E H H'. unfold character in *. destruct split; [exact (utf8_char_prefix c c' r r' H H' E)|].
    assert (L : length c = length c') by (rewrite (proj1 H), (proj1 H'), E; reflexivity).
    clear -E L. revert c' L E. induction c as [|a c IH]; intros [|b c'] L E; try discriminate L; [auto|].
    cbn [app] in E. injection E as -> E. injection L as L. destruct (IH _ L E) as [-> ->]. auto.
  Qed.
  Lemma longest_det S s w w' : longest_prefix S s w -> longest_prefix S s w' -> w = w'.
  Proof.
    intros (H1 & P1 & M1) (H2 & P2 & M2). pose proof (M1 _ H2 P2). pose proof (M2 _ H1 P1).
    destruct (prefix_firstn _ _ P1) as [E1 _]. destruct (prefix_firstn _ _ P2) as [E2 _]. rewrite E1, E2. f_equal. lia.
  Qed.
  Lemma seg_det S s ts : segmentation S C s ts -> forall s' ts', s = s' -> segmentation S C s' ts' ->
    (forall w, S w -> w <> []) -> ts = ts'.
  Proof.
    intros H. induction H as [|w r ts L H IH|c r ts N Hc H IH]; intros s' ts' E H' NE.
    - destruct H' as [|w' r' ts' L' H'|c' r' ts' N' Hc' H']; [reflexivity| |].
      + symmetry in E. apply app_eq_nil in E. destruct (NE w' (proj1 L') (proj1 E)).
      + symmetry in E. apply app_eq_nil in E. destruct E as [-> ->]. exfalso. unfold character in Hc'. destruct split; [inversion Hc'|tauto].
    - destruct H' as [|w' r' ts' L' H'|c' r' ts' N' Hc' H'].
      + apply app_eq_nil in E. destruct (NE w (proj1 L) (proj1 E)).
      + rewrite <- E in L'. pose proof (longest_det _ _ _ _ L L') as <-. apply app_inv_head in E. f_equal. eapply IH; eauto.
      + exfalso. rewrite <- E in N'. exact (N' w (proj1 L) (proj1 (proj2 L))).
    - destruct H' as [|w' r' ts' L' H'|c' r' ts' N' Hc' H'].
      + apply app_eq_nil in E. destruct E as [-> ->]. exfalso. unfold character in Hc. destruct split; [inversion Hc|tauto].
      + exfalso. rewrite E in N. exact (N w' (proj1 L') (proj1 (proj2 L'))).
      + destruct (character_det _ _ _ _ E Hc Hc') as [-> <-]. f_equal. eapply IH; eauto.
  Qed.
  Lemma seg_app S s f ts us : segmentation S C s ts -> segmentation S C f us -> (forall w, S w -> w <> []) ->
    (forall p q, s = p ++ q -> q <> [] -> (forall w, S w -> prefix_of w (q ++ f) -> prefix_of w q) /\
       (split = false -> gr (q ++ f) = gr q)) -> segmentation S C (s ++ f) (ts ++ us).
  Proof.
    intros H Hf NE. induction H as [|w r ts L H IH|c r ts N Hc H IH]; intros P; [exact Hf| |].
    - rewrite <- app_assoc. cbn [app].
      assert (Hw : w ++ r <> []) by (intros K; apply app_eq_nil in K; exact (NE w (proj1 L) (proj1 K))).
      apply seg_sym.
      + destruct L as (L1 & L2 & L3). split; [exact L1|]. split; [exists (r ++ f); reflexivity|].
        intros w' Hw' Pw'. apply L3; [exact Hw'|]. apply (proj1 (P [] (w ++ r) eq_refl Hw) w' Hw'). rewrite <- app_assoc. exact Pw'.
      + apply IH. intros p q E Hq. apply (P (w ++ p) q); [rewrite E, app_assoc; reflexivity|exact Hq].
    - rewrite <- app_assoc. cbn [app].
      assert (Hw : c ++ r <> []) by (intros K; apply app_eq_nil in K; destruct K as [-> ->]; unfold character in Hc; destruct split; [inversion Hc|tauto]).
      destruct (P [] (c ++ r) eq_refl Hw) as [P1 P2].
      apply seg_chr.
      + intros w Hw' Pw. apply (N w Hw'). apply (P1 w Hw'). rewrite <- app_assoc. exact Pw.
      + unfold character in *. destruct split; [exact Hc|]. split; [|tauto]. rewrite app_assoc, (P2 eq_refl). tauto.
      + apply IH. intros p q E Hq. apply (P (c ++ p) q); [rewrite E, app_assoc; reflexivity|exact Hq].
  Qed.
  Lemma seg_ext S S' s ts : segmentation S C s ts -> (forall w a b, s = a ++ w ++ b -> (S w <-> S' w)) -> segmentation S' C s ts.
  Proof.
    intros H. induction H as [|w r ts L H IH|c r ts N Hc H IH]; intros E; [constructor| |].
    - apply seg_sym.
      + destruct L as (L1 & (q & L2) & L3). split; [apply (E w [] r eq_refl); exact L1|]. split; [exists q; exact L2|].
        intros w' Hw' [q' Eq]. apply L3; [|exists q'; exact Eq]. apply (E w' [] q' Eq). exact Hw'.
      + apply IH. intros w' a b Er. apply (E w' (w ++ a) b). rewrite Er, app_assoc. reflexivity.
    - apply seg_chr; [|exact Hc|].
      + intros w Hw [q Eq]. apply (N w); [|exists q; exact Eq]. apply (E w [] q Eq). exact Hw.
      + apply IH. intros w' a b Er. apply (E w' (c ++ a) b). rewrite Er, app_assoc. reflexivity.
  Qed.
  Lemma seg_concat S s ts : segmentation S C s ts -> concat ts = s.
  Proof. induction 1 as [|w r ts L H IH|c r ts N Hc H IH]; cbn [concat]; [reflexivity| |]; rewrite IH; reflexivity. Qed.
  Lemma seg_nonempty S s ts : segmentation S C s ts -> (forall w, S w -> w <> []) -> Forall (fun t => t <> []) ts.
  Proof.
    intros H NE. induction H as [|w r ts L H IH|c r ts N Hc H IH]; constructor; auto; [exact (NE w (proj1 L))|].
    unfold character in Hc. destruct split; [inversion Hc; discriminate|tauto].
  Qed.
  Lemma seg_utf8 S s ts : segmentation S C s ts -> (forall w, S w -> utf8 w) -> utf8 s ->
    (split = false -> forall x, x <> [] -> utf8 x -> exists c r, x = c ++ r /\ length c = gr x /\ utf8 c /\ c <> []) -> Forall utf8 ts.
  Proof.
    intros H HS U G. induction H as [|w r ts L H IH|c r ts N Hc H IH]; [constructor| |].
    - pose proof (HS w (proj1 L)) as Uw. constructor; [exact Uw|]. apply IH. exact (utf8_cancel _ _ U Uw).
    - assert (Uc : utf8 c).
      { unfold character in Hc. destruct split; [exists [c]; split; [constructor; [exact Hc|constructor]|symmetry; apply app_nil_r]|].
        destruct Hc as [Hl Hn]. destruct (G eq_refl (c ++ r)) as (c' & r' & E & L' & U' & _); [destruct c; [congruence|discriminate]|exact U|].
        assert (c = c'); [|subst; exact U'].
        assert (LL : length c = length c') by congruence. clear -E LL. revert c' LL E. induction c as [|a c IH]; intros [|b c'] L E; try discriminate; [reflexivity|].
        cbn [app] in E. injection E as -> E. injection L as L. f_equal. eauto. }
      constructor; [exact Uc|]. apply IH. exact (utf8_cancel _ _ U Uc).
  Qed.
End Seg.

(** * Codes *)
Definition dollar := "$"%char.
Definition coded (w : bstr) : Prop := exists b, w = dollar :: b ++ [dollar] /\ ~ In dollar b /\ b <> B "R.LEXNAME.".
Definition doubled (w : bstr) : Prop := exists b, w = B "$R.LEXNAME.$P.LEXNAME." ++ b.
Definition shape (w : bstr) : Prop := ~ In dollar w \/ coded w \/ doubled w.

Lemma dollar_first (b b' : bstr) f f' : ~ In dollar b -> ~ In dollar b' -> b ++ dollar :: f = b' ++ dollar :: f' -> b = b' /\ f = f'.
Proof.
  revert b'. induction b as [|a b IH]; intros [|a' b'] N N' E; cbn [app] in E.
  - injection E as ->. auto.
  - injection E as <- _. exfalso. apply N'. left. reflexivity.
  - injection E as -> _. exfalso. apply N. left. reflexivity.
  - injection E as -> E. destruct (IH b') as [-> ->]; auto; intros K; [apply N|apply N']; right; exact K.
Qed.
Lemma code_prefix b f w : ~ In dollar b -> b <> B "R.LEXNAME." -> shape w -> w <> [] -> prefix_of w (dollar :: b ++ dollar :: f) ->
  w = dollar :: b ++ [dollar].
Proof.
  intros Nb Nr Sh Ne [r E]. destruct Sh as [N|[(b' & -> & N & _)|(b' & ->)]].
  - destruct w as [|a w]; [congruence|]. cbn [app] in E. injection E as <- _. exfalso. apply N. left. reflexivity.
  - cbn [app] in E. injection E as E. rewrite <- app_assoc in E. cbn [app] in E.
    destruct (dollar_first _ _ _ _ Nb N E) as [-> _]. reflexivity.
  - exfalso. change (B "$R.LEXNAME.$P.LEXNAME." ++ b') with (dollar :: (B "R.LEXNAME." ++ dollar :: B "P.LEXNAME." ++ b')) in E.
    assert (K : ~ In dollar (B "R.LEXNAME.")) by (intros K; vm_compute in K; repeat (destruct K as [K|K]; [discriminate|]); exact K).
    cbn [app] in E. injection E as E.
    change (b ++ dollar :: f = B "R.LEXNAME." ++ dollar :: (B "P.LEXNAME." ++ b' ++ r)) in E.
    destruct (dollar_first _ _ _ _ Nb K E) as [-> _]. congruence.
Qed.
Lemma seg_code gr split (S : bstr -> Prop) w f us : coded w -> S w -> (forall v, S v -> shape v /\ v <> []) ->
  segmentation S (character gr split) f us -> segmentation S (character gr split) (w ++ f) (w :: us).
Proof.
  intros (b & -> & Nb & Nr) Hw HS Hf. apply seg_sym; [|exact Hf]. split; [exact Hw|]. split; [exists f; reflexivity|].
  intros v Hv P. destruct (HS v Hv) as [Sv Nv]. rewrite (code_prefix b f v Nb Nr Sv Nv); [lia|].
  cbn [app] in P. rewrite <- app_assoc in P. exact P.
Qed.
(** A code that is not known falls apart. *)
Lemma seg_unknown gr split (S : bstr -> Prop) w f us : coded w -> ~ S w -> (forall v, S v -> shape v /\ v <> []) ->
  segmentation S (character gr split) (w ++ f) us -> exists t us', us = t :: us' /\ ~ S t /\ exists r, t = dollar :: r.
Proof.
  intros (b & Ew & Nb & Nr) Hw HS H.
  assert (K : forall v, S v -> ~ prefix_of v (w ++ f)).
  { intros v Hv P. destruct (HS v Hv) as [Sv Nv]. apply Hw. rewrite <- (code_prefix b f v Nb Nr Sv Nv) in Ew; [rewrite Ew; exact Hv|].
    rewrite Ew in P. cbn [app] in P. rewrite <- app_assoc in P. exact P. }
  remember (w ++ f) as s eqn:Es. destruct H as [|v r ts L H|c r ts N Hc H].
  - rewrite Ew in Es. discriminate.
  - destruct (K v (proj1 L) (proj1 (proj2 L))).
  - exists c, ts. split; [reflexivity|]. split; [intros Hv; exact (K c Hv (ex_intro _ r eq_refl))|].
    destruct c as [|a c]; [exfalso; unfold character in Hc; destruct split; [inversion Hc|tauto]|].
    rewrite Ew in Es. cbn [app] in Es. injection Es as -> _. exists c. reflexivity.
Qed.

(** * The tokenizer of the compiler *)
Section Tokens.
  Variable gr : bstr -> nat.
  Variable u8 : bstr -> bool.
  Hypothesis Hgr : forall x, x <> [] -> utf8 x -> exists c r, x = c ++ r /\ length c = gr x /\ utf8 c /\ c <> [].
  Definition knows (c : lexc) (w : bstr) : Prop := w <> [] /\ In w (known c).
  Lemma registered_known c w : registered (map (pair false) (known c)) w <-> knows c w.
  Proof.
    unfold registered, knows. split; intros [H K]; split; auto.
    - destruct K as [k K]. apply in_map_iff in K. destruct K as (v & E & K). injection E as _ ->. exact K.
    - exists false. apply in_map_iff. exists w. auto.
  Qed.
  Lemma level_spec c split s : (forall w, In w (known c) -> text w) -> utf8 s -> u8 s = true ->
    exists t ts, configure (map (pair false) (known c)) tok_new = Ok t /\ tokenize_one_level gr u8 split t s = Ok ts /\
      segmentation (knows c) (character gr split) s ts.
  Proof.
    intros HK U V. destruct (tokenize_segmentation gr u8 split (map (pair false) (known c)) s) as (t & ts & ts0 & E1 & E2 & Sg & Ef & Hx).
    - intros k w Hin. apply in_map_iff in Hin. destruct Hin as (v & E & Hin). injection E as _ ->. exact (HK w Hin).
    - intros _. exact Hgr.
    - exact U.
    - exact V.
    - exists t, ts. split; [exact E1|]. split; [exact E2|].
      assert (Efe : ts = ts0).
      { rewrite Ef. clear -Hx Ef. assert (A : forall x, In x ts0 -> In x ts).
        { intros x Hin. apply Hx. split; [exact Hin|]. intros [_ K]. apply in_map_iff in K. destruct K as (v & E & _). discriminate. }
        assert (A2 : forall x, In x ts0 -> Tok_Proofs.keep t x = true) by (intros x Hin; specialize (A x Hin); rewrite Ef in A; apply filter_In in A; tauto).
        clear -A2. induction ts0 as [|x l IH]; [reflexivity|]. cbn [filter]. rewrite (A2 x (or_introl eq_refl)). f_equal. apply IH. intros y Hy. apply A2. right. exact Hy. }
      rewrite Efe. eapply seg_ext; [exact Sg|]. intros w _ _ _. apply registered_known.
  Qed.
  Definition dup (ts : list bstr) : list (bstr * bstr) := map (fun x => (x, x)) ts.
  Lemma tokens_ok c split s v : (forall w, In w (known c) -> text w) -> utf8 s -> tokens gr u8 c split s = Ok v ->
    exists ts, v = dup ts /\ segmentation (knows c) (character gr split) s ts.
  Proof.
    intros HK U. unfold tokens. destruct (u8 s) eqn:V.
    - destruct (level_spec c split s HK U V) as (t & ts & -> & E & Sg). cbn [rbind]. unfold tokenize. rewrite E. cbn [rmap].
      intros H. injection H as <-. exists ts. auto.
    - destruct (configure _ _) as [t| | |]; try discriminate. cbn [rbind]. unfold tokenize, tokenize_one_level. rewrite V. discriminate.
  Qed.
  Lemma tokens_as c split s v ts : (forall w, In w (known c) -> text w) -> utf8 s -> tokens gr u8 c split s = Ok v ->
    segmentation (knows c) (character gr split) s ts -> v = dup ts.
  Proof.
    intros HK U E Sg. destruct (tokens_ok c split s v HK U E) as (ts' & -> & Sg'). f_equal. eapply seg_det; eauto. intros w Hw. exact (proj1 Hw).
  Qed.
  Lemma pair_tokens_as c split i o v xs ys : (forall w, In w (known c) -> text w) -> utf8 i -> utf8 o -> pair_tokens gr u8 c split i o = Ok v ->
    segmentation (knows c) (character gr split) i xs -> segmentation (knows c) (character gr split) o ys -> length xs = length ys ->
    v = combine xs ys.
  Proof.
    intros HK Ui Uo E Si So L. unfold pair_tokens in E.
    destruct (configure _ _) as [t| | |] eqn:Ec; try discriminate. cbn [rbind] in E.
    destruct (tokenize_pair_spec _ _ _ _ _ _ _ E) as (xs' & ys' & E1 & E2 & F1 & F2).
    assert (D : forall s ss ss', utf8 s -> tokenize_one_level gr u8 split t s = Ok ss' -> segmentation (knows c) (character gr split) s ss -> ss' = ss).
    { intros s ss ss' U T Sg. destruct (tokens_ok c split s (dup ss') HK U) as (ss2 & Ed & Sg').
      - unfold tokens. rewrite Ec. cbn [rbind]. unfold tokenize. rewrite T. reflexivity.
      - assert (ss' = ss2) as ->. { apply (f_equal (map fst)) in Ed. unfold dup in Ed. rewrite !map_map, !map_id in Ed. exact Ed. }
        eapply seg_det; eauto. intros w Hw. exact (proj1 Hw). }
    rewrite (D _ _ _ Ui E1 Si), (D _ _ _ Uo E2 So) in *. rewrite L, Nat.sub_diag in F1. rewrite L, Nat.sub_diag in F2. cbn [repeat] in *.
    rewrite app_nil_r in F1, F2. rewrite <- F1, <- F2.
    clear. induction v as [|[x y] v IH]; [reflexivity|]. cbn [map fst snd combine]. f_equal. exact IH.
  Qed.
End Tokens.
