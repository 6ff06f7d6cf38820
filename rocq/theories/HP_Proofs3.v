(** Analysis of running text: the whole text; the text of the tokens. *)
From Verif Require Import Base HP_Model HP_Spec HP_Proofs HP_Proofs2.
From Coq Require Import Lia NArith.

Lemma ends_outside_skip M a cur m : ends_outside M a cur -> m < length cur -> ends_outside M a (skipn m cur).
Proof.
  intros (c & e & -> & N & D) L. exists (skipn m c), e. split; auto. rewrite app_length in L. simpl in L.
  rewrite skipn_app. replace (m - length c) with 0 by lia. reflexivity.
Qed.

Lemma whole_text g M F z ts rest : ~ In TNone ts -> (forall c, ~ In (TRes c) ts) -> fits M (alph g) z ts -> no_stall M (alph g) ts ->
  forall d pre cur x l loc, length cur <= d -> ts = pre ++ cur -> cur = [] \/ ends_outside M (alph g) cur ->
  stream_at g z ts rest x (length pre) l -> l < length pre + z ->
  exists es k, segmented M (alph g) cur es /\
    forall f, length ts < f -> analysis g M F (k + f) x reset loc [] [] = Ok (out x ++ flat_map (shown g F) es).
Proof.
  intros Nn Nr Fit St. induction d as [|d IH]; intros pre cur x l loc D E End A W.
  - assert (cur = []) as -> by (destruct cur; [reflexivity|simpl in D; lia]). rewrite app_nil_r in E. subst pre.
    destruct (get_token_none _ _ _ _ _ _ A) as (x' & G & O). exists [], 0. split; [constructor|]. intros f Hf. destruct f as [|f]; [lia|].
    cbn [Nat.add analysis]. rewrite G. cbn [rbind flat_map]. rewrite O. reflexivity.
  - destruct cur as [|c0 cur0] eqn:Ec.
    { rewrite app_nil_r in E. subst pre. destruct (get_token_none _ _ _ _ _ _ A) as (x' & G & O). exists [], 0. split; [constructor|].
      intros f Hf. destruct f as [|f]; [lia|]. cbn [Nat.add analysis]. rewrite G. cbn [rbind flat_map]. rewrite O. reflexivity. }
    rewrite <- Ec in *. assert (0 < length cur) as Lc by (rewrite Ec; simpl; lia).
    assert (ends_outside M (alph g) cur) as Out by (destruct End as [->|]; [discriminate|auto]). clear End.
    subst ts.
    destruct (run_word g M F z pre cur rest Nn Nr Out Fit _ 0 x l loc [] eq_refl Lc) as
      (n & k & x1 & l1 & loc1 & found1 & t & Hn & En & Fo & Ac & L1 & _ & A1 & O1 & Re & Run).
    { rewrite Nat.add_0_r. exact A. } { apply followed_nil. exact []. } { exact W. } { left. split; auto. intros j J. lia. }
    destruct (end_word g M F z pre cur rest Nn Nr Out Fit St n t x1 l1 loc1 found1 En Fo Ac L1 A1 Re) as
      (e & m & x2 & l2 & Hm & Se & A2 & W2 & O2 & Eo & Sg).
    destruct (IH (pre ++ firstn m cur) (skipn m cur) x2 l2 loc1) as (es & k' & Se' & Run').
    { rewrite skipn_length. lia. }
    { rewrite <- app_assoc, firstn_skipn. reflexivity. }
    { destruct (Nat.eq_dec m (length cur)) as [->|]; [left; apply skipn_all|right; apply ends_outside_skip; auto; lia]. }
    { rewrite app_length, firstn_length_le by lia. exact A2. }
    { rewrite app_length, firstn_length_le by lia. exact W2. }
    exists (e :: es), (k + S k'). split; [apply Sg, Se'|]. intros f Hf.
    specialize (Run (k' + f)). cbn [firstn] in Run. change (after M (alph g) []) with (@reset M) in Run.
    replace (k + S k' + f) with (k + S (k' + f)) by lia. rewrite Run, Eo by lia. cbn [rbind]. rewrite Run' by lia.
    rewrite O2, O1. cbn [flat_map]. rewrite <- app_assoc. reflexivity.
Qed.

Lemma segmented_surface M a ts es : segmented M a ts es -> flat_map surface es = ts.
Proof. induction 1; simpl; congruence. Qed.

(** Short texts fit. *)
Lemma short_fits M a z ts : length ts + 1 < z -> fits M a z ts.
Proof.
  intros H. split.
  - intros u w l v -> _ _. rewrite !app_length in H. lia.
  - intros u w v E N1 N2 _ _. apply (f_equal (@length _)) in E. rewrite !app_length in E. rewrite app_length.
    rewrite Nat.mod_small by lia. destruct w; [congruence|]. simpl. lia.
Qed.

(** * The text of the tokens *)
Lemma reserved_special g c : raw g = false -> escaped_char g c = true <-> special c.
Proof.
  intros R. unfold escaped_char, special. rewrite R. unfold reserved_chars. rewrite existsb_exists. split.
  - intros (d & I & E). apply Ascii.eqb_eq in E. subst. exact I.
  - intros I. exists c. split; auto. apply Ascii.eqb_refl.
Qed.
