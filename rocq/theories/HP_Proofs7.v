(** A text is divided in one way only. *)
From Verif Require Import Base HP_Model HP_Spec HP_Proofs HP_Proofs2 HP_Proofs3 HP_Proofs4 HP_Proofs5 HP_Proofs6.
From Coq Require Import Lia NArith.

Lemma split_prefix {A} (w1 w2 : list A) r1 r2 : w1 ++ r1 = w2 ++ r2 -> length w1 <= length w2 -> exists m, w2 = w1 ++ m /\ r1 = m ++ r2.
Proof.
  revert w2. induction w1 as [|x w1 IH]; intros w2 E L; [exists w2; auto|]. destruct w2 as [|y w2]; [simpl in L; lia|].
  simpl in E, L. injection E as -> E. destruct (IH w2 E ltac:(lia)) as (m & -> & ->). exists m. auto.
Qed.
Lemma followed_length_le M a ts n m : followed_length M a ts n -> followed_length M a ts m -> n <= m.
Proof.
  intros (w1 & t1 & r1 & E1 & L1 & F1 & A1) (w2 & t2 & r2 & E2 & L2 & F2 & A2). destruct (Nat.le_gt_cases n m) as [|G]; auto. exfalso.
  rewrite E1 in E2. destruct (split_prefix w2 w1 (t2 :: r2) (t1 :: r1)) as (x & -> & Ex); [congruence|lia|].
  destruct x as [|u x]; [rewrite app_nil_r in L1; lia|]. injection Ex as <- Ex.
  rewrite (F1 (w2 ++ [t2]) x) in A2; [discriminate| |destruct w2; discriminate]. rewrite <- app_assoc. reflexivity.
Qed.
Lemma followed_length_fun M a ts n m : followed_length M a ts n -> followed_length M a ts m -> n = m.
Proof. intros H1 H2. apply Nat.le_antisymm; eapply followed_length_le; eauto. Qed.
Lemma unknown_length_le M a ts j k : unknown_length M a ts j -> unknown_length M a ts k -> j <= k.
Proof.
  intros (n & F1 & L1 & A1 & N1) (m & F2 & L2 & A2 & N2). rewrite (followed_length_fun _ _ _ _ _ F2 F1) in *. clear m F2.
  destruct (Nat.le_gt_cases j k) as [|G]; auto. exfalso. apply N2. rewrite Forall_forall in A1. apply A1.
  replace (nth k ts TNone) with (nth (k - n) (firstn (j - n) (skipn n ts)) TNone); [apply nth_In|].
  - rewrite firstn_length, skipn_length. lia.
  - assert (forall (l : list token) q i, i < q -> nth i (firstn q l) TNone = nth i l TNone) as Nf.
    { induction l as [|x l IH]; intros [|q] [|i] H; simpl; auto; try lia. apply IH. lia. }
    rewrite Nf by lia. assert (forall (l : list token) q i, nth i (skipn q l) TNone = nth (q + i) l TNone) as Ns.
    { induction l as [|x l IH]; intros [|q] i; simpl; auto. destruct i; reflexivity. }
    rewrite Ns. f_equal. lia.
Qed.
Lemma analysed_fun M a ts j k : analysed M a ts j -> analysed M a ts k -> j = k.
Proof. intros (A1 & M1 & _) (A2 & M2 & _). apply Nat.le_antisymm; auto. Qed.
Lemma app_eq_length {A} (w1 w2 : list A) r1 r2 : w1 ++ r1 = w2 ++ r2 -> length w1 = length w2 -> w1 = w2 /\ r1 = r2.
Proof.
  intros E L. destruct (split_prefix w1 w2 r1 r2 E ltac:(lia)) as (m & -> & ->). rewrite app_length in L. destruct m; [|simpl in L; lia].
  rewrite app_nil_r. auto.
Qed.
Lemma accepted_pos M a ts k : accepted_length M a ts k -> 0 < k.
Proof. intros (w & t & r & -> & <- & _ & _ & w' & v & -> & _). rewrite app_length. simpl. lia. Qed.
Theorem segmented_fun M a ts es1 es2 : segmented M a ts es1 -> segmented M a ts es2 -> es1 = es2.
Proof.
  intros H. revert es2. induction H as [|t ts es Nl Na Sg IH|w ts es An Sg IH|t w ts es Le Na Un Sg IH]; intros es2 H2.
  - inversion H2 as [| |w ts' es' An|]; subst; [reflexivity|]. exfalso. destruct An as (Ac & _). pose proof (accepted_pos _ _ _ _ Ac). destruct w; [simpl in *; lia|discriminate].
  - inversion H2 as [|t' ts' es' Nl' Na' Sg'|w ts' es' An Sg' E|t' w ts' es' Le Na' Un Sg']; subst.
    + f_equal. auto.
    + exfalso. eapply (Na (length w)). rewrite <- E. exact An.
    + exfalso. auto.
  - remember (w ++ ts) as tt eqn:Et. destruct H2 as [|t' ts' es' Nl' Na' Sg'|w' ts' es' An' Sg'|t' w' ts' es' Le Na' Un Sg'].
    + exfalso. destruct An as (Ac & _). pose proof (accepted_pos _ _ _ _ Ac). destruct w; [simpl in *; lia|discriminate].
    + exfalso. eapply Na', An.
    + pose proof (analysed_fun _ _ _ _ _ An' An) as L. destruct (app_eq_length _ _ _ _ Et L) as [-> ->]. f_equal. auto.
    + exfalso. eapply Na', An.
  - remember (t :: w ++ ts) as tt eqn:Et. destruct H2 as [|t' ts' es' Nl' Na' Sg'|w' ts' es' An' Sg'|t' w' ts' es' Le' Na' Un' Sg'].
    + discriminate.
    + exfalso. injection Et as -> ->. auto.
    + exfalso. eapply Na, An'.
    + assert (S (length w') = S (length w)) as L by (apply Nat.le_antisymm; eapply unknown_length_le; eauto). injection L as L.
      injection Et as -> Et. destruct (app_eq_length _ _ _ _ Et L) as [-> ->]. f_equal. auto.
Qed.

(** Running a text. *)
Lemma stream_start g ts rest text : reads g (IS text false) ts rest -> stream_at g 1024 ts rest (new_io text) 0 0.
Proof. intros R. split; [apply ring_new; lia|]. exact R. Qed.
Theorem analyse_text g M F text ts rest : reads g (IS text false) ts rest -> (forall c, ~ In (TRes c) ts) ->
  ts = [] \/ ends_outside M (alph g) ts -> no_stall M (alph g) ts -> fits M (alph g) 1024 ts ->
  exists es n, segmented M (alph g) ts es /\ flat_map surface es = ts /\
    forall f, n <= f -> analyse g M F f text = Ok (flat_map (shown g F) es).
Proof.
  intros R Nr End St Fit.
  destruct (whole_text g M F 1024 ts rest (reads_none _ _ _ _ R) Nr Fit St (length ts) [] ts (new_io text) 0 0 ltac:(lia) eq_refl End (stream_start _ _ _ _ R)) as (es & k & Sg & Run).
  { simpl. lia. }
  exists es, (k + S (length ts)). split; auto. split; [eapply segmented_surface; eauto|]. intros f Hf.
  unfold analyse. replace f with (k + (f - k)) by lia. rewrite Run by lia. reflexivity.
Qed.
Lemma apertium_shown g es : flat_map (shown g (apertium g)) es = flat_map (apertium_text g) es.
Proof.
  induction es as [|e es IH]; [reflexivity|]. cbn [flat_map]. rewrite IH. f_equal. destruct e as [t|w forms|w]; [reflexivity| |reflexivity].
  cbn [shown apertium print_word apertium_text]. do 2 f_equal. unfold tokens_to_string, clear_superblanks. induction w as [|t w IHw]; [reflexivity|].
  cbn [map flat_map]. rewrite IHw. destruct t; reflexivity.
Qed.
Lemma letters_no_stall M a ts : (forall t, In t ts -> is_alphabetic a t = false -> is_active (mstep (m := M) reset (to_symbol a t)) = false) -> no_stall M a ts.
Proof.
  intros H u t v n -> N _ (w & t' & r & E & L & F & _) P. exfalso. destruct w as [|t0 w]; [simpl in L; lia|]. injection E as <- E.
  specialize (F [t] w eq_refl ltac:(discriminate)). unfold after in F. cbn [fold_left] in F.
  rewrite H in F; [discriminate|apply in_app_iff; right; left; reflexivity|]. destruct (is_alphabetic a t); congruence.
Qed.
