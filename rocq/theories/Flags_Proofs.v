From Verif Require Import Base Flags_Model Flags_Spec.
Local Open Scope nat_scope.

(** * Searching *)
Lemma find_char_first c f r : ~ In c f -> find_char c (f ++ c :: r) = Some (length f).
Proof.
  induction f as [|x f IH]; intros H; simpl.
  - rewrite Ascii.eqb_refl. reflexivity.
  - destruct (Ascii.eqb_spec x c) as [->|N]; [elim H; left; reflexivity|].
    rewrite IH; [reflexivity|]. intros K; apply H; right; exact K.
Qed.
Lemma find_char_none c l : ~ In c l -> find_char c l = None.
Proof.
  induction l as [|x l IH]; intros H; simpl; [reflexivity|].
  destruct (Ascii.eqb_spec x c) as [->|N]; [elim H; left; reflexivity|].
  rewrite IH; [reflexivity|]. intros K; apply H; right; exact K.
Qed.
Lemma find_last_none c l : ~ In c l -> find_last c l = None.
Proof.
  induction l as [|x l IH]; intros H; simpl; [reflexivity|].
  rewrite IH; [|intros K; apply H; right; exact K].
  destruct (Ascii.eqb_spec x c) as [->|N]; [elim H; left; reflexivity|reflexivity].
Qed.
Lemma find_last_some c l : In c l -> exists i, find_last c l = Some i.
Proof.
  induction l as [|x l IH]; intros H; simpl in *; [tauto|].
  destruct (find_last c l) as [i|] eqn:E; [eexists; reflexivity|].
  destruct H as [->|H]; [rewrite Ascii.eqb_refl; eexists; reflexivity|].
  destruct (IH H); discriminate.
Qed.

Lemma first_split (c : ascii) l : In c l -> exists f v, l = f ++ c :: v /\ ~ In c f.
Proof.
  induction l as [|x l IH]; intros H; [destruct H|].
  destruct (ascii_dec x c) as [->|N].
  - exists [], l. split; [reflexivity|intros []].
  - destruct H as [->|H]; [congruence|]. destruct (IH H) as (f & v & -> & K).
    exists (x :: f), v. split; [reflexivity|]. intros [->|K']; tauto.
Qed.

(** * The two shapes *)
Definition shape2 (c : ascii) (f v : bstr) : bstr := "@"%char :: c :: "."%char :: (f ++ "."%char :: v) ++ ["@"%char].
Definition shape1 (c : ascii) (f : bstr) : bstr := "@"%char :: c :: "."%char :: f ++ ["@"%char].

Lemma form2_shape o c f v : B o = [c] -> form2 o f v = shape2 c f v.
Proof. unfold form2, shape2. intros ->. simpl. rewrite <- app_assoc. reflexivity. Qed.
Lemma form1_shape o c f : B o = [c] -> form1 o f = shape1 c f.
Proof. unfold form1, shape1. intros ->. reflexivity. Qed.

Lemma substr_app3 a b c (f r : bstr) n : n = length f -> substr (a :: b :: c :: f ++ r) 3 n = f.
Proof. intros ->. unfold substr. simpl. rewrite firstn_app, firstn_all, Nat.sub_diag. simpl. apply app_nil_r. Qed.

Lemma find3_shape2 c f v : no_dot f -> find_from ch_dot (shape2 c f v) 3 = Some (3 + length f).
Proof.
  intros H. unfold find_from, shape2. cbn [skipn].
  rewrite <- app_assoc. simpl. unfold ch_dot. rewrite find_char_first by exact H. reflexivity.
Qed.
Lemma find3_shape1 c f : no_dot f -> find_from ch_dot (shape1 c f) 3 = None.
Proof.
  intros H. unfold find_from, shape1. cbn [skipn].
  rewrite find_char_none; [reflexivity|]. intros K. apply in_app_or in K.
  destruct K as [K|[K|[]]]; [exact (H K)|discriminate].
Qed.

Lemma split_shape2 c f v : no_dot f -> split_feature_value (shape2 c f v) = (f, Some v).
Proof.
  intros H. unfold split_feature_value. rewrite find3_shape2 by exact H.
  f_equal.
  - unfold shape2. rewrite <- app_assoc. apply substr_app3. simpl. lia.
  - f_equal. unfold substr, shape2. rewrite <- app_assoc.
    replace (3 + length f + 1) with (S (S (S (length (f ++ ["."%char]))))) by (rewrite app_length; simpl; lia).
    cbn [skipn].
    replace (f ++ ("."%char :: v) ++ ["@"%char]) with ((f ++ ["."%char]) ++ v ++ ["@"%char])
      by (rewrite <- app_assoc; reflexivity).
    rewrite skipn_app, skipn_all, Nat.sub_diag. cbn [skipn app].
    rewrite firstn_app.
    replace (length _ - 1 - (3 + length f) - 1) with (length v)
      by (simpl; rewrite !app_length; simpl; rewrite ?app_length; simpl; lia).
    rewrite firstn_all, Nat.sub_diag. apply app_nil_r.
Qed.
Lemma split_shape1 c f : no_dot f -> split_feature_value (shape1 c f) = (f, None).
Proof.
  intros H. unfold split_feature_value. rewrite find3_shape1 by exact H.
  f_equal. unfold shape1. apply substr_app3. simpl. rewrite app_length; simpl; lia.
Qed.

Lemma last_at c body : c <> "."%char ->
  forall s, s = "@"%char :: c :: "."%char :: body ++ ["@"%char] -> body <> [] ->
  (length s <? 5) = false /\ at_is s 2 "." = true /\ at_is s 0 "@" = true /\
  at_is s (length s - 1) "@" = true /\ nth_error s 1 = Some c /\
  (In "."%char body -> find_last ch_dot s <> Some 2) /\
  (~ In "."%char body -> find_last ch_dot s = Some 2).
Proof.
  intros Hc s -> Hb. repeat split.
  - apply Nat.ltb_ge. simpl. rewrite app_length. destruct body; [congruence|]. simpl; lia.
  - unfold at_is. replace (length _ - 1) with (3 + length body) by (simpl; rewrite app_length; simpl; lia).
    simpl. rewrite nth_error_app2 by lia. rewrite Nat.sub_diag. reflexivity.
  - intros H. simpl. destruct (find_last_some ch_dot (body ++ ["@"%char])) as [i ->].
    + apply in_or_app; left; exact H.
    + intros K. inversion K.
  - intros H. simpl. rewrite find_last_none; [reflexivity|].
    intros K. apply in_app_or in K. destruct K as [K|[K|[]]]; [exact (H K)|discriminate].
Qed.

Lemma is_diacritic_shape2 c f v :
  In c ["P"; "N"; "D"; "R"; "C"; "U"]%char -> is_diacritic (shape2 c f v) = true.
Proof.
  intros Hc. destruct (last_at c (f ++ "."%char :: v)) with (s := shape2 c f v)
    as (H1 & H2 & H3 & H4 & H5 & H6 & _).
  { intros ->. simpl in Hc. intuition discriminate. }
  { reflexivity. }
  { destruct f; discriminate. }
  unfold is_diacritic. rewrite H1, H2, H3, H4. cbn [negb].
  assert (K : find_last ch_dot (shape2 c f v) <> Some 2).
  { apply H6. apply in_or_app; right; left; reflexivity. }
  unfold at_is. rewrite H5.
  simpl in Hc; decompose [or] Hc; try tauto; subst c; simpl negb; cbv iota;
    destruct (find_last ch_dot _) as [[|[|[|n]]]|]; try reflexivity; congruence.
Qed.
Lemma is_diacritic_shape1 c f :
  In c ["D"; "R"; "C"]%char -> f <> [] -> no_dot f -> is_diacritic (shape1 c f) = true.
Proof.
  intros Hc Hf Hd. destruct (last_at c f) with (s := shape1 c f)
    as (H1 & H2 & H3 & H4 & H5 & _ & H7).
  { intros ->. simpl in Hc. intuition discriminate. }
  { reflexivity. }
  { exact Hf. }
  unfold is_diacritic. rewrite H1, H2, H3, H4, (H7 Hd). cbn [negb].
  unfold at_is. rewrite H5.
  simpl in Hc; decompose [or] Hc; try tauto; subst c; reflexivity.
Qed.

Lemma is_diacritic_inv s : is_diacritic s = true ->
  (exists c f v, In c ["P"; "N"; "D"; "R"; "C"; "U"]%char /\ no_dot f /\ s = shape2 c f v) \/
  (exists c f, In c ["D"; "R"; "C"]%char /\ f <> [] /\ no_dot f /\ s = shape1 c f).
Proof.
  unfold is_diacritic. intros H.
  destruct (Nat.ltb_spec (length s) 5) as [|Hlen]; [discriminate|].
  destruct (at_is s 2 ".") eqn:E2; [|discriminate].
  destruct (at_is s 0 "@") eqn:E0; [|discriminate].
  destruct (at_is s (length s - 1) "@") eqn:EL; [|discriminate]. cbn [negb] in H.
  destruct s as [|a0 [|c [|a2 rest]]]; simpl in Hlen; try lia.
  assert (Hr : rest <> []) by (destruct rest; simpl in Hlen; [lia|discriminate]).
  destruct (exists_last Hr) as (body & z & ->).
  unfold at_is in E2, E0, EL. cbn [nth_error] in E2, E0.
  apply Ascii.eqb_eq in E2. apply Ascii.eqb_eq in E0. subst a0 a2.
  replace (length _ - 1) with (3 + length body) in EL by (simpl; rewrite app_length; simpl; lia).
  simpl nth_error in EL. rewrite nth_error_app2 in EL by lia. rewrite Nat.sub_diag in EL.
  simpl in EL. apply Ascii.eqb_eq in EL. subst z.
  rewrite app_length in Hlen. simpl in Hlen.
  assert (Hb : body <> []) by (destruct body; simpl in Hlen; [lia|discriminate]).
  unfold at_is in H. cbn [nth_error] in H.
  destruct (Ascii.eqb c "P" || Ascii.eqb c "N" || Ascii.eqb c "D" || Ascii.eqb c "R"
            || Ascii.eqb c "C" || Ascii.eqb c "U") eqn:Eop; [|discriminate].
  cbn [negb] in H.
  assert (Hc : In c ["P"; "N"; "D"; "R"; "C"; "U"]%char).
  { rewrite !orb_true_iff, !Ascii.eqb_eq in Eop. simpl. intuition. }
  assert (Hdot : c <> "."%char).
  { intros ->. simpl in Hc. intuition discriminate. }
  destruct (in_dec ascii_dec "."%char body) as [Hin|Hin].
  - left. destruct (first_split _ _ Hin) as (f & v & -> & Hf).
    exists c, f, v. split; [exact Hc|]. split; [exact Hf|reflexivity].
  - right. destruct (last_at c body Hdot _ eq_refl Hb) as (_ & _ & _ & _ & _ & _ & H7).
    rewrite (H7 Hin) in H. exists c, body.
    destruct (Ascii.eqb_spec c "R") as [->|]; [simpl; tauto|].
    destruct (Ascii.eqb_spec c "D") as [->|]; [simpl; tauto|].
    destruct (Ascii.eqb_spec c "C") as [->|]; [simpl; tauto|].
    discriminate.
Qed.

(** What the code reads out of a denoting string. *)
Definition flag_code (x : flag) : fdoperator * bstr * option bstr -> Prop :=
  fun '(o, f, ov) =>
  match x with
  | FP f' v => o = Pop /\ f = f' /\ ov = Some v
  | FN f' v => o = Nop /\ f = f' /\ ov = Some v
  | FU f' v => o = Uop /\ f = f' /\ ov = Some v
  | FR f' v => o = Rop /\ f = f' /\ ov = v
  | FD f' v => o = Dop /\ f = f' /\ ov = v
  | FC f' => o = Cop /\ f = f'
  end.

Lemma denotes_code s x : denotes s x ->
  is_diacritic s = true /\
  exists c o, nth_error s 1 = Some c /\ char_to_operator c = Some o /\
  flag_code x (o, fst (split_feature_value s), snd (split_feature_value s)).
Proof.
  intros H; inversion H; subst;
  repeat (erewrite form2_shape by reflexivity); repeat (erewrite form1_shape by reflexivity);
  first [rewrite split_shape2 by assumption | rewrite split_shape1 by assumption];
  (split; [first [apply is_diacritic_shape2; simpl; tauto
                | apply is_diacritic_shape1; [simpl; tauto|assumption|assumption]]|]);
  do 2 eexists; (split; [reflexivity|split; [reflexivity|simpl; tauto]]).
Qed.

Lemma is_diacritic_denotes s : is_diacritic s = true <-> exists x, denotes s x.
Proof.
  split.
  - intros H. apply is_diacritic_inv in H.
    destruct H as [(c & f & v & Hc & Hf & ->)|(c & f & Hc & Hn & Hf & ->)].
    + simpl in Hc; decompose [or] Hc; try tauto; subst c.
      * exists (FP f v). rewrite <- (form2_shape "P") by reflexivity. constructor; assumption.
      * exists (FN f v). rewrite <- (form2_shape "N") by reflexivity. constructor; assumption.
      * exists (FD f (Some v)). rewrite <- (form2_shape "D") by reflexivity. constructor; assumption.
      * exists (FR f (Some v)). rewrite <- (form2_shape "R") by reflexivity. constructor; assumption.
      * exists (FC f). rewrite <- (form2_shape "C") by reflexivity. constructor; assumption.
      * exists (FU f v). rewrite <- (form2_shape "U") by reflexivity. constructor; assumption.
    + simpl in Hc; decompose [or] Hc; try tauto; subst c.
      * exists (FD f None). rewrite <- (form1_shape "D") by reflexivity. constructor; assumption.
      * exists (FR f None). rewrite <- (form1_shape "R") by reflexivity. constructor; assumption.
      * exists (FC f). rewrite <- (form1_shape "C") by reflexivity. constructor; assumption.
  - intros [x H]. apply denotes_code in H. tauto.
Qed.

(** Accessors. *)
Lemma get_feature_split s : is_diacritic s = true -> get_feature s = fst (split_feature_value s).
Proof.
  intros H. unfold get_feature, split_feature_value.
  destruct (find_from ch_dot s 3) as [p|]; cbn [fst]; f_equal; lia.
Qed.
Lemma second_dot_spec s : is_diacritic s = true -> second_dot s = find_from ch_dot s 3.
Proof.
  intros H. apply is_diacritic_inv in H.
  assert (K : exists c r, c <> "."%char /\ s = "@"%char :: c :: "."%char :: r).
  { destruct H as [(c & f & v & Hc & Hf & ->)|(c & f & Hc & Hn & Hf & ->)];
      exists c; eexists; (split; [intros ->; simpl in Hc; intuition discriminate|reflexivity]). }
  destruct K as (c & r & Hc & ->). unfold second_dot.
  replace (find_from ch_dot ("@"%char :: c :: "."%char :: r) 0) with (Some 2); [reflexivity|].
  unfold find_from. cbn [skipn find_char]. destruct (Ascii.eqb_spec c ch_dot) as [E|E].
  - elim Hc; exact E.
  - reflexivity.
Qed.
Lemma get_value_split s : is_diacritic s = true ->
  get_value s = match snd (split_feature_value s) with Some v => v | None => [] end.
Proof.
  intros H. unfold get_value. rewrite second_dot_spec by exact H.
  unfold split_feature_value. destruct (find_from ch_dot s 3) as [p|]; cbn [snd]; [|reflexivity].
  f_equal; lia.
Qed.
Lemma has_value_split s : is_diacritic s = true ->
  has_value s = match snd (split_feature_value s) with Some v => true | None => false end.
Proof.
  intros H. unfold has_value. rewrite second_dot_spec by exact H.
  unfold split_feature_value. destruct (find_from ch_dot s 3) as [p|]; reflexivity.
Qed.

Lemma is_diacritic_grammar s : is_diacritic s = true <->
  (exists o f, In o ["R"; "D"; "C"]%string /\ f <> [] /\ no_dot f /\ s = form1 o f) \/
  (exists o f v, In o ["P"; "N"; "R"; "D"; "C"; "U"]%string /\ no_dot f /\ s = form2 o f v).
Proof.
  rewrite is_diacritic_denotes. split.
  - intros [x H]. inversion H; subst.
    all: try (right; do 3 eexists; split; [|split; [eassumption|reflexivity]]; simpl; tauto).
    all: left; do 2 eexists; split; [|split; [eassumption|split; [eassumption|reflexivity]]]; simpl; tauto.
  - intros [(o & f & Ho & Hn & Hf & ->)|(o & f & v & Ho & Hf & ->)];
      simpl in Ho; decompose [or] Ho; try tauto; subst o; eexists; constructor; assumption.
Qed.

Lemma accessors_form1 o f :
  In o ["R"; "D"; "C"]%string -> f <> [] -> no_dot f ->
  let s := form1 o f in
  get_operator s = B o /\ get_feature s = f /\ get_value s = [] /\ has_value s = false.
Proof.
  intros Ho Hn Hf s.
  assert (E : exists c, B o = [c] /\ In c ["D"; "R"; "C"]%char).
  { simpl in Ho; decompose [or] Ho; try tauto; subst o; eexists; (split; [reflexivity|simpl; tauto]). }
  destruct E as (c & Ec & Hc). subst s. rewrite (form1_shape _ c) by exact Ec.
  pose proof (is_diacritic_shape1 c f Hc Hn Hf) as Hd.
  rewrite get_feature_split, get_value_split, has_value_split, split_shape1 by assumption.
  rewrite Ec. repeat split.
Qed.
Lemma accessors_form2 o f v :
  In o ["P"; "N"; "R"; "D"; "C"; "U"]%string -> no_dot f ->
  let s := form2 o f v in
  get_operator s = B o /\ get_feature s = f /\ get_value s = v /\ has_value s = true.
Proof.
  intros Ho Hf s.
  assert (E : exists c, B o = [c] /\ In c ["P"; "N"; "D"; "R"; "C"; "U"]%char).
  { simpl in Ho; decompose [or] Ho; try tauto; subst o; eexists; (split; [reflexivity|simpl; tauto]). }
  destruct E as (c & Ec & Hc). subst s. rewrite (form2_shape _ c) by exact Ec.
  pose proof (is_diacritic_shape2 c f v Hc) as Hd.
  rewrite get_feature_split, get_value_split, has_value_split, split_shape2 by assumption.
  rewrite Ec. repeat split.
Qed.

(** * String machine *)
Definition fl_rel (e : fenv) (t : fltable) : Prop :=
  forall f,
    match e f with
    | Unset => mget bcmp f (feature_values t) = None
    | Pos v => mget bcmp f (feature_values t) = Some v /\ mget bcmp f (feature_polarities t) = Some true
    | Neg v => mget bcmp f (feature_values t) = Some v /\ mget bcmp f (feature_polarities t) = Some false
    end.

Lemma fl_rel_set (b : bool) e t f v : fl_rel e t ->
  fl_rel (env_set e f (if b then Pos v else Neg v)) (set_value b f v t).
Proof.
  intros H g. unfold env_set. specialize (H g). unfold set_value; simpl.
  destruct (bstr_eqb_spec g f) as [->|N].
  - destruct b; rewrite !(mget_mset_same bcmp bcmp_eq); tauto.
  - rewrite !(mget_mset_other bcmp bcmp_eq) by exact N. exact H.
Qed.
Lemma fl_rel_error e t b : fl_rel e t -> fl_rel e (fl_error t b).
Proof. intros H g. exact (H g). Qed.
Lemma fl_rel_clear e t f : fl_rel e t -> fl_rel (env_set e f Unset) (clear_feature f t).
Proof.
  intros H g. unfold env_set. specialize (H g). unfold clear_feature; simpl.
  destruct (bstr_eqb_spec g f) as [->|N].
  - apply (mget_mdel_same bcmp).
  - rewrite !(mget_mdel_other bcmp bcmp_eq) by exact N. exact H.
Qed.

Lemma bstr_eqb_sym x y : bstr_eqb x y = bstr_eqb y x.
Proof. destruct (bstr_eqb_spec x y), (bstr_eqb_spec y x); congruence. Qed.

Lemma insert_symbol_step s x e t :
  denotes s x -> fl_rel e t -> error_flag t = false ->
  let t' := insert_symbol s t in
  error_flag t' = negb (snd (step x e)) /\
  (snd (step x e) = true -> fl_rel (fst (step x e)) t').
Proof.
  intros Hd Hr He. apply denotes_code in Hd. destruct Hd as (Hd & c & o & Hc & Ho & Hcode).
  unfold insert_symbol. rewrite Hd, Hc. cbn [option_map]. rewrite Ho.
  destruct (split_feature_value s) as [f ov]. cbn [fst snd] in Hcode.
  destruct x as [f' v|f' v|f' v|f' v|f'|f' v]; simpl in Hcode.
  - destruct Hcode as (-> & -> & ->). simpl. split; [exact He|]. intros _. apply (fl_rel_set true); exact Hr.
  - destruct Hcode as (-> & -> & ->). simpl. split; [exact He|]. intros _. apply (fl_rel_set false); exact Hr.
  - destruct Hcode as (-> & -> & ->). pose proof (Hr f') as Hf.
    destruct v as [v|]; simpl.
    + unfold require_value, polarity.
      destruct (e f') as [|u|u]; simpl.
      * rewrite Hf. split; [reflexivity|discriminate].
      * destruct Hf as [-> ->]. destruct (bstr_eqb u v); simpl; rewrite ?He; (split; [reflexivity|]); intros K; try discriminate.
        apply fl_rel_error; exact Hr.
      * destruct Hf as [-> ->]. destruct (bstr_eqb u v); simpl; rewrite ?He; (split; [reflexivity|]); intros K; discriminate.
    + unfold require_feature.
      destruct (e f') as [|u|u]; simpl.
      * rewrite Hf. split; [reflexivity|discriminate].
      * destruct Hf as [-> _]. split; [exact He|intros _; exact Hr].
      * destruct Hf as [-> _]. split; [exact He|intros _; exact Hr].
  - destruct Hcode as (-> & -> & ->). pose proof (Hr f') as Hf.
    destruct v as [v|]; simpl.
    + unfold disallow_value, polarity.
      destruct (e f') as [|u|u]; simpl.
      * rewrite Hf. split; [exact He|intros _; exact Hr].
      * destruct Hf as [-> ->]. destruct (bstr_eqb u v); simpl; rewrite ?He; (split; [reflexivity|]); intros K; try discriminate.
        exact Hr.
      * destruct Hf as [-> ->]. destruct (bstr_eqb u v); simpl; rewrite ?He; (split; [reflexivity|]); intros K.
        -- apply fl_rel_error; exact Hr.
        -- exact Hr.
    + unfold disallow_feature.
      destruct (e f') as [|u|u]; simpl.
      * rewrite Hf. split; [exact He|intros _; exact Hr].
      * destruct Hf as [-> _]. split; [reflexivity|discriminate].
      * destruct Hf as [-> _]. split; [reflexivity|discriminate].
  - destruct Hcode as (-> & ->). simpl. split; [exact He|]. intros _. apply fl_rel_clear; exact Hr.
  - destruct Hcode as (-> & -> & ->). pose proof (Hr f') as Hf. simpl.
    unfold unify.
    assert (Hset : forall t0, error_flag t0 = false -> require_value f' v (set_value true f' v t0)
                   = fl_error (set_value true f' v t0) false).
    { intros t0 H0. unfold require_value, polarity, set_value at 1; simpl.
      rewrite (mget_mset_same bcmp bcmp_eq), bstr_eqb_refl. simpl.
      rewrite (mget_mset_same bcmp bcmp_eq). simpl. rewrite H0. reflexivity. }
    destruct (e f') as [|u|u]; simpl.
    + rewrite Hf, Hset by exact He. simpl. split; [reflexivity|]. intros _.
      apply fl_rel_error, (fl_rel_set true), Hr.
    + destruct Hf as [Hv Hp]. rewrite Hv. unfold polarity; rewrite Hp. cbn [negb].
      destruct (bstr_eqb_spec u v) as [->|N]; cbn [negb].
      * unfold require_value, polarity. rewrite Hv, Hp, bstr_eqb_refl. simpl. rewrite He.
        split; [reflexivity|]. intros _. apply fl_rel_error. intros g. unfold env_set.
        destruct (bstr_eqb_spec g f') as [->|]; [tauto|apply Hr].
      * unfold require_value, polarity. rewrite Hv.
        destruct (bstr_eqb_spec u v); [congruence|]. simpl. split; [reflexivity|discriminate].
    + destruct Hf as [Hv Hp]. rewrite Hv. unfold polarity; rewrite Hp. cbn [negb].
      destruct (bstr_eqb_spec u v) as [->|N]; cbn [negb].
      * unfold require_value, polarity. rewrite Hv, Hp, bstr_eqb_refl. simpl. rewrite He.
        split; [reflexivity|discriminate].
      * rewrite Hset by exact He. simpl. split; [reflexivity|]. intros _.
        apply fl_rel_error, (fl_rel_set true), Hr.
Qed.

Lemma insert_symbol_other s t : (forall y, ~ denotes s y) -> insert_symbol s t = t.
Proof.
  intros H. unfold insert_symbol. destruct (is_diacritic s) eqn:E; [|reflexivity].
  apply is_diacritic_denotes in E. destruct E as [x Hx]. elim (H x Hx).
Qed.

Lemma fl_loop_spec l : forall xs e t, Forall2 reads l xs -> fl_rel e t -> error_flag t = false ->
  fst (fl_loop l t) = forallb (fun b => b) (results xs e).
Proof.
  induction l as [|s l IH]; intros xs e t HF Hr He; inversion HF as [|? x ? xs' Hx HF']; subst; [reflexivity|].
  simpl. destruct x as [x|]; simpl in Hx.
  - destruct (insert_symbol_step s x e t Hx Hr He) as [H1 H2]. rewrite H1.
    destruct (step x e) as [e' b] eqn:Es. simpl in *. destruct b; simpl; [|reflexivity].
    apply IH; auto.
  - rewrite (insert_symbol_other s t Hx), He. simpl. apply IH; auto.
Qed.

Lemma fl_valid_spec l xs t : Forall2 reads l xs -> fst (fl_is_valid_string l t) = accepted xs.
Proof.
  intros H. unfold fl_is_valid_string, accepted. apply fl_loop_spec; [exact H| |reflexivity].
  intros f. reflexivity.
Qed.

(** * Numeric machine *)
Lemma mset_length_new {V} k (v : V) m : mget bcmp k m = None -> length (mset bcmp k v m) = S (length m).
Proof.
  induction m as [|[k' v'] r IH]; simpl; [reflexivity|].
  destruct (bcmp k k'); simpl; try discriminate; try reflexivity. intros H; rewrite IH; auto.
Qed.

Record tbl_ok (t : fdtable) : Prop := {
  ok_fid : forall f i, mget bcmp f (feature_map t) = Some i -> i < length (feature_map t);
  ok_finj : forall f g i, mget bcmp f (feature_map t) = Some i -> mget bcmp g (feature_map t) = Some i -> f = g;
  ok_v0 : mget bcmp [] (value_map t) = Some 0%Z;
  ok_vid : (Z.of_nat (length (value_map t)) <= 32767)%Z ->
           forall v i, v <> [] -> mget bcmp v (value_map t) = Some i ->
           (0 < i <= Z.of_nat (length (value_map t)))%Z;
  ok_vinj : (Z.of_nat (length (value_map t)) <= 32767)%Z ->
            forall v w i, mget bcmp v (value_map t) = Some i -> mget bcmp w (value_map t) = Some i -> v = w
}.

Lemma fd_empty_ok : tbl_ok fd_empty.
Proof.
  constructor; simpl; try discriminate; try reflexivity.
  - intros _ v i Hv. destruct v; [congruence|discriminate].
  - intros _ v w i. destruct v, w; simpl; congruence || discriminate.
Qed.

(** Meaning of an operation recorded in the table. *)
Definition op_means (t : fdtable) (op : fdop) (x : flag) : Prop :=
  match x with
  | FP f v => fo_op op = Pop /\ mget bcmp f (feature_map t) = Some (fo_feat op) /\ mget bcmp v (value_map t) = Some (fo_val op)
  | FN f v => fo_op op = Nop /\ mget bcmp f (feature_map t) = Some (fo_feat op) /\ mget bcmp v (value_map t) = Some (fo_val op)
  | FU f v => fo_op op = Uop /\ mget bcmp f (feature_map t) = Some (fo_feat op) /\ mget bcmp v (value_map t) = Some (fo_val op)
  | FR f v => fo_op op = Rop /\ mget bcmp f (feature_map t) = Some (fo_feat op) /\
              mget bcmp (match v with Some v => v | None => [] end) (value_map t) = Some (fo_val op)
  | FD f v => fo_op op = Dop /\ mget bcmp f (feature_map t) = Some (fo_feat op) /\
              mget bcmp (match v with Some v => v | None => [] end) (value_map t) = Some (fo_val op)
  | FC f => fo_op op = Cop /\ mget bcmp f (feature_map t) = Some (fo_feat op)
  end.

Definition ext (t t' : fdtable) : Prop :=
  (forall f i, mget bcmp f (feature_map t) = Some i -> mget bcmp f (feature_map t') = Some i) /\
  (forall v i, mget bcmp v (value_map t) = Some i -> mget bcmp v (value_map t') = Some i) /\
  length (feature_map t) <= length (feature_map t') /\
  length (value_map t) <= length (value_map t').

Lemma op_means_ext t t' op x : ext t t' -> op_means t op x -> op_means t' op x.
Proof. intros (H1 & H2 & _). destruct x; simpl; intuition. Qed.

Lemma to_short_id z : (0 <= z <= 32767)%Z -> to_short z = z.
Proof.
  intros H. unfold to_short. rewrite Z.mod_small by lia.
  destruct (Z.ltb_spec z 32768); lia.
Qed.
Lemma to_short_neg z : (0 < z <= 32767)%Z -> to_short (-1 * z) = (- z)%Z.
Proof.
  intros H. unfold to_short.
  replace ((-1 * z) mod 65536)%Z with (65536 - z)%Z.
  2: { apply (Z.mod_unique _ _ (-1)%Z); lia. }
  destruct (Z.ltb_spec (65536 - z) 32768); lia.
Qed.

Lemma define_ok t k s t' : tbl_ok t -> define_diacritic t k s = Some t' ->
  tbl_ok t' /\ ext t t' /\
  (forall x, denotes s x -> exists op, mget Nat.compare k (operations t') = Some op /\ op_means t' op x) /\
  (forall k', k' <> k -> mget Nat.compare k' (operations t') = mget Nat.compare k' (operations t)) /\
  (exists x, denotes s x).
Proof.
  intros [Ofid Ofinj Ov0 Ovid Ovinj] H. unfold define_diacritic in H.
  destruct (is_diacritic s) eqn:Hd; [|discriminate]. cbn [negb] in H.
  destruct (nth_error s 1) as [c|] eqn:Hc; [|discriminate].
  destruct (char_to_operator c) as [o|] eqn:Ho; [|discriminate].
  destruct (split_feature_value s) as [feat oval] eqn:Hs.
  set (val := match oval with Some v => v | None => [] end) in *.
  (* features *)
  destruct (match mget bcmp feat (feature_map t) with
          | Some _ => Some (feature_map t)
          | None =>
              match size_t_to_ushort (Z.of_nat (length (feature_map t))) with
              | None => None
              | Some _ => Some (mset bcmp feat (length (feature_map t)) (feature_map t))
              end
          end) as [fm|] eqn:Hfm; [|discriminate].
  destruct (match mget bcmp val (value_map t) with
          | Some _ => Some (value_map t)
          | None =>
              match size_t_to_ushort (Z.of_nat (length (value_map t)) + 1) with
              | None => None
              | Some n => Some (mset bcmp val (to_short n) (value_map t))
              end
          end) as [vm|] eqn:Hvm; [|discriminate].
  destruct (mget bcmp feat fm) as [fi|] eqn:Hfi; [|discriminate].
  destruct (mget bcmp val vm) as [vi|] eqn:Hvi; [|discriminate].
  injection H as <-. cbn.
  assert (HF : (forall f i, mget bcmp f (feature_map t) = Some i -> mget bcmp f fm = Some i) /\
               length (feature_map t) <= length fm /\
               (forall f i, mget bcmp f fm = Some i -> i < length fm) /\
               (forall f g i, mget bcmp f fm = Some i -> mget bcmp g fm = Some i -> f = g)).
  { destruct (mget bcmp feat (feature_map t)) as [i0|] eqn:E0.
    - injection Hfm as <-. repeat split; auto.
    - destruct (size_t_to_ushort _); [|discriminate]. injection Hfm as <-.
      rewrite mset_length_new by exact E0.
      assert (Hcase : forall f i, mget bcmp f (mset bcmp feat (length (feature_map t)) (feature_map t)) = Some i ->
                (f = feat /\ i = length (feature_map t)) \/ (f <> feat /\ mget bcmp f (feature_map t) = Some i)).
      { intros f i. destruct (bstr_eq_dec f feat) as [->|N].
        - rewrite (mget_mset_same bcmp bcmp_eq). intros K; injection K as <-. auto.
        - rewrite (mget_mset_other bcmp bcmp_eq) by exact N. auto. }
      repeat split.
      + intros f i K. rewrite (mget_mset_other bcmp bcmp_eq); [exact K|]. intros ->; congruence.
      + lia.
      + intros f i K. destruct (Hcase _ _ K) as [[_ ->]|[_ K']]; [lia|]. apply Ofid in K'. lia.
      + intros f g i K1 K2. destruct (Hcase _ _ K1) as [[-> ->]|[_ K1']], (Hcase _ _ K2) as [[-> K2']|[_ K2']]; auto.
        * apply Ofid in K2'. lia.
        * subst i. apply Ofid in K1'. lia.
        * eauto. }
  assert (HV : (forall f i, mget bcmp f (value_map t) = Some i -> mget bcmp f vm = Some i) /\
               length (value_map t) <= length vm /\
               ((Z.of_nat (length vm) <= 32767)%Z ->
                (forall v i, v <> [] -> mget bcmp v vm = Some i -> (0 < i <= Z.of_nat (length vm))%Z) /\
                (forall v w i, mget bcmp v vm = Some i -> mget bcmp w vm = Some i -> v = w))).
  { destruct (mget bcmp val (value_map t)) as [i0|] eqn:E0.
    - injection Hvm as <-. split; [auto|]. split; [lia|]. intros Hsz. split; [exact (Ovid Hsz)|exact (Ovinj Hsz)].
    - unfold size_t_to_ushort in Hvm.
      destruct (Z.leb_spec (Z.of_nat (length (value_map t)) + 1) 65535); [|discriminate].
      injection Hvm as <-.
      rewrite mset_length_new by exact E0.
      set (new := to_short (Z.of_nat (length (value_map t)) + 1)) in *.
      assert (Hcase : forall f i, mget bcmp f (mset bcmp val new (value_map t)) = Some i ->
                (f = val /\ i = new) \/ (f <> val /\ mget bcmp f (value_map t) = Some i)).
      { intros f i. destruct (bstr_eq_dec f val) as [->|N].
        - rewrite (mget_mset_same bcmp bcmp_eq). intros K; injection K as <-. auto.
        - rewrite (mget_mset_other bcmp bcmp_eq) by exact N. auto. }
      split; [|split; [lia|]].
      + intros f i K. rewrite (mget_mset_other bcmp bcmp_eq); [exact K|]. intros ->; congruence.
      + intros Hsz.
        assert (Hnew : new = (Z.of_nat (length (value_map t)) + 1)%Z) by (apply to_short_id; lia).
        assert (Hsz' : (Z.of_nat (length (value_map t)) <= 32767)%Z) by lia.
        split.
        * intros v i Hv K. destruct (Hcase _ _ K) as [[_ ->]|[_ K']]; [lia|].
          apply (Ovid Hsz') in K'; [lia|exact Hv].
        * assert (Hold : forall v, mget bcmp v (value_map t) <> Some new).
          { intros v K. destruct v as [|a v].
            - rewrite Ov0 in K. injection K as K. lia.
            - apply (Ovid Hsz') in K; [lia|discriminate]. }
          intros v w i K1 K2.
          destruct (Hcase _ _ K1) as [[-> ->]|[_ K1']], (Hcase _ _ K2) as [[-> K2']|[_ K2']]; auto.
          -- elim (Hold _ K2').
          -- subst i. elim (Hold _ K1').
          -- exact (Ovinj Hsz' _ _ _ K1' K2'). }
  destruct HF as (F1 & F2 & F3 & F4), HV as (V1 & V2 & V3).
  split; [|split; [|split; [|split]]].
  - constructor; cbn.
    + exact F3.
    + exact F4.
    + auto.
    + intros Hsz. apply V3; exact Hsz.
    + intros Hsz. apply V3; exact Hsz.
  - repeat split; auto.
  - intros x Hx. rewrite (mget_mset_same Nat.compare Nat.compare_eq_iff).
    eexists; split; [reflexivity|]. apply denotes_code in Hx.
    destruct Hx as (_ & c' & o' & Hc' & Ho' & Hcode). rewrite Hs in Hcode. cbn [fst snd] in Hcode.
    assert (o' = o) by congruence. subst o'.
    destruct x as [f' v|f' v|f' v|f' v|f'|f' v]; cbn [flag_code] in Hcode; cbn [op_means fo_op fo_feat fo_val feature_map value_map];
      [destruct Hcode as (-> & <- & Hov) | destruct Hcode as (-> & <- & Hov)
      | destruct Hcode as (-> & <- & Hov) | destruct Hcode as (-> & <- & Hov)
      | destruct Hcode as (-> & <-) | destruct Hcode as (-> & <- & Hov)];
      (split; [reflexivity|]); try (split; [exact Hfi|]); try exact Hfi; rewrite <- Hvi; unfold val; rewrite Hov; reflexivity.
  - intros k' Hk. apply (mget_mset_other Nat.compare Nat.compare_eq_iff). exact Hk.
  - apply is_diacritic_denotes. exact Hd.
Qed.

Lemma define_all_ok defs : forall t t', tbl_ok t -> define_all t defs = Some t' ->
  tbl_ok t' /\ ext t t' /\
  forall k,
    match last_def defs k with
    | None => mget Nat.compare k (operations t') = mget Nat.compare k (operations t)
    | Some s => (exists x, denotes s x) /\
                forall x, denotes s x -> exists op, mget Nat.compare k (operations t') = Some op /\ op_means t' op x
    end.
Proof.
  induction defs as [|[k0 s0] r IH]; intros t t' Hok H; simpl in H.
  - injection H as <-. split; [exact Hok|]. split; [repeat split; auto|]. intros k; reflexivity.
  - destruct (define_diacritic t k0 s0) as [t1|] eqn:E; [|discriminate].
    destruct (define_ok _ _ _ _ Hok E) as (Hok1 & Hext1 & Hdef & Hoth & Hsome).
    destruct (IH _ _ Hok1 H) as (Hok' & Hext' & Hk).
    split; [exact Hok'|]. split.
    { destruct Hext1 as (A1 & A2 & A3 & A4), Hext' as (B1 & B2 & B3 & B4).
      repeat split; auto; lia. }
    intros k. specialize (Hk k). simpl. destruct (last_def r k) as [s'|] eqn:El; [exact Hk|].
    destruct (Nat.eqb_spec k k0) as [->|N].
    + split; [exact Hsome|]. intros x Hx. destruct (Hdef x Hx) as (op & Hop & Hm).
      exists op. rewrite Hk. split; [exact Hop|]. eapply op_means_ext; eassumption.
    + rewrite Hk. apply Hoth; exact N.
Qed.

(** Encoding of a feature value. *)
Definition enc (t : fdtable) (x : fval) (z : Z) : Prop :=
  match x with
  | Unset => z = 0%Z
  | Pos v => v <> [] /\ mget bcmp v (value_map t) = Some z
  | Neg v => v <> [] /\ exists i, mget bcmp v (value_map t) = Some i /\ z = (- i)%Z
  end.

Definition fd_rel (t : fdtable) (e : fenv) (s : fdstate) : Prop :=
  fs_error s = false /\
  length (fs_values s) = length (feature_map t) /\
  forall f i, mget bcmp f (feature_map t) = Some i ->
    exists z, nth_error (fs_values s) i = Some z /\ enc t (e f) z.

Section Num.
  Variable t : fdtable.
  Hypothesis Hok : tbl_ok t.
  Hypothesis Hsz : (Z.of_nat (length (value_map t)) <= 32767)%Z.

  Lemma vid_pos v i : v <> [] -> mget bcmp v (value_map t) = Some i -> (0 < i <= 32767)%Z.
  Proof. intros Hv H. pose proof (ok_vid t Hok Hsz v i Hv H). lia. Qed.

  Lemma fd_rel_set e s f i x z :
    fd_rel t e s -> mget bcmp f (feature_map t) = Some i -> enc t x z ->
    fd_rel t (env_set e f x) {| fs_values := upd i z (fs_values s); fs_error := fs_error s |}.
  Proof.
    intros (He & Hl & Hr) Hf Hz. split; [exact He|]. split; [simpl; rewrite upd_length; exact Hl|].
    intros g j Hg. simpl. unfold env_set. destruct (bstr_eqb_spec g f) as [->|N].
    - assert (j = i) by congruence. subst j. exists z. split; [|exact Hz].
      apply nth_error_upd_same. rewrite Hl. eapply ok_fid; eassumption.
    - destruct (Hr g j Hg) as (z' & Hz' & He'). exists z'. split; [|exact He'].
      rewrite nth_error_upd_other; [exact Hz'|]. intros ->. apply N. eapply ok_finj; eassumption.
  Qed.

  Lemma apply_op_step e s op x :
    fd_rel t e s -> op_means t op x -> nonempty_value x ->
    exists s', apply_op op s = Some (s', snd (step x e)) /\ fd_rel t (fst (step x e)) s'.
  Proof.
    intros Hrel Hm Hne. pose proof Hrel as (Herr & Hlen & Hr).
    destruct x as [f v|f v|f v|f v|f|f v]; cbn [op_means nonempty_value] in Hm, Hne.
    - destruct Hm as (Ho & Hf & Hv). destruct (Hr _ _ Hf) as (z & Hz & Henc).
      unfold apply_op. rewrite Hz, Ho. eexists; split; [reflexivity|]. cbn [step fst].
      rewrite to_short_id by (pose proof (vid_pos v _ Hne Hv); lia).
      apply fd_rel_set; auto. split; assumption.
    - destruct Hm as (Ho & Hf & Hv). destruct (Hr _ _ Hf) as (z & Hz & Henc).
      unfold apply_op. rewrite Hz, Ho. eexists; split; [reflexivity|]. cbn [step fst].
      rewrite to_short_neg by (pose proof (vid_pos v _ Hne Hv); lia).
      apply fd_rel_set; auto. split; [assumption|]. eexists; split; [eassumption|reflexivity].
    - destruct Hm as (Ho & Hf & Hv). destruct (Hr _ _ Hf) as (z & Hz & Henc).
      unfold apply_op. rewrite Hz, Ho. destruct v as [v|].
      + pose proof (vid_pos v _ Hne Hv) as Hp.
        destruct (Z.eqb_spec (fo_val op) 0) as [|_]; [lia|].
        eexists; split; [|exact Hrel]. f_equal. f_equal. cbn [step snd].
        destruct (e f) as [|u|u]; cbn [enc] in Henc.
        * subst z. apply Z.eqb_neq. lia.
        * destruct Henc as [Hu Hz']. destruct (bstr_eqb_spec u v) as [->|N].
          -- apply Z.eqb_eq. congruence.
          -- apply Z.eqb_neq. intros ->. apply N. eapply ok_vinj; eauto.
        * destruct Henc as [Hu (i & Hi & ->)]. pose proof (vid_pos u _ Hu Hi).
          apply Z.eqb_neq. lia.
      + rewrite (ok_v0 t Hok) in Hv. injection Hv as <-. rewrite Z.eqb_refl.
        eexists; split; [|exact Hrel]. f_equal. f_equal. cbn [step snd].
        destruct (e f) as [|u|u]; cbn [enc] in Henc.
        * subst z. reflexivity.
        * destruct Henc as [Hu Hz']. pose proof (vid_pos u _ Hu Hz'). apply negb_true_iff, Z.eqb_neq; lia.
        * destruct Henc as [Hu (i & Hi & ->)]. pose proof (vid_pos u _ Hu Hi). apply negb_true_iff, Z.eqb_neq; lia.
    - destruct Hm as (Ho & Hf & Hv). destruct (Hr _ _ Hf) as (z & Hz & Henc).
      unfold apply_op. rewrite Hz, Ho. destruct v as [v|].
      + pose proof (vid_pos v _ Hne Hv) as Hp.
        destruct (Z.eqb_spec (fo_val op) 0) as [|_]; [lia|].
        eexists; split; [|exact Hrel]. f_equal. f_equal. cbn [step snd].
        destruct (e f) as [|u|u]; cbn [enc] in Henc.
        * subst z. apply negb_true_iff, Z.eqb_neq. lia.
        * destruct Henc as [Hu Hz']. f_equal. destruct (bstr_eqb_spec u v) as [->|N].
          -- apply Z.eqb_eq. congruence.
          -- apply Z.eqb_neq. intros ->. apply N. eapply ok_vinj; eauto.
        * destruct Henc as [Hu (i & Hi & ->)]. pose proof (vid_pos u _ Hu Hi).
          apply negb_true_iff, Z.eqb_neq. lia.
      + rewrite (ok_v0 t Hok) in Hv. injection Hv as <-. rewrite Z.eqb_refl.
        eexists; split; [|exact Hrel]. f_equal. f_equal. cbn [step snd].
        destruct (e f) as [|u|u]; cbn [enc] in Henc.
        * subst z. reflexivity.
        * destruct Henc as [Hu Hz']. pose proof (vid_pos u _ Hu Hz'). apply Z.eqb_neq; lia.
        * destruct Henc as [Hu (i & Hi & ->)]. pose proof (vid_pos u _ Hu Hi). apply Z.eqb_neq; lia.
    - destruct Hm as (Ho & Hf). destruct (Hr _ _ Hf) as (z & Hz & Henc).
      unfold apply_op. rewrite Hz, Ho. eexists; split; [reflexivity|]. cbn [step fst].
      apply fd_rel_set; auto. reflexivity.
    - destruct Hm as (Ho & Hf & Hv). destruct (Hr _ _ Hf) as (z & Hz & Henc).
      unfold apply_op. rewrite Hz, Ho. pose proof (vid_pos v _ Hne Hv) as Hp.
      assert (Hgo : fd_rel t (env_set e f (Pos v))
                {| fs_values := upd (fo_feat op) (to_short (fo_val op)) (fs_values s); fs_error := fs_error s |}).
      { rewrite to_short_id by lia. apply fd_rel_set; auto. split; assumption. }
      cbn [step]. destruct (e f) as [|u|u]; cbn [enc] in Henc.
      + subst z. cbn [Z.eqb orb]. eexists; split; [reflexivity|]. exact Hgo.
      + destruct Henc as [Hu Hz']. pose proof (vid_pos u _ Hu Hz') as Hpu.
        destruct (Z.eqb_spec z 0) as [|_]; [lia|]. destruct (Z.ltb_spec z 0) as [|_]; [lia|].
        destruct (bstr_eqb_spec u v) as [->|N].
        * replace z with (fo_val op) by congruence. rewrite Z.eqb_refl. cbn [orb andb].
          eexists; split; [reflexivity|exact Hgo].
        * destruct (Z.eqb_spec z (fo_val op)) as [->|_].
          { elim N. eapply ok_vinj; eauto. }
          cbn [orb andb]. eexists; split; [reflexivity|exact Hrel].
      + destruct Henc as [Hu (i & Hi & ->)]. pose proof (vid_pos u _ Hu Hi) as Hpu.
        destruct (Z.eqb_spec (- i) 0) as [|_]; [lia|]. destruct (Z.eqb_spec (- i) (fo_val op)) as [|_]; [lia|].
        destruct (Z.ltb_spec (- i) 0) as [_|]; [|lia]. cbn [orb andb].
        replace (- i * -1)%Z with i by lia.
        destruct (bstr_eqb_spec u v) as [->|N].
        * replace i with (fo_val op) by congruence. rewrite Z.eqb_refl. cbn [negb].
          eexists; split; [reflexivity|exact Hrel].
        * destruct (Z.eqb_spec i (fo_val op)) as [->|_].
          { elim N. eapply ok_vinj; eauto. }
          cbn [negb]. eexists; split; [reflexivity|exact Hgo].
  Qed.

  Lemma fd_rel_new : (Z.of_nat (length (feature_map t)) <= 65535)%Z -> fd_rel t env0 (fdstate_new t).
  Proof.
    intros H. unfold fdstate_new, num_features. rewrite Z.mod_small by lia. rewrite Nat2Z.id.
    split; [reflexivity|]. split; [apply repeat_length|].
    intros f i Hf. exists 0%Z. split; [|reflexivity].
    apply (ok_fid t Hok) in Hf. simpl.
    rewrite (nth_error_nth' _ 0%Z) by (rewrite repeat_length; exact Hf).
    f_equal. apply nth_repeat.
  Qed.
End Num.

Definition symbols_mean (t : fdtable) (k : nat) (x : option flag) : Prop :=
  match x with
  | None => mget Nat.compare k (operations t) = None
  | Some y => nonempty_value y /\ exists op, mget Nat.compare k (operations t) = Some op /\ op_means t op y
  end.

Lemma run_symbols_spec t ks : tbl_ok t -> (Z.of_nat (length (value_map t)) <= 32767)%Z ->
  forall xs e s, Forall2 (symbols_mean t) ks xs -> fd_rel t e s ->
  run_symbols t ks s = Some (results xs e).
Proof.
  intros Hok Hsz. induction ks as [|k ks IH]; intros xs e s HF Hr; inversion HF as [|? x ? xs' Hx HF']; subst; [reflexivity|].
  simpl. unfold apply_symbol. destruct x as [x|]; simpl in Hx.
  - destruct Hx as (Hne & op & -> & Hm).
    destruct (apply_op_step t Hok Hsz e s op x Hr Hm Hne) as (s' & -> & Hr').
    destruct (step x e) as [e' b]. simpl in *. rewrite (IH _ _ _ HF' Hr'). reflexivity.
  - rewrite Hx. rewrite (IH _ _ _ HF' Hr). reflexivity.
Qed.

Lemma meanings defs t ks xs :
  define_all fd_empty defs = Some t ->
  Forall2 (symbol_meaning defs) ks xs ->
  Forall (fun x => match x with Some y => nonempty_value y | None => True end) xs ->
  Forall2 (symbols_mean t) ks xs.
Proof.
  intros Hdef HF HN. destruct (define_all_ok _ _ _ fd_empty_ok Hdef) as (_ & _ & Hk).
  induction HF as [|k x ks xs Hx HF IH]; [constructor|].
  inversion HN as [|? ? Hn HN']; subst. constructor; [|apply IH; exact HN'].
  unfold symbol_meaning in Hx. specialize (Hk k).
  destruct (last_def defs k) as [s|], x as [y|]; try contradiction.
  - split; [exact Hn|]. apply Hk. exact Hx.
  - exact Hk.
Qed.

Lemma fd_semantics defs t ks xs :
  define_all fd_empty defs = Some t ->
  (Z.of_nat (length (value_map t)) <= 32767)%Z ->
  (Z.of_nat (length (feature_map t)) <= 65535)%Z ->
  Forall2 (symbol_meaning defs) ks xs ->
  Forall (fun x => match x with Some y => nonempty_value y | None => True end) xs ->
  run_symbols t ks (fdstate_new t) = Some (results xs env0).
Proof.
  intros Hdef Hv Hf HF HN. destruct (define_all_ok _ _ _ fd_empty_ok Hdef) as (Hok & _ & _).
  apply run_symbols_spec; [exact Hok|exact Hv|eapply meanings; eassumption|apply fd_rel_new; assumption].
Qed.

(** FdTable::is_valid_string never reports failure. *)
Lemma apply_op_error op s s' b : apply_op op s = Some (s', b) -> fs_error s' = fs_error s.
Proof.
  unfold apply_op. destruct (nth_error _ _); [|discriminate].
  intros H. injection H as H. destruct (fo_op op);
    repeat match type of H with (if ?c then _ else _) = _ => destruct c end;
    injection H as <- _; reflexivity.
Qed.
Lemma apply_symbol_error t k s s' b : apply_symbol t k s = Some (s', b) -> fs_error s' = fs_error s.
Proof.
  unfold apply_symbol. destruct (mget _ _ _); [apply apply_op_error|]. intros H; injection H as <- _; reflexivity.
Qed.
Lemma valid_loop_error t ks : forall s s', valid_loop t ks s = Some s' -> fs_error s' = fs_error s.
Proof.
  induction ks as [|k ks IH]; simpl; intros s s' H; [congruence|].
  destruct (apply_symbol t k s) as [[s1 [|]]|] eqn:E; [| |discriminate]; apply apply_symbol_error in E.
  - apply IH in H. congruence.
  - injection H as <-. exact E.
Qed.
Lemma fdtable_valid_true t ks b : fdtable_is_valid_string t ks = Some b -> b = true.
Proof.
  unfold fdtable_is_valid_string. destruct (valid_loop _ _ _) eqn:E; [|discriminate].
  apply valid_loop_error in E. simpl. rewrite E. simpl. congruence.
Qed.

(** find_diacritic never succeeds: the substring it tests stops before the closing '@'. *)
Lemma find_char_notin c s i : find_char c s = Some i -> ~ In c (firstn i s).
Proof.
  revert i; induction s as [|x s IH]; simpl; intros i H; [discriminate|].
  destruct (Ascii.eqb_spec x c) as [->|N].
  - injection H as <-. simpl. tauto.
  - destruct (find_char c s) as [j|]; [|discriminate]. injection H as <-.
    simpl. intros [K|K]; [congruence|]. exact (IH j eq_refl K).
Qed.
Lemma find_char_nth c s i : find_char c s = Some i -> nth_error s i = Some c.
Proof.
  revert i; induction s as [|x s IH]; simpl; intros i H; [discriminate|].
  destruct (Ascii.eqb_spec x c) as [->|N].
  - injection H as <-. reflexivity.
  - destruct (find_char c s) as [j|]; [|discriminate]. injection H as <-. simpl. auto.
Qed.

Lemma find_diacritic_none s : find_diacritic s = None.
Proof.
  unfold find_diacritic. destruct (find_from ch_at s 0) as [st|] eqn:E1; [|reflexivity].
  destruct (find_from ch_at s (st + 1)) as [e|] eqn:E2; [|reflexivity].
  destruct (is_diacritic (substr s st (e - st))) eqn:Ed; [|reflexivity]. exfalso.
  unfold find_from in E2. destruct (find_char ch_at (skipn (st + 1) s)) as [j|] eqn:Ej; [|discriminate].
  simpl in E2. injection E2 as <-.
  assert (Hs : exists r, skipn st s = ch_at :: r /\ skipn (st + 1) s = r).
  { unfold find_from in E1. rewrite skipn_O in E1. destruct (find_char ch_at s) as [i|] eqn:Ei; [|discriminate].
    simpl in E1. injection E1 as <-. apply find_char_nth in Ei. clear Ej Ed.
    revert s Ei. induction i as [|i IH]; intros [|x s] Ei; simpl in Ei; try discriminate.
    - injection Ei as ->. exists s. split; reflexivity.
    - destruct (IH _ Ei) as (r & H1 & H2). exists r. split; assumption. }
  destruct Hs as (r & Hs1 & Hs2). rewrite Hs2 in Ej. unfold substr in Ed. rewrite Hs1 in Ed.
  replace (st + 1 + j - st) with (S j) in Ed by lia. cbn [firstn] in Ed.
  apply find_char_notin in Ej.
  apply is_diacritic_inv in Ed. unfold shape1, shape2 in Ed.
  assert (Hlast : exists l c, firstn j r = c :: l ++ ["@"%char]).
  { destruct Ed as [(c & f & v & _ & _ & E)|(c & f & _ & _ & _ & E)]; injection E as E;
      rewrite E; eexists (_ :: _), _; reflexivity. }
  destruct Hlast as (l & c & Hl). apply Ej. rewrite Hl. right. apply in_or_app. right. left. reflexivity.
Qed.
