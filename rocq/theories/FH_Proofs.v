(** Proofs: flags with a suffix added to the name of their feature. *)
From Verif Require Import Base Flags_Model Flags_Spec Flags_Proofs BT_Model BT_Spec FH_Spec FH_Model.

Lemma flag_iff s : is_diacritic s = true <-> is_flag s.
Proof. apply is_diacritic_denotes. Qed.
Lemma not_flag_iff s : is_diacritic s = false <-> ~ is_flag s.
Proof. rewrite <- flag_iff. destruct (is_diacritic s); split; congruence. Qed.

(** * Written forms are read in one way *)
Lemma operator_char o : In o ["P"; "N"; "R"; "D"; "C"; "U"]%string -> exists c, B o = [c] /\ c <> "."%char.
Proof. intros [<-|[<-|[<-|[<-|[<-|[<-|[]]]]]]]; eexists; split; try reflexivity; discriminate. Qed.
Lemma value_operator o : In o ["R"; "D"; "C"]%string -> In o ["P"; "N"; "R"; "D"; "C"; "U"]%string.
Proof. simpl. intuition. Qed.
Lemma operator_inj o o' : In o ["P"; "N"; "R"; "D"; "C"; "U"]%string -> In o' ["P"; "N"; "R"; "D"; "C"; "U"]%string -> B o = B o' -> o = o'.
Proof. intros [<-|[<-|[<-|[<-|[<-|[<-|[]]]]]]] [<-|[<-|[<-|[<-|[<-|[<-|[]]]]]]] E; try reflexivity; discriminate E. Qed.
Lemma form1_inj o f o' f' : In o ["R"; "D"; "C"]%string -> In o' ["R"; "D"; "C"]%string -> f <> [] -> f' <> [] -> no_dot f -> no_dot f' ->
  form1 o f = form1 o' f' -> o = o' /\ f = f'.
Proof.
  intros O O' N N' D D' E. destruct (accessors_form1 o f O N D) as (A & C & _). destruct (accessors_form1 o' f' O' N' D') as (A' & C' & _).
  rewrite E in A, C. split; [apply operator_inj; auto using value_operator|]; congruence.
Qed.
Lemma form2_inj o f v o' f' v' : In o ["P"; "N"; "R"; "D"; "C"; "U"]%string -> In o' ["P"; "N"; "R"; "D"; "C"; "U"]%string -> no_dot f -> no_dot f' ->
  form2 o f v = form2 o' f' v' -> o = o' /\ f = f' /\ v = v'.
Proof.
  intros O O' D D' E. destruct (accessors_form2 o f v O D) as (A & C & V & _). destruct (accessors_form2 o' f' v' O' D') as (A' & C' & V' & _).
  rewrite E in A, C, V. split; [apply operator_inj; auto|split]; congruence.
Qed.
Lemma form_apart o f o' f' v' : In o ["R"; "D"; "C"]%string -> f <> [] -> no_dot f ->
  In o' ["P"; "N"; "R"; "D"; "C"; "U"]%string -> no_dot f' -> form1 o f <> form2 o' f' v'.
Proof.
  intros O N D O' D' E. destruct (accessors_form1 o f O N D) as (_ & _ & _ & H). destruct (accessors_form2 o' f' v' O' D') as (_ & _ & _ & H').
  rewrite E in H. congruence.
Qed.
Definition feature (x : flag) : bstr :=
  match x with FP f _ | FN f _ | FR f _ | FD f _ | FC f | FU f _ => f end.
Definition move (suf : bstr) (x : flag) : flag :=
  match x with
  | FP f v => FP (f ++ suf) v | FN f v => FN (f ++ suf) v | FR f v => FR (f ++ suf) v
  | FD f v => FD (f ++ suf) v | FC f => FC (f ++ suf) | FU f v => FU (f ++ suf) v
  end.
Lemma denotes_forms s x : denotes s x ->
  (exists o f, In o ["R"; "D"; "C"]%string /\ f <> [] /\ no_dot f /\ s = form1 o f) \/
  (exists o f v, In o ["P"; "N"; "R"; "D"; "C"; "U"]%string /\ no_dot f /\ s = form2 o f v).
Proof. intros D. apply is_diacritic_grammar, flag_iff. exists x. exact D. Qed.
Lemma denotes_form1 o f x : In o ["R"; "D"; "C"]%string -> f <> [] -> no_dot f -> denotes (form1 o f) x ->
  o = "R"%string /\ x = FR f None \/ o = "D"%string /\ x = FD f None \/ o = "C"%string /\ x = FC f.
Proof.
  intros O N D H. remember (form1 o f) as s eqn:E. destruct H; try (symmetry in E; revert E; intros E; exfalso; revert E; apply form_apart; simpl; auto 10; fail);
    try (apply form1_inj in E; simpl; auto 10; destruct E as [<- <-]; auto).
Qed.
Lemma denotes_form2 o f v x : In o ["P"; "N"; "R"; "D"; "C"; "U"]%string -> no_dot f -> denotes (form2 o f v) x ->
  o = "P"%string /\ x = FP f v \/ o = "N"%string /\ x = FN f v \/ o = "U"%string /\ x = FU f v \/
  o = "R"%string /\ x = FR f (Some v) \/ o = "D"%string /\ x = FD f (Some v) \/ o = "C"%string /\ x = FC f.
Proof.
  intros O D H. remember (form2 o f v) as s eqn:E. destruct H; try (exfalso; revert E; apply form_apart; simpl; auto 10; fail);
    apply form2_inj in E; simpl; auto 10; destruct E as (<- & <- & <-); auto 10.
Qed.
Lemma no_dot_app f g : no_dot f -> no_dot g -> no_dot (f ++ g).
Proof. intros F G H. apply in_app_or in H. destruct H; auto. Qed.
Lemma app_ne (f g : bstr) : f <> [] -> f ++ g <> [].
Proof. destruct f; [congruence|discriminate]. Qed.
Lemma denotes_fun s x y : denotes s x -> denotes s y -> x = y.
Proof.
  intros H K. destruct (denotes_forms s x H) as [(o & f & O & N & D & ->)|(o & f & v & O & D & ->)].
  - apply denotes_form1 in H, K; auto. destruct H as [[-> ->]|[[-> ->]|[-> ->]]], K as [[E ->]|[[E ->]|[E ->]]]; try discriminate E; reflexivity.
  - apply denotes_form2 in H, K; auto.
    destruct H as [[-> ->]|[[-> ->]|[[-> ->]|[[-> ->]|[[-> ->]|[-> ->]]]]]], K as [[E ->]|[[E ->]|[[E ->]|[[E ->]|[[E ->]|[E ->]]]]]]; try discriminate E; reflexivity.
Qed.
Lemma suffix_denotes suf s t x : no_dot suf -> with_suffix suf s t -> denotes s x -> denotes t (move suf x).
Proof.
  intros S W H. destruct W as [o f O N D|o f v O D|s K].
  - apply denotes_form1 in H; auto. destruct H as [[-> ->]|[[-> ->]|[-> ->]]]; constructor; auto using no_dot_app, app_ne.
  - apply denotes_form2 in H; auto.
    destruct H as [[-> ->]|[[-> ->]|[[-> ->]|[[-> ->]|[[-> ->]|[-> ->]]]]]]; constructor; auto using no_dot_app.
  - destruct K. exists x. exact H.
Qed.
Lemma suffix_reads suf s t x z : no_dot suf -> with_suffix suf s t -> reads s x -> reads t z -> z = option_map (move suf) x.
Proof.
  intros S W H K. destruct x as [x|]; cbn [reads option_map] in *.
  - pose proof (suffix_denotes suf s t x S W H) as Q. destruct z as [z|]; [f_equal; exact (denotes_fun _ _ _ K Q)|destruct (K _ Q)].
  - destruct W as [o f O N D|o f v O D|s Ns]; [exfalso|exfalso|].
    + assert (F : is_flag (form1 o f)) by (apply flag_iff, is_diacritic_grammar; left; exists o, f; auto). destruct F as [y F]. exact (H y F).
    + assert (F : is_flag (form2 o f v)) by (apply flag_iff, is_diacritic_grammar; right; exists o, f, v; auto). destruct F as [y F]. exact (H y F).
    + destruct z as [z|]; [destruct (H z K)|reflexivity].
Qed.

(** * The renaming function *)
Lemma rename_with_suffix suf s : with_suffix suf s (rename_symbol suf s).
Proof.
  unfold rename_symbol. destruct (is_diacritic s) eqn:D; [|apply ws_other, not_flag_iff, D].
  apply is_diacritic_grammar in D. unfold add_suffix_to_feature_name. destruct D as [(o & f & O & N & D & ->)|(o & f & v & O & D & ->)].
  - destruct (accessors_form1 o f O N D) as (-> & -> & _ & ->). replace (B "@" ++ B o ++ B "." ++ f ++ suf ++ [] ++ B "@") with (form1 o (f ++ suf)).
    + constructor; assumption.
    + unfold form1. cbn [app]. rewrite <- app_assoc. reflexivity.
  - destruct (accessors_form2 o f v O D) as (-> & -> & -> & ->).
    replace (B "@" ++ B o ++ B "." ++ f ++ suf ++ (B "." ++ v) ++ B "@") with (form2 o (f ++ suf) v).
    + constructor; assumption.
    + unfold form2. rewrite <- !app_assoc. reflexivity.
Qed.
Lemma with_suffix_fun suf s t : with_suffix suf s t -> t = rename_symbol suf s.
Proof.
  intros W. pose proof (rename_with_suffix suf s) as R. remember (rename_symbol suf s) as u eqn:Eu. clear Eu. destruct W as [o f O N D|o f v O D|s K].
  - remember (form1 o f) as s eqn:E. destruct R as [o' f' O' N' D'|o' f' v' O' D'|s K].
    + apply form1_inj in E; auto. destruct E as [-> ->]. reflexivity.
    + symmetry in E. destruct (form_apart _ _ _ _ _ O N D O' D' E).
    + exfalso. apply K, flag_iff, is_diacritic_grammar. left. exists o, f. auto.
  - remember (form2 o f v) as s eqn:E. destruct R as [o' f' O' N' D'|o' f' v' O' D'|s K].
    + destruct (form_apart _ _ _ _ _ O' N' D' O D E).
    + apply form2_inj in E; auto. destruct E as (-> & -> & ->). reflexivity.
    + exfalso. apply K, flag_iff, is_diacritic_grammar. right. exists o, f, v. auto.
  - destruct R as [o' f' O' N' D'|o' f' v' O' D'|s K']; [exfalso|exfalso|reflexivity].
    + apply K, flag_iff, is_diacritic_grammar. left. exists o', f'. auto.
    + apply K, flag_iff, is_diacritic_grammar. right. exists o', f', v'. auto.
Qed.
Lemma with_suffix_flag suf s t : no_dot suf -> with_suffix suf s t -> (is_flag s <-> is_flag t).
Proof.
  intros S W. split; intros [x H]; [exists (move suf x); apply (suffix_denotes suf s); assumption|]. destruct W as [o f O N D|o f v O D|s K].
  - apply flag_iff, is_diacritic_grammar. left. exists o, f. auto.
  - apply flag_iff, is_diacritic_grammar. right. exists o, f, v. auto.
  - exists x. exact H.
Qed.
Lemma with_suffix_inj suf s s' t : no_dot suf -> with_suffix suf s t -> with_suffix suf s' t -> s = s'.
Proof.
  intros S W W'. pose proof (with_suffix_flag _ _ _ S W) as F. pose proof (with_suffix_flag _ _ _ S W') as F'.
  destruct W as [o f O N D|o f v O D|s K].
  - remember (form1 o (f ++ suf)) as t eqn:E. destruct W' as [o' f' O' N' D'|o' f' v' O' D'|s' K'].
    + apply form1_inj in E; auto using app_ne, no_dot_app. destruct E as [-> E]. apply app_inv_tail in E. subst. reflexivity.
    + symmetry in E. exfalso. revert E. apply form_apart; auto using app_ne, no_dot_app.
    + exfalso. apply K', F, flag_iff, is_diacritic_grammar. left. exists o, f. auto.
  - remember (form2 o (f ++ suf) v) as t eqn:E. destruct W' as [o' f' O' N' D'|o' f' v' O' D'|s' K'].
    + exfalso. revert E. apply form_apart; auto using app_ne, no_dot_app.
    + apply form2_inj in E; auto using no_dot_app. destruct E as (-> & E & ->). apply app_inv_tail in E. subst. reflexivity.
    + exfalso. apply K', F, flag_iff, is_diacritic_grammar. right. exists o, f, v. auto.
  - destruct W' as [o' f' O' N' D'|o' f' v' O' D'|s' K']; [exfalso|exfalso|reflexivity].
    + apply K, F', flag_iff, is_diacritic_grammar. left. exists o', f'. auto.
    + apply K, F', flag_iff, is_diacritic_grammar. right. exists o', f', v'. auto.
Qed.
(** * Two kinds of features do not interact *)
Section Apart.
  Variables s1 s2 : bstr.
  Hypothesis Ap : forall f g : bstr, f ++ s1 <> g ++ s2.
  Definition together (e1 e2 e : fenv) : Prop := forall f, e (f ++ s1) = e1 f /\ e (f ++ s2) = e2 f.
  Lemma set_left e1 e2 e f x : together e1 e2 e -> together (env_set e1 f x) e2 (env_set e (f ++ s1) x).
  Proof using Ap.
    intros T g. destruct (T g) as [T1 T2]. unfold env_set. split.
    - destruct (bstr_eqb g f) eqn:E.
      + apply bstr_eqb_eq in E. subst. rewrite bstr_eqb_refl. reflexivity.
      + destruct (bstr_eqb (g ++ s1) (f ++ s1)) eqn:E'; [|exact T1]. apply bstr_eqb_eq, app_inv_tail in E'. subst. rewrite bstr_eqb_refl in E. discriminate.
    - destruct (bstr_eqb (g ++ s2) (f ++ s1)) eqn:E; [|exact T2]. apply bstr_eqb_eq in E. symmetry in E. destruct (Ap _ _ E).
  Qed.
  Lemma set_right e1 e2 e f x : together e1 e2 e -> together e1 (env_set e2 f x) (env_set e (f ++ s2) x).
  Proof using Ap.
    intros T g. destruct (T g) as [T1 T2]. unfold env_set. split.
    - destruct (bstr_eqb (g ++ s1) (f ++ s2)) eqn:E; [|exact T1]. apply bstr_eqb_eq in E. destruct (Ap _ _ E).
    - destruct (bstr_eqb g f) eqn:E.
      + apply bstr_eqb_eq in E. subst. rewrite bstr_eqb_refl. reflexivity.
      + destruct (bstr_eqb (g ++ s2) (f ++ s2)) eqn:E'; [|exact T2]. apply bstr_eqb_eq, app_inv_tail in E'. subst. rewrite bstr_eqb_refl in E. discriminate.
  Qed.
  Lemma step_left e1 e2 e x : together e1 e2 e ->
    snd (step (move s1 x) e) = snd (step x e1) /\ together (fst (step x e1)) e2 (fst (step (move s1 x) e)).
  Proof using Ap.
    intros T. destruct x as [f v|f v|f [v|]|f [v|]|f|f v]; cbn [move step fst snd]; try (rewrite (proj1 (T f))); try (split; [reflexivity|]); auto using set_left.
    destruct (e1 f) as [|u|u]; cbn [fst snd]; [auto using set_left| |]; destruct (bstr_eqb u v); cbn [fst snd]; auto using set_left.
  Qed.
  Lemma step_right e1 e2 e x : together e1 e2 e ->
    snd (step (move s2 x) e) = snd (step x e2) /\ together e1 (fst (step x e2)) (fst (step (move s2 x) e)).
  Proof using Ap.
    intros T. destruct x as [f v|f v|f [v|]|f [v|]|f|f v]; cbn [move step fst snd]; try (rewrite (proj2 (T f))); try (split; [reflexivity|]); auto using set_right.
    destruct (e2 f) as [|u|u]; cbn [fst snd]; [auto using set_right| |]; destruct (bstr_eqb u v); cbn [fst snd]; auto using set_right.
  Qed.
  Definition allowed (xs : list (option flag)) (e : fenv) : bool := forallb (fun b => b) (results xs e).
  Lemma allowed_cons x xs e : allowed (x :: xs) e = match x with None => allowed xs e | Some y => snd (step y e) && allowed xs (fst (step y e)) end.
  Proof using. unfold allowed. destruct x as [y|]; cbn [results]; [|reflexivity]. destruct (step y e) as [e' b]. reflexivity. Qed.
  Lemma mixed_allowed xs ys zs : mixed (map (option_map (move s1)) xs) (map (option_map (move s2)) ys) zs ->
    forall e1 e2 e, together e1 e2 e -> allowed zs e = allowed xs e1 && allowed ys e2.
  Proof using Ap.
    intros M. remember (map (option_map (move s1)) xs) as a eqn:Ea. remember (map (option_map (move s2)) ys) as b eqn:Eb. revert xs ys Ea Eb.
    induction M as [|x a b c M IH|x a b c M IH]; intros xs ys Ea Eb e1 e2 e T.
    - destruct xs, ys; try discriminate. reflexivity.
    - destruct xs as [|x0 xs]; [discriminate|]. cbn [map] in Ea. injection Ea as -> ->. rewrite !allowed_cons. destruct x0 as [y|]; cbn [option_map].
      + destruct (step_left e1 e2 e y T) as [-> T']. rewrite (IH xs ys eq_refl Eb _ _ _ T'), andb_assoc. reflexivity.
      + apply IH; auto.
    - destruct ys as [|y0 ys]; [discriminate|]. cbn [map] in Eb. injection Eb as -> ->. rewrite !allowed_cons. destruct y0 as [y|]; cbn [option_map].
      + destruct (step_right e1 e2 e y T) as [-> T']. rewrite (IH xs ys Ea eq_refl _ _ _ T').
        destruct (allowed xs e1); rewrite ?andb_true_l, ?andb_true_r, ?andb_false_r, ?andb_false_l; reflexivity.
      + apply IH; auto.
  Qed.
End Apart.
Lemma mixed_reads s1 s2 a a' xs b b' ys c zs : no_dot s1 -> no_dot s2 -> mixed a' b' c -> Forall2 (with_suffix s1) a a' -> Forall2 (with_suffix s2) b b' ->
  Forall2 reads a xs -> Forall2 reads b ys -> Forall2 reads c zs -> mixed (map (option_map (move s1)) xs) (map (option_map (move s2)) ys) zs.
Proof.
  intros D1 D2 M. revert a xs b ys zs. induction M as [|x a' b' c M IH|x a' b' c M IH]; intros a xs b ys zs A Bb X Y Z.
  - inversion A; subst. inversion Bb; subst. inversion X; subst. inversion Y; subst. inversion Z; subst. constructor.
  - inversion A as [|s ? a0 ? W A']; subst. inversion X as [|? x0 ? xs0 R X']; subst. inversion Z as [|? z0 ? zs0 Rz Z']; subst.
    rewrite (suffix_reads s1 s x x0 z0 D1 W R Rz). cbn [map]. constructor. exact (IH a0 xs0 b ys zs0 A' Bb X' Y Z').
  - inversion Bb as [|s ? b0 ? W B']; subst. inversion Y as [|? y0 ? ys0 R Y']; subst. inversion Z as [|? z0 ? zs0 Rz Z']; subst.
    rewrite (suffix_reads s2 s x y0 z0 D2 W R Rz). cbn [map]. constructor. exact (IH a xs b0 ys0 zs0 A B' X Y' Z').
Qed.
Lemma suffixes_apart (f g : bstr) : f ++ B "_1" <> g ++ B "_2".
Proof. intros E. apply (f_equal (@rev ascii)) in E. rewrite !rev_app_distr in E. discriminate E. Qed.
