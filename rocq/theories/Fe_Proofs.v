(** Proofs about flag elimination. *)
From Verif Require Import Base Flags_Model Flags_Spec Flags_Proofs BT_Model BT_Spec OLC_Model Harm_Model Harm_Spec Harm_Proofs Fe_Model Fe_Spec.
From Coq Require Import Lia.

(** * Languages of the filters *)
Definition mem (x : bstr) (l : list bstr) : bool := existsb (bstr_eqb x) l.
Lemma mem_In x l : mem x l = true <-> In x l.
Proof.
  unfold mem. rewrite existsb_exists. split.
  - intros (y & H & E). apply bstr_eqb_eq in E. subst; assumption.
  - intros H. exists x. split; [assumption|apply bstr_eqb_eq; reflexivity].
Qed.
Definition stepb (fail succeed : list bstr) (b : bool) (x : bstr) : bool :=
  if mem x fail then true else if mem x succeed then false else b.
Definition blk (fail succeed : list bstr) (r : bool) (pre : list bstr) : bool :=
  fold_left (stepb fail succeed) pre r.
Lemma blk_snoc fail succeed r pre x :
  blk fail succeed r (pre ++ [x]) = stepb fail succeed (blk fail succeed r pre) x.
Proof. unfold blk. rewrite fold_left_app. reflexivity. Qed.
Definition clean (succeed pre : list bstr) : Prop := forall x, In x pre -> ~ In x succeed.
Lemma clean_snoc succeed pre x : clean succeed (pre ++ [x]) <-> clean succeed pre /\ ~ In x succeed.
Proof.
  unfold clean. split.
  - intros H. split; [intros y Hy; apply H; apply in_or_app; auto|apply H; apply in_or_app; right; left; reflexivity].
  - intros [H1 H2] y Hy. apply in_app_or in Hy. destruct Hy as [Hy|[<-|[]]]; auto.
Qed.
Lemma blk_true fail succeed r pre : blk fail succeed r pre = true <->
  (exists a f b, pre = a ++ f :: b /\ In f fail /\ clean succeed b) \/ (r = true /\ clean succeed pre).
Proof.
  induction pre as [|x pre IH] using rev_ind.
  - cbn. split.
    + intros ->. right. split; [reflexivity|intros y []].
    + intros [(a & f & b & E & _)|[E _]]; [destruct a; discriminate|assumption].
  - rewrite blk_snoc. unfold stepb. destruct (mem x fail) eqn:Ef.
    + apply mem_In in Ef. split; [|reflexivity]. intros _. left. exists pre, x, []. split; [reflexivity|]. split; [assumption|intros y []].
    + assert (Hf : ~ In x fail) by (intros H; apply mem_In in H; congruence).
      assert (Hl : forall a f b, pre ++ [x] = a ++ f :: b -> In f fail ->
                 exists b', b = b' ++ [x] /\ pre = a ++ f :: b').
      { intros a f b E Hin. destruct b as [|b0 b _] using rev_ind.
        - apply app_inj_tail in E. destruct E as [_ ->]. contradiction.
        - rewrite app_comm_cons, app_assoc in E. apply app_inj_tail in E. destruct E as [-> ->].
          exists b. split; reflexivity. }
      destruct (mem x succeed) eqn:Es.
      * apply mem_In in Es. split; [discriminate|].
        intros [(a & f & b & E & Hin & C)|[_ C]].
        -- destruct (Hl _ _ _ E Hin) as (b' & -> & _). apply clean_snoc in C. tauto.
        -- apply clean_snoc in C. tauto.
      * assert (Hs : ~ In x succeed) by (intros H; apply mem_In in H; congruence).
        rewrite IH. split.
        -- intros [(a & f & b & -> & Hin & C)|[E C]].
           ++ left. exists a, f, (b ++ [x]). split; [rewrite <- app_assoc; reflexivity|].
              split; [assumption|]. apply clean_snoc. tauto.
           ++ right. split; [assumption|]. apply clean_snoc. tauto.
        -- intros [(a & f & b & E & Hin & C)|[E C]].
           ++ destruct (Hl _ _ _ E Hin) as (b' & -> & ->). left. exists a, f, b'.
              apply clean_snoc in C. tauto.
           ++ apply clean_snoc in C. tauto.
Qed.
Lemma contains_spec xs s : r_not (r_contains (r_syms xs)) s <-> clean xs s.
Proof.
  unfold r_not, r_contains, r_cat, r_syms, r_any, clean. split.
  - intros H x Hx Hin. apply H. apply in_split in Hx. destruct Hx as (u & v & ->).
    exists u, (x :: v). split; [reflexivity|]. split; [exact I|]. exists [x], v. split; [reflexivity|].
    split; [exists x; auto|exact I].
  - intros H (u & v & -> & _ & (m & n & -> & (x & Hx & ->) & _)).
    apply (H x); [apply in_or_app; right; left; reflexivity|assumption].
Qed.
Lemma self_any self v : r_cat (r_syms [self]) r_any v <-> exists post, v = self :: post.
Proof.
  unfold r_cat, r_syms, r_any. split.
  - intros (m & n & -> & (x & [<-|[]] & ->) & _). exists n; reflexivity.
  - intros (post & ->). exists [self], post. split; [reflexivity|]. split; [exists self; split; [left|]; reflexivity|exact I].
Qed.
Lemma new_filter_spec fail succeed self r s :
  new_filter fail succeed self r s <-> forall pre post, s = pre ++ self :: post -> blk fail succeed r pre = false.
Proof.
  assert (HN : forall b : bool, b = false <-> ~ b = true) by (intros []; split; congruence).
  unfold new_filter. destruct r.
  - unfold r_not at 1. split.
    + intros H pre post ->. apply HN. rewrite blk_true. intros D. apply H.
      destruct D as [(a & f & b & -> & Hin & C)|[_ C]].
      * exists (a ++ [f]), (b ++ self :: post). split; [rewrite <- !app_assoc; reflexivity|]. split.
        -- right. exists a, [f]. split; [reflexivity|]. split; [exact I|exists f; auto].
        -- exists b, (self :: post). split; [reflexivity|]. split; [apply contains_spec; assumption|].
           apply self_any. eauto.
      * exists [], (pre ++ self :: post). split; [reflexivity|]. split; [left; reflexivity|].
        exists pre, (self :: post). split; [reflexivity|]. split; [apply contains_spec; assumption|apply self_any; eauto].
    + intros H (u & v & -> & Hu & (b & v' & -> & Hb & Hv)). apply contains_spec in Hb.
      apply self_any in Hv. destruct Hv as (post & ->).
      specialize (H (u ++ b) post). rewrite <- !app_assoc in H. specialize (H eq_refl).
      apply HN in H. apply H. apply blk_true. destruct Hu as [->|(a & m & -> & _ & (f & Hf & ->))].
      * right. split; [reflexivity|assumption].
      * left. exists a, f, b. rewrite <- app_assoc. auto.
  - unfold r_not at 1. split.
    + intros H pre post ->. apply HN. rewrite blk_true. intros D. apply H.
      destruct D as [(a & f & b & -> & Hin & C)|[E _]]; [|discriminate].
      exists a, ([f] ++ b ++ self :: post). split; [rewrite <- !app_assoc; reflexivity|]. split; [exact I|].
      exists [f], (b ++ self :: post). split; [reflexivity|]. split; [exists f; auto|].
      exists b, (self :: post). split; [reflexivity|]. split; [apply contains_spec; assumption|apply self_any; eauto].
    + intros H (a & v & -> & _ & (m & v' & -> & (f & Hf & ->) & (b & v'' & -> & Hb & Hv))).
      apply contains_spec in Hb. apply self_any in Hv. destruct Hv as (post & ->).
      specialize (H (a ++ f :: b) post). rewrite <- !app_assoc in H. specialize (H eq_refl).
      apply HN in H. apply H. apply blk_true. left. exists a, f, b. auto.
Qed.

(** The filter as a whole. *)
Definition fail_of flags flag f := if filtered flag f then with_status f flags SFail else [].
Definition succ_of flags flag f := if filtered flag f then with_status f flags SSucceed else [].
Definition involved flags flag f := fail_of flags flag f ++ succ_of flags flag f <> [].
Definition lang_of (o : option flt) (s : list bstr) : Prop := match o with Some fl => f_lang fl s | None => True end.
Definition alpha_of (o : option flt) : list bstr := match o with Some fl => f_alpha fl | None => [] end.

Lemma filter_step_cases flags flag acc f :
  (fail_of flags flag f ++ succ_of flags flag f = [] /\ filter_step flags flag acc f = acc) \/
  (involved flags flag f /\ exists fl, filter_step flags flag acc f = Some fl /\
     (forall s, f_lang fl s <-> lang_of acc s /\ new_filter (fail_of flags flag f) (succ_of flags flag f) f (at_is f 1 "R") s) /\
     (forall x, In x (f_alpha fl) <-> In x (alpha_of acc) \/ x = f \/ In x (fail_of flags flag f) \/ In x (succ_of flags flag f))).
Proof.
  unfold filter_step, involved, fail_of, succ_of.
  destruct (_ ++ _) as [|y ys] eqn:E at 3; [left|right]; (split; [congruence|]).
  - rewrite E. reflexivity.
  - rewrite E.
    assert (HA : forall x, In x (y :: ys) <-> In x (if filtered flag f then with_status f flags SFail else [])
               \/ In x (if filtered flag f then with_status f flags SSucceed else [])).
    { intros x. rewrite <- E. apply in_app_iff. }
    destruct acc as [fl|]; eexists; (split; [reflexivity|]); cbn [f_lang f_alpha lang_of alpha_of]; split; intros x.
    + tauto.
    + rewrite in_app_iff. cbn [In]. pose proof (HA x) as H. cbn [In] in H. intuition congruence.
    + tauto.
    + pose proof (HA x) as H. cbn [In] in *. intuition congruence.
Qed.
Lemma get_flag_filter_gen flags flag fs : forall acc,
  let r := fold_left (filter_step flags flag) fs acc in
  (forall s, lang_of r s <-> lang_of acc s /\ forall f, In f fs -> involved flags flag f ->
     new_filter (fail_of flags flag f) (succ_of flags flag f) f (at_is f 1 "R") s) /\
  (forall x, In x (alpha_of r) <-> In x (alpha_of acc) \/ exists f, In f fs /\ involved flags flag f /\
     (x = f \/ In x (fail_of flags flag f) \/ In x (succ_of flags flag f))).
Proof.
  induction fs as [|f fs IH]; intros acc; cbn [fold_left].
  - split; intros x; cbn; [intuition|]. split; [tauto|]. intros [H|(f & [] & _)]; assumption.
  - destruct (IH (filter_step flags flag acc f)) as [IH1 IH2]. split; intros x.
    + rewrite IH1. destruct (filter_step_cases flags flag acc f) as [[E1 E2]|(Hi & fl & E & HL & _)].
      * rewrite E2. split.
        -- intros [H1 H2]. split; [assumption|]. intros g [<-|Hg]; [intros Hi; unfold involved in Hi; congruence|auto].
        -- intros [H1 H2]. split; [assumption|]. intros g Hg. apply H2. right; assumption.
      * rewrite E. cbn [lang_of]. rewrite HL. split.
        -- intros [[H1 H2] H3]. split; [assumption|]. intros g [<-|Hg] Hgi; auto.
        -- intros [H1 H2]. repeat split; [assumption|apply H2; [left; reflexivity|assumption]|].
           intros g Hg. apply H2. right; assumption.
    + rewrite IH2. destruct (filter_step_cases flags flag acc f) as [[E1 E2]|(Hi & fl & E & _ & HA)].
      * rewrite E2. split.
        -- intros [H|(g & Hg & H)]; [left; assumption|right; exists g; split; [right; assumption|assumption]].
        -- intros [H|(g & [<-|Hg] & H)]; [left; assumption|exfalso; apply (proj1 H E1)|right; exists g; auto].
      * rewrite E. cbn [alpha_of]. rewrite HA. split.
        -- intros [[H|H]|(g & Hg & H)]; [left; assumption|right; exists f; split; [left; reflexivity|auto]|
             right; exists g; split; [right; assumption|assumption]].
        -- intros [H|(g & [<-|Hg] & H)]; [left; left; assumption|left; right; tauto|right; exists g; auto].
Qed.
Lemma get_flag_filter_lang flags flag s :
  lang_of (get_flag_filter flags flag) s <-> forall f, In f flags -> involved flags flag f ->
    new_filter (fail_of flags flag f) (succ_of flags flag f) f (at_is f 1 "R") s.
Proof.
  unfold get_flag_filter. rewrite (proj1 (get_flag_filter_gen flags flag flags None)). cbn. tauto.
Qed.
Lemma get_flag_filter_alpha flags flag x :
  In x (alpha_of (get_flag_filter flags flag)) <-> exists f, In f flags /\ involved flags flag f /\
    (x = f \/ In x (fail_of flags flag f) \/ In x (succ_of flags flag f)).
Proof.
  unfold get_flag_filter. rewrite (proj2 (get_flag_filter_gen flags flag flags None)). cbn. tauto.
Qed.

(** * Flags and their written forms *)
Definition op_of (x : flag) : fdoperator :=
  match x with FP _ _ => Pop | FN _ _ => Nop | FR _ _ => Rop | FD _ _ => Dop | FC _ => Cop | FU _ _ => Uop end.
Definition val_of (x : flag) : bstr :=
  match x with FP _ v | FN _ v | FU _ v => v | FR _ (Some v) | FD _ (Some v) => v | _ => [] end.
Lemma denotes_parts s x : denotes s x ->
  operator_of s = Some (op_of x) /\ get_feature s = feature_of x /\
  (op_of x <> Cop -> get_value s = val_of x) /\
  at_is s 1 "R" = op_eqb (op_of x) Rop /\
  (at_is s 1 "U" || at_is s 1 "R" || at_is s 1 "D") = (op_eqb (op_of x) Uop || op_eqb (op_of x) Rop || op_eqb (op_of x) Dop).
Proof.
  intros H. destruct (denotes_code s x H) as (Hd & c & o & Hc & Ho & F).
  rewrite (get_feature_split s Hd), (get_value_split s Hd).
  destruct (split_feature_value s) as [f ov]. cbn [fst snd] in *.
  assert (HO : get_operator s = [c]).
  { unfold get_operator, substr. destruct s as [|a [|b s]]; cbn in Hc; try discriminate. inversion Hc; subst. reflexivity. }
  unfold operator_of. rewrite HO.
  assert (HA : forall d, at_is s 1 d = Ascii.eqb c d) by (intros d; unfold at_is; rewrite Hc; reflexivity).
  rewrite !HA.
  assert (HC : o = op_of x) by (destruct x; cbn in F |- *; tauto). subst o.
  split; [assumption|].
  split; [destruct x; cbn in F |- *; intuition congruence|]. 
  split.
  { intros Hn. destruct x; cbn in F, Hn |- *; try (destruct F as (_ & _ & ->)); try reflexivity; try tauto;
    match goal with |- context[match ?o with _ => _ end] => destruct o end; reflexivity. }
  clear -Ho. unfold char_to_operator in Ho.
  destruct (Ascii.eqb_spec c "P"); [subst; inversion Ho; split; reflexivity|].
  destruct (Ascii.eqb_spec c "N"); [subst; inversion Ho; split; reflexivity|].
  destruct (Ascii.eqb_spec c "R"); [subst; inversion Ho; split; reflexivity|].
  destruct (Ascii.eqb_spec c "D"); [subst; inversion Ho; split; reflexivity|].
  destruct (Ascii.eqb_spec c "C"); [subst; inversion Ho; split; reflexivity|].
  destruct (Ascii.eqb_spec c "U"); [subst; inversion Ho; split; reflexivity|discriminate].
Qed.
Definition st (c y : flag) : status := flag_build (op_of c) (feature_of c) (val_of c) (op_of y) (feature_of y) (val_of y).
Lemma flag_build_C o1 f1 v1 f2 v2 v2' : flag_build o1 f1 v1 Cop f2 v2 = flag_build o1 f1 v1 Cop f2 v2'.
Proof. unfold flag_build. destruct (negb _); [reflexivity|]. destruct o1; cbn [op_eqb andb]; reflexivity. Qed.
Lemma flag_build_C1 f1 v1 v1' o2 f2 v2 : flag_build Cop f1 v1 o2 f2 v2 = flag_build Cop f1 v1' o2 f2 v2.
Proof. unfold flag_build. destruct (negb _); [reflexivity|]. destruct o2; cbn [op_eqb andb]; reflexivity. Qed.
Lemma combination_st s x s' y : denotes s x -> denotes s' y -> is_valid_flag_combination s s' = st x y.
Proof.
  intros H H'. destruct (denotes_parts _ _ H) as (O & F & V & _). destruct (denotes_parts _ _ H') as (O' & F' & V' & _).
  unfold is_valid_flag_combination, st. rewrite O, O', F, F'.
  assert (D : forall x, {op_of x = Cop} + {op_of x <> Cop}) by (intros []; cbn; ((left; reflexivity) + (right; discriminate))).
  transitivity (flag_build (op_of x) (feature_of x) (val_of x) (op_of y) (feature_of y) (get_value s')).
  - destruct (D x) as [E|N]; [rewrite E; apply flag_build_C1|rewrite (V N); reflexivity].
  - destruct (D y) as [E|N]; [rewrite E; apply flag_build_C|rewrite (V' N); reflexivity].
Qed.
