(** C81, C82: elimination of flag diacritics. *)
From Verif Require Import Base Flags_Model Flags_Spec Flags_Proofs BT_Model BT_Spec OLC_Model Harm_Model Harm_Spec Harm_Proofs Fe_Model Fe_Spec Fe_Proofs Fe_Proofs2 Fe_Proofs3.
From Coq Require Import Lia.

(** C81.  After eliminate_flags(), a transducer contains exactly the label sequences, with
    their weights, that it contained before, whose flags are obeyed, without the flags, and its
    alphabet is the one before without the flags.  Missing: transducers with flags paired with
    something else, with N flags, with R and D flags with an empty value, with R flags of a feature on
    which nothing else in the alphabet operates, with reserved or pattern matching symbols, and,
    unless xerox_composition is set, with flags that have nothing to do with any other flag; for
    most of these the property is false, see below. *)
Theorem C81_eliminate_flags_partial : forall xerox r al t',
  flags_paired r -> known_symbols r al -> simple_flags None al ->
  (forall s, In s al -> ~ reserved_symbol s /\ ~ pmatch_symbol s) ->
  xerox = true \/ connected_flags None al ->
  eliminate_flags xerox (Tran r al) = Ok t' ->
  (forall l w, t_rel t' l w <-> exists m, r m w /\ obeyed None m /\ without None m l) /\
  (forall x, In x (t_alpha t') <-> In x al /\ ~ meant_symbol None x).
Proof.
  intros xerox r al t' H1 H2 H3 H4 H5 H6. apply (eliminate_rel None [] xerox r al); try assumption. reflexivity.
Qed.
Print Assumptions C81_eliminate_flags_partial.

(** Without xerox_composition eliminate_flags() throws no exception. *)
Theorem C81_total : forall t, exists t', eliminate_flags false t = Ok t'.
Proof.
  intros t. unfold eliminate_flags, eliminate. destruct (get_flag_filter _ _); cbn; eexists; reflexivity.
Qed.
Print Assumptions C81_total.

(** HfstBasicTransducer::flag_purge takes the flags out of the paths and of the alphabet. *)
Theorem C81_flag_purge : forall flag g,
  (forall l w, t_rel (tran_of (flag_purge flag g)) l w <-> t_rel (t_purge flag (tran_of g)) l w) /\
  t_alpha (tran_of (flag_purge flag g)) = t_alpha (t_purge flag (tran_of g)).
Proof.
  intros flag g. split; [|reflexivity].
  assert (Ee : forall p, purged flag p = true -> pair_eqb p (EPS, EPS) = false).
  { intros p H. destruct (pair_eqb p (EPS, EPS)) eqn:E; [|reflexivity]. unfold pair_eqb in E. apply andb_prop in E.
    destruct E as [E1 E2]. apply bstr_eqb_eq in E1, E2. cbn [fst snd] in *. unfold purged in H. rewrite E1, E2 in H.
    unfold purge_symbol in H. change (is_diacritic EPS) with false in H. discriminate. }
  set (f := fun p : pair => if purged flag p then (EPS, EPS) else p).
  assert (NE : forall m, no_eps (map f m) = filter (fun p => negb (purged flag p)) (no_eps m)).
  { induction m as [|p m IH]; [reflexivity|]. cbn [map no_eps filter]. unfold f at 1 2. destruct (purged flag p) eqn:P.
    - rewrite (Ee p P). change (pair_eqb (EPS, EPS) (EPS, EPS)) with true. cbn [negb filter]. rewrite P. cbn [negb]. apply IH.
    - destruct (pair_eqb p (EPS, EPS)); cbn [negb filter]; [|rewrite P; cbn [negb]; f_equal]; apply IH. }
  assert (NA : forall s, nth s (sts (flag_purge flag g)) [] = map (purge_arc flag) (nth s (sts g) [])).
  { intros s. cbn [flag_purge sts]. change (@nil arc) with (map (purge_arc flag) []) at 1. apply map_nth. }
  assert (LA : forall a, (isy (purge_arc flag a), osy (purge_arc flag a)) = f (isy a, osy a)).
  { intros a. unfold purge_arc, f. destruct (purged flag _); reflexivity. }
  assert (TA : forall a, tgt (purge_arc flag a) = tgt a /\ wt (purge_arc flag a) = wt a).
  { intros a. unfold purge_arc. destruct (purged flag _); split; reflexivity. }
  assert (R1 : forall s m v t, run g s m v t -> run (flag_purge flag g) s (map f m) v t).
  { induction 1 as [|s a m v t Hin HR IH]; [constructor|]. cbn [map]. rewrite <- (LA a), <- (proj2 (TA a)).
    constructor; [rewrite NA; apply in_map; assumption|]. rewrite (proj1 (TA a)). assumption. }
  assert (R2 : forall s m v t, run (flag_purge flag g) s m v t -> exists m', m = map f m' /\ run g s m' v t).
  { induction 1 as [|s a m v t Hin HR (m' & -> & IH)]; [exists []; split; [reflexivity|constructor]|].
    rewrite NA in Hin. apply in_map_iff in Hin. destruct Hin as (b & <- & Hb). exists ((isy b, osy b) :: m').
    split; [cbn [map]; rewrite LA; reflexivity|]. rewrite (proj2 (TA b)). rewrite (proj1 (TA b)) in IH. constructor; assumption. }
  intros l w. cbn [tran_of t_purge t_rel]. split.
  - intros (m & (t & v & fw & HR & HF & ->) & ->). destruct (R2 _ _ _ _ HR) as (m' & -> & HR').
    exists (no_eps m'). split; [exists m'; split; [exists t, v, fw; auto|reflexivity]|]. apply NE.
  - intros (k & (m & (t & v & fw & HR & HF & ->) & ->) & ->). exists (map f m). split; [|symmetry; apply NE].
    exists t, v, fw. split; [apply R1; assumption|auto].
Qed.
Print Assumptions C81_flag_purge.

(** A transducer given by a list of label sequences of weight zero. *)
Definition paths (ls : list (list pair)) (l : list pair) (w : Z) : Prop := In l ls /\ w = 0%Z.
Definition same (x : string) : pair := (B x, B x).
Definition base_alpha : list bstr := [EPS; UNK; IDN; B "a"; B "b"].

Lemma paths_paired ls : (forall p, In p (concat ls) -> fst p = snd p) -> flags_paired (paths ls).
Proof. intros H l w p [Hl _] Hp _. apply H. apply in_concat. exists l. auto. Qed.
Lemma paths_known ls al : (forall p, In p (concat ls) -> In (fst p) al /\ In (snd p) al) -> known_symbols (paths ls) al.
Proof. intros H l w p [Hl _] Hp. apply H. apply in_concat. exists l. auto. Qed.
Ltac known_tac := apply paths_known; intros p Hp; cbn in Hp; decompose [or] Hp; subst; try contradiction; split; cbn; tauto.
Ltac paired_tac := apply paths_paired; intros p Hp; cbn in Hp; decompose [or] Hp; subst; try contradiction; reflexivity.

(** Which flag a given symbol denotes, computed. *)
Definition flag_of (s : bstr) : option flag :=
  if is_diacritic s then
    match operator_of s, has_value s with
    | Some Pop, _ => Some (FP (get_feature s) (get_value s))
    | Some Nop, _ => Some (FN (get_feature s) (get_value s))
    | Some Uop, _ => Some (FU (get_feature s) (get_value s))
    | Some Cop, _ => Some (FC (get_feature s))
    | Some Rop, true => Some (FR (get_feature s) (Some (get_value s)))
    | Some Rop, false => Some (FR (get_feature s) None)
    | Some Dop, true => Some (FD (get_feature s) (Some (get_value s)))
    | Some Dop, false => Some (FD (get_feature s) None)
    | None, _ => None
    end
  else None.
Lemma flag_of_denotes s x : denotes s x -> flag_of s = Some x.
Proof.
  intros H. destruct (denotes_parts _ _ H) as (O & F & V & _). unfold flag_of.
  assert (D : is_diacritic s = true) by (apply is_diacritic_denotes; eauto). rewrite D, O, F.
  destruct (denotes_code _ _ H) as (_ & c & o & Hc & Ho & FC). rewrite (has_value_split _ D).
  destruct (split_feature_value s) as [fe ov]. cbn [fst snd] in FC |- *.
  destruct x as [g v|g v|g v|g v|g|g v]; cbn [op_of feature_of] in *; cbn [flag_code] in FC; try (rewrite V by discriminate); cbn [val_of]; try reflexivity;
    destruct FC as (_ & _ & ->); destruct v as [v|]; reflexivity.
Qed.
Lemma flag_of_reads s : reads s (flag_of s).
Proof.
  destruct (is_diacritic s) eqn:D.
  - apply is_diacritic_denotes in D. destruct D as (x & Hx). rewrite (flag_of_denotes _ _ Hx). exact Hx.
  - unfold flag_of. rewrite D. intros y Hy. assert (is_diacritic s = true) by (apply is_diacritic_denotes; eauto). congruence.
Qed.
Lemma reads_flag_of ss : Forall2 reads ss (map flag_of ss).
Proof. induction ss; constructor; [apply flag_of_reads|assumption]. Qed.
Lemma obeyed_compute which m : obeyed which m <-> accepted (map (only which) (map flag_of (map fst m))) = true.
Proof.
  split; [|intros H; eexists; split; [apply reads_flag_of|assumption]].
  intros (xs & HR & HA). assert (E : xs = map flag_of (map fst m)); [|subst; assumption].
  clear HA. remember (map fst m) as ss eqn:Em. clear Em. induction HR as [|s o ss xs Ho HR IH]; [reflexivity|]. cbn [map]. f_equal; [|assumption].
  destruct o as [x|]; cbn [reads] in Ho; [symmetry; apply flag_of_denotes; assumption|].
  pose proof (flag_of_reads s) as Hr. destruct (flag_of s) as [y|]; [|reflexivity]. exfalso. eapply Ho, Hr.
Qed.
Ltac flags_tac := intros s x Hs Hx; apply flag_of_denotes in Hx; cbn in Hs; decompose [or] Hs; subst; try contradiction;
  vm_compute in Hx; try discriminate; injection Hx as <-.
Lemma denotes_flag_of s x : flag_of s = Some x -> denotes s x.
Proof. intros H. pose proof (flag_of_reads s) as R. rewrite H in R. exact R. Qed.

(** The conditions of the theorem hold of: @U.F.x@ a @U.F.y@, @P.F.x@ b @R.F.x@, @P.F.x@ a @C.F@ b @D.F.x@
    and b @R.F.x@; the second and the third remain. *)
Definition ex_alpha : list bstr := base_alpha ++ [B "@U.F.x@"; B "@U.F.y@"; B "@P.F.x@"; B "@R.F.x@"; B "@C.F@"; B "@D.F.x@"].
Definition ex_paths : list (list pair) :=
  [[same "@U.F.x@"; same "a"; same "@U.F.y@"]; [same "@P.F.x@"; same "b"; same "@R.F.x@"];
   [same "@P.F.x@"; same "a"; same "@C.F@"; same "b"; same "@D.F.x@"]; [same "b"; same "@R.F.x@"]].
Lemma reserved_check s al : forallb (fun s => negb (is_pmatch_special s) && (is_reserved s || negb (is_special_sym s))) al = true ->
  In s al -> ~ reserved_symbol s /\ ~ pmatch_symbol s.
Proof.
  intros G. rewrite forallb_forall in G. intros Hs. specialize (G s Hs). apply andb_prop in G. destruct G as [G1 G2].
  split.
  - intros [(m & ->) (N1 & N2 & N3)]. apply orb_prop in G2. destruct G2 as [G2|G2].
    + unfold is_reserved in G2. rewrite !orb_true_iff, !bstr_eqb_eq in G2. unfold EPS, UNK, IDN in G2. tauto.
    + unfold is_special_sym in G2. change (B "@_") with ["@"; "_"]%char in G2. change (B "_@") with ["_"; "@"]%char in G2.
      cbn [app length] in G2. rewrite app_length in G2. cbn [length] in G2.
      replace (S (S (length m + 2)) <? 4) with false in G2 by (symmetry; apply Nat.ltb_ge; lia).
      unfold at_is in G2. replace (S (S (length m + 2)) - 1) with (S (S (length m + 1))) in G2 by lia.
      replace (S (S (length m + 2)) - 2) with (S (S (length m))) in G2 by lia. cbn [nth_error] in G2.
      rewrite !nth_error_app2 in G2 by lia. rewrite Nat.sub_diag in G2. replace (length m + 1 - length m) with 1 in G2 by lia.
      vm_compute in G2. discriminate.
  - intros H. apply pmatch_special_spec in H. rewrite H in G1. discriminate.
Qed.
Lemma ex_reserved : forall s, In s ex_alpha -> ~ reserved_symbol s /\ ~ pmatch_symbol s.
Proof. intros s. apply reserved_check. vm_compute. reflexivity. Qed.
Example C81_witness :
  flags_paired (paths ex_paths) /\ known_symbols (paths ex_paths) ex_alpha /\ simple_flags None ex_alpha /\
  (forall s, In s ex_alpha -> ~ reserved_symbol s /\ ~ pmatch_symbol s) /\ connected_flags None ex_alpha /\
  (forall t', eliminate_flags false (Tran (paths ex_paths) ex_alpha) = Ok t' ->
     t_rel t' [same "b"] 0 /\ t_rel t' [same "a"; same "b"] 0 /\ ~ t_rel t' [same "a"] 0 /\ ~ In (B "@U.F.x@") (t_alpha t')).
Proof.
  assert (H1 : flags_paired (paths ex_paths)) by paired_tac.
  assert (H2 : known_symbols (paths ex_paths) ex_alpha) by known_tac.
  assert (H3 : simple_flags None ex_alpha).
  { split; flags_tac; try (intros _; split; [intros []|cbn; (exact I || discriminate)]); intros _ []; exists (B "@P.F.x@"), (FP (B "F") (B "x"));
    (split; [cbn; tauto|]); (split; [apply denotes_flag_of; vm_compute; reflexivity|]); split; [reflexivity|exact I]. }
  assert (H4 := ex_reserved).
  assert (H5 : connected_flags None ex_alpha).
  { flags_tac.
    all: first [exists (B "@U.F.y@"), (FU (B "F") (B "y")); split; [cbn; tauto|]; split; [apply denotes_flag_of; vm_compute; reflexivity|];
      left; split; [|reflexivity]; split; [reflexivity|]; (exact I || discriminate)
     |exists (B "@U.F.x@"), (FU (B "F") (B "x")); split; [cbn; tauto|]; split; [apply denotes_flag_of; vm_compute; reflexivity|];
      left; split; [|reflexivity]; split; [reflexivity|]; (exact I || reflexivity || discriminate)
     |exists (B "@R.F.x@"), (FR (B "F") (Some (B "x"))); split; [cbn; tauto|]; split; [apply denotes_flag_of; vm_compute; reflexivity|];
      right; split; [|reflexivity]; split; [reflexivity|]; exact I]. }
  do 5 (split; [assumption|]). intros t' E.
  destruct (C81_eliminate_flags_partial false _ _ t' H1 H2 H3 H4 (or_intror H5) E) as [R A].
  assert (MF : forall x y, flag_of (B x) = Some y -> meant_symbol None (B x)) by (intros x y Hy; exists y; split; [apply denotes_flag_of; assumption|reflexivity]).
  assert (MN : forall x, flag_of (B x) = None -> ~ meant_symbol None (B x)) by (intros x Hx (y & Hy & _); apply flag_of_denotes in Hy; congruence).
  split; [|split; [|split]].
  - apply R. exists [same "@P.F.x@"; same "b"; same "@R.F.x@"]. split; [split; [cbn; tauto|reflexivity]|].
    split; [apply obeyed_compute; vm_compute; reflexivity|].
    apply wo_flag; [eapply MF; vm_compute; reflexivity|]. apply wo_keep; [apply MN; vm_compute; reflexivity|].
    apply wo_flag; [eapply MF; vm_compute; reflexivity|]. constructor.
  - apply R. exists [same "@P.F.x@"; same "a"; same "@C.F@"; same "b"; same "@D.F.x@"]. split; [split; [cbn; tauto|reflexivity]|].
    split; [apply obeyed_compute; vm_compute; reflexivity|].
    apply wo_flag; [eapply MF; vm_compute; reflexivity|]. apply wo_keep; [apply MN; vm_compute; reflexivity|].
    apply wo_flag; [eapply MF; vm_compute; reflexivity|]. apply wo_keep; [apply MN; vm_compute; reflexivity|].
    apply wo_flag; [eapply MF; vm_compute; reflexivity|]. constructor.
  - intros HR. apply R in HR. destruct HR as (m & [Hm _] & Ho & Hw). apply obeyed_compute in Ho.
    cbn in Hm. decompose [or] Hm; subst; try contradiction; try (vm_compute in Ho; discriminate).
    + apply (without_filter None [] eq_refl) in Hw; [vm_compute in Hw; discriminate|].
      intros q Hq Hx. eapply H1; [|exact Hq|exact Hx]. split; [cbn; tauto|reflexivity].
    + apply (without_filter None [] eq_refl) in Hw; [vm_compute in Hw; discriminate|].
      intros q Hq Hx. eapply H1; [|exact Hq|exact Hx]. split; [cbn; tauto|reflexivity].
  - intros HI. apply A in HI. destruct HI as [_ HN]. apply HN. eapply MF. vm_compute. reflexivity.
Qed.

(** What a path of the result says about the filter. *)
Lemma eliminate_sound xerox flag t t' l w : eliminate xerox flag t = Ok t' -> t_rel t' l w ->
  exists m, t_rel t m w /\
    (forall f pre post, In f (get_flags (t_alpha t)) -> side fst m = pre ++ f :: post ->
       involved (get_flags (t_alpha t)) flag f ->
       blk (fail_of (get_flags (t_alpha t)) flag f) (succ_of (get_flags (t_alpha t)) flag f) (at_is f 1 "R") pre = false) /\
    (forall f x, get_flag_filter (get_flags (t_alpha t)) flag = Some f -> In x (side fst m) -> unmatched xerox x = true -> In x (f_alpha f)).
Proof.
  unfold eliminate. destruct (get_flag_filter (get_flags (t_alpha t)) flag) as [f|] eqn:E.
  - unfold compose_both. destruct (xerox && _); [discriminate|]. cbn. intros H. inversion H; subst; clear H. cbn.
    intros (m & (Hm & [HL HU] & _) & _). exists m. split; [assumption|]. split.
    + intros g pre post Hg Hs Hi. assert (HL' : lang_of (get_flag_filter (get_flags (t_alpha t)) flag) (side fst m)) by (rewrite E; exact HL).
      rewrite get_flag_filter_lang in HL'. specialize (HL' g Hg Hi). rewrite new_filter_spec in HL'. eapply HL'. exact Hs.
    + intros g x Eg Hx U. inversion Eg; subst. apply HU; assumption.
  - intros H. inversion H; subst; clear H. cbn. intros (m & Hm & _). exists m. split; [assumption|]. split; [|discriminate].
    intros g pre post Hg Hs Hi.
    assert (HL' : lang_of (get_flag_filter (get_flags (t_alpha t)) flag) (side fst m)) by (rewrite E; exact I).
    rewrite get_flag_filter_lang in HL'. specialize (HL' g Hg Hi). rewrite new_filter_spec in HL'. eapply HL'. exact Hs.
Qed.

(** The property fails for an R flag on whose feature no other flag of the alphabet operates: no
    filter is made for it, so that its paths are all kept, although the flag is never obeyed. *)
Theorem C81_lone_requirement_refuted : exists r al t' l w,
  flags_paired r /\ known_symbols r al /\ eliminate_flags false (Tran r al) = Ok t' /\
  t_rel t' l w /\ (forall m v, r m v -> ~ obeyed None m).
Proof.
  exists (paths [[same "a"; same "@R.F.x@"]]), (base_alpha ++ [B "@R.F.x@"]). eexists. exists [same "a"], 0%Z.
  split; [paired_tac|]. split; [known_tac|]. split; [reflexivity|]. split.
  - eexists. split; [split; [left; reflexivity|reflexivity]|]. vm_compute. reflexivity.
  - intros m v [[<-|[]] _] H. apply obeyed_compute in H. vm_compute in H. discriminate.
Qed.
Print Assumptions C81_lone_requirement_refuted.

(** It fails for N flags: the path @P.F.x@ @N.F.y@ a @U.F.v@ obeys its flags, but is filtered
    out (as is @N.F.y@ a @D.F.v@), since an N flag that forbids another value is not seen to
    replace the value set before it. *)
Theorem C81_negative_refuted : exists r al m,
  flags_paired r /\ known_symbols r al /\ r m 0%Z /\ obeyed None m /\
  forall t', eliminate_flags false (Tran r al) = Ok t' -> forall l w, ~ t_rel t' l w.
Proof.
  exists (paths [[same "@P.F.x@"; same "@N.F.y@"; same "a"; same "@U.F.v@"]]), (base_alpha ++ [B "@P.F.x@"; B "@N.F.y@"; B "@U.F.v@"]).
  eexists. split; [paired_tac|]. split; [known_tac|]. split; [split; [left; reflexivity|reflexivity]|].
  split; [apply obeyed_compute; vm_compute; reflexivity|].
  intros t' E l w H. destruct (eliminate_sound _ _ _ _ _ _ E H) as (m & [[<-|[]] _] & HB & _).
  specialize (HB (B "@U.F.v@") [B "@P.F.x@"; B "@N.F.y@"; B "a"] []). cbn [t_alpha] in HB.
  assert (F : blk (fail_of (get_flags (base_alpha ++ [B "@P.F.x@"; B "@N.F.y@"; B "@U.F.v@"])) [] (B "@U.F.v@"))
             (succ_of (get_flags (base_alpha ++ [B "@P.F.x@"; B "@N.F.y@"; B "@U.F.v@"])) [] (B "@U.F.v@"))
             (at_is (B "@U.F.v@") 1 "R") [B "@P.F.x@"; B "@N.F.y@"; B "a"] = true) by (vm_compute; reflexivity).
  rewrite HB in F; [discriminate|vm_compute; tauto|vm_compute; reflexivity|]. intros HI. vm_compute in HI. discriminate.
Qed.
Print Assumptions C81_negative_refuted.
Theorem C81_negative_disallow_refuted : exists r al m,
  flags_paired r /\ known_symbols r al /\ r m 0%Z /\ obeyed None m /\
  forall t', eliminate_flags false (Tran r al) = Ok t' -> forall l w, ~ t_rel t' l w.
Proof.
  exists (paths [[same "@N.F.y@"; same "a"; same "@D.F.v@"]]), (base_alpha ++ [B "@N.F.y@"; B "@D.F.v@"]).
  eexists. split; [paired_tac|]. split; [known_tac|]. split; [split; [left; reflexivity|reflexivity]|].
  split; [apply obeyed_compute; vm_compute; reflexivity|].
  intros t' E l w H. destruct (eliminate_sound _ _ _ _ _ _ E H) as (m & [[<-|[]] _] & HB & _).
  specialize (HB (B "@D.F.v@") [B "@N.F.y@"; B "a"] []). cbn [t_alpha] in HB.
  assert (F : blk (fail_of (get_flags (base_alpha ++ [B "@N.F.y@"; B "@D.F.v@"])) [] (B "@D.F.v@"))
             (succ_of (get_flags (base_alpha ++ [B "@N.F.y@"; B "@D.F.v@"])) [] (B "@D.F.v@"))
             (at_is (B "@D.F.v@") 1 "R") [B "@N.F.y@"; B "a"] = true) by (vm_compute; reflexivity).
  rewrite HB in F; [discriminate|vm_compute; tauto|vm_compute; reflexivity|]. intros HI. vm_compute in HI. discriminate.
Qed.
Print Assumptions C81_negative_disallow_refuted.

(** Without xerox_composition, which is the default, it fails for a flag that has nothing to do
    with another one as soon as there is a filter: with @U.F.x@ a and @P.G.y@ b @R.G.y@ the first
    path is lost, since the symbols outside the filter that its question marks match do not
    include flags. *)
Definition unconnected_alpha : list bstr := base_alpha ++ [B "@U.F.x@"; B "@P.G.y@"; B "@R.G.y@"].
Definition unconnected_paths : list (list pair) :=
  [[same "@U.F.x@"; same "a"]; [same "@P.G.y@"; same "b"; same "@R.G.y@"]].
Theorem C81_unconnected_refuted : exists r al m,
  flags_paired r /\ known_symbols r al /\ simple_flags None al /\ r m 0%Z /\ obeyed None m /\ without None m [same "a"] /\
  forall t', eliminate_flags false (Tran r al) = Ok t' -> forall w, ~ t_rel t' [same "a"] w.
Proof.
  exists (paths unconnected_paths), unconnected_alpha, [same "@U.F.x@"; same "a"].
  split; [paired_tac|]. split; [known_tac|]. split.
  { split; flags_tac; try (intros _; split; [intros []|cbn; (exact I || discriminate)]); intros _ []; exists (B "@P.G.y@"), (FP (B "G") (B "y"));
    (split; [cbn; tauto|]); (split; [apply denotes_flag_of; vm_compute; reflexivity|]); split; [reflexivity|exact I]. }
  split; [split; [left; reflexivity|reflexivity]|].
  split; [apply obeyed_compute; vm_compute; reflexivity|].
  split; [apply (without_filter None [] eq_refl); [intros p Hp _; cbn in Hp; decompose [or] Hp; subst; try contradiction; reflexivity|vm_compute; reflexivity]|].
  intros t' E w H.
  assert (G : exists m, paths unconnected_paths m w /\ [same "a"] = filter (fun p => negb (purged [] p)) m /\
     forall f x, get_flag_filter (get_flags unconnected_alpha) [] = Some f -> In x (side fst m) -> unmatched false x = true -> In x (f_alpha f)).
  { unfold eliminate_flags, eliminate in E. cbn [t_alpha] in E.
    destruct (get_flag_filter (get_flags unconnected_alpha) []) as [f|] eqn:EF; [|vm_compute in EF; discriminate].
    cbn in E. inversion E; subst; clear E. cbn in H. destruct H as (m & (Hm & [_ HU] & _) & Hf). exists m.
    split; [assumption|]. split; [assumption|]. intros g x Eg. inversion Eg; subst. apply HU. }
  destruct G as (m & [Hm _] & Hf & HU). destruct Hm as [<-|[<-|[]]]; [|vm_compute in Hf; discriminate].
  destruct (get_flag_filter (get_flags unconnected_alpha) []) as [f|] eqn:EF; [|vm_compute in EF; discriminate].
  specialize (HU f (B "@U.F.x@") eq_refl).
  assert (HI : In (B "@U.F.x@") (f_alpha f)) by (apply HU; [vm_compute; tauto|vm_compute; reflexivity]).
  replace (f_alpha f) with (alpha_of (get_flag_filter (get_flags unconnected_alpha) [])) in HI by (rewrite EF; reflexivity).
  vm_compute in HI. decompose [or] HI; try discriminate; contradiction.
Qed.
Print Assumptions C81_unconnected_refuted.

(** C82.  After eliminate_flag(f), a transducer contains exactly the label sequences that it
    contained before along which the flags of feature f are obeyed, without these flags; the
    flags of other features are left.  Missing: as in C81; in particular, unless xerox_composition
    is set, transducers with flags of other features, for which the property is false. *)
Theorem C82_eliminate_flag_partial : forall xerox f r al t',
  f <> [] -> flags_paired r -> known_symbols r al -> simple_flags (Some f) al ->
  (forall s, In s al -> ~ reserved_symbol s /\ ~ pmatch_symbol s) ->
  xerox = true \/ connected_flags (Some f) al ->
  eliminate_flag xerox f (Tran r al) = Ok t' ->
  (forall l w, t_rel t' l w <-> exists m, r m w /\ obeyed (Some f) m /\ without (Some f) m l) /\
  (forall x, In x (t_alpha t') <-> In x al /\ ~ meant_symbol (Some f) x).
Proof.
  intros xerox f r al t' H0 H1 H2 H3 H4 H5 H6. unfold eliminate_flag in H6. destruct (existsb _ _); [|discriminate].
  apply (eliminate_rel (Some f) f xerox r al); try assumption. split; [reflexivity|assumption].
Qed.
Print Assumptions C82_eliminate_flag_partial.

(** Hence it does not change what the transducer does when the flags are obeyed. *)
Theorem C82_same_meaning_partial : forall xerox f r al t',
  f <> [] -> flags_paired r -> known_symbols r al -> simple_flags (Some f) al ->
  (forall s, In s al -> ~ reserved_symbol s /\ ~ pmatch_symbol s) ->
  xerox = true \/ connected_flags (Some f) al ->
  eliminate_flag xerox f (Tran r al) = Ok t' ->
  forall k w, (exists m, t_rel t' m w /\ obeyed None m /\ without None m k) <->
              (exists m, r m w /\ obeyed None m /\ without None m k).
Proof.
  intros xerox f r al t' H0 H1 H2 H3 H4 H5 H6 k w.
  destruct (C82_eliminate_flag_partial xerox f r al t' H0 H1 H2 H3 H4 H5 H6) as [R _]. split.
  - intros (l & Hl & Ho & Hw). apply R in Hl. destruct Hl as (m & Hm & Hf & HW). exists m. split; [assumption|].
    split; [apply (obeyed_split f m l HW); auto|]. apply (without_without f m l k HW). assumption.
  - intros (m & Hm & Ho & Hw). destruct (without_total (Some f) m) as (l & HW). exists l.
    apply (obeyed_split f m l HW) in Ho. destruct Ho as [Hf Ho]. split; [apply R; exists m; auto|]. split; [assumption|].
    apply (without_without f m l k HW). assumption.
Qed.
Print Assumptions C82_same_meaning_partial.

(** An exception is thrown exactly if no flag of the alphabet has the feature. *)
Theorem C82_feature_missing : forall f t, eliminate_flag false f t = Throw <->
  ~ exists s x, In s (t_alpha t) /\ denotes s x /\ feature_of x = f.
Proof.
  intros f t. unfold eliminate_flag. destruct (existsb _ _) eqn:E.
  - split.
    + unfold eliminate. destruct (get_flag_filter _ _); discriminate.
    + intros H. exfalso. apply H. apply existsb_exists in E. destruct E as (s & Hs & E). apply filter_In in Hs. destruct Hs as [Hs D].
      apply is_diacritic_denotes in D. destruct D as (x & Hx). exists s, x. split; [assumption|]. split; [assumption|].
      apply bstr_eqb_eq in E. destruct (denotes_parts _ _ Hx) as (_ & F & _). congruence.
  - split; [|reflexivity]. intros _ (s & x & Hs & Hx & F).
    assert (E' : existsb (fun g => bstr_eqb (get_feature g) f) (get_flags (t_alpha t)) = true); [|congruence].
    apply existsb_exists. exists s. split; [apply filter_In; split; [assumption|apply is_diacritic_denotes; eauto]|].
    destruct (denotes_parts _ _ Hx) as (_ & F' & _). apply bstr_eqb_eq. congruence.
Qed.
Print Assumptions C82_feature_missing.

(** Without xerox_composition, flags of other features make paths disappear: eliminate_flag(F)
    on @P.F.x@ b @R.F.x@ and @P.G.y@ a loses the second path. *)
Definition other_alpha : list bstr := base_alpha ++ [B "@P.F.x@"; B "@R.F.x@"; B "@P.G.y@"].
Definition other_paths : list (list pair) :=
  [[same "@P.G.y@"; same "a"]; [same "@P.F.x@"; same "b"; same "@R.F.x@"]].
Lemma other_simple : simple_flags (Some (B "F")) other_alpha.
Proof.
  split; flags_tac; try (intros _; split; [intros []|cbn; (exact I || discriminate)]); try (intros _ []); exists (B "@P.F.x@"), (FP (B "F") (B "x"));
    (split; [cbn; tauto|]); (split; [apply denotes_flag_of; vm_compute; reflexivity|]); split; [reflexivity|exact I].
Qed.
Theorem C82_other_features_refuted : exists f r al m,
  f <> [] /\ flags_paired r /\ known_symbols r al /\ simple_flags (Some f) al /\ r m 0%Z /\ obeyed None m /\ without (Some f) m m /\
  (exists t', eliminate_flag false f (Tran r al) = Ok t') /\
  forall t', eliminate_flag false f (Tran r al) = Ok t' -> forall w, ~ t_rel t' m w.
Proof.
  exists (B "F"), (paths other_paths), other_alpha, [same "@P.G.y@"; same "a"].
  split; [discriminate|]. split; [paired_tac|]. split; [known_tac|]. split; [apply other_simple|].
  split; [split; [left; reflexivity|reflexivity]|].
  split; [apply obeyed_compute; vm_compute; reflexivity|].
  split; [apply (without_filter (Some (B "F")) (B "F")); [split; [reflexivity|discriminate]|intros p Hp _; cbn in Hp; decompose [or] Hp; subst; try contradiction; reflexivity|vm_compute; reflexivity]|].
  assert (EX : existsb (fun g => bstr_eqb (get_feature g) (B "F")) (get_flags other_alpha) = true) by (vm_compute; reflexivity).
  split.
  { unfold eliminate_flag. cbn [t_alpha]. rewrite EX. unfold eliminate. destruct (get_flag_filter _ _); cbn; eexists; reflexivity. }
  intros t' E w H. unfold eliminate_flag in E. cbn [t_alpha] in E. rewrite EX in E. clear EX.
  assert (G : exists m, paths other_paths m w /\ [same "@P.G.y@"; same "a"] = filter (fun p => negb (purged (B "F") p)) m /\
     forall f x, get_flag_filter (get_flags other_alpha) (B "F") = Some f -> In x (side fst m) -> unmatched false x = true -> In x (f_alpha f)).
  { unfold eliminate in E. cbn [t_alpha] in E.
    destruct (get_flag_filter (get_flags other_alpha) (B "F")) as [f|] eqn:EF; [|vm_compute in EF; discriminate].
    cbn in E. inversion E; subst; clear E. cbn in H. destruct H as (m & (Hm & [_ HU] & _) & Hf). exists m.
    split; [assumption|]. split; [assumption|]. intros g x Eg. inversion Eg; subst. apply HU. }
  destruct G as (m & [Hm _] & Hf & HU). destruct Hm as [<-|[<-|[]]]; [|vm_compute in Hf; discriminate].
  destruct (get_flag_filter (get_flags other_alpha) (B "F")) as [f|] eqn:EF; [|vm_compute in EF; discriminate].
  specialize (HU f (B "@P.G.y@") eq_refl).
  assert (HI : In (B "@P.G.y@") (f_alpha f)) by (apply HU; [vm_compute; tauto|vm_compute; reflexivity]).
  replace (f_alpha f) with (alpha_of (get_flag_filter (get_flags other_alpha) (B "F"))) in HI by (rewrite EF; reflexivity).
  vm_compute in HI. decompose [or] HI; try discriminate; contradiction.
Qed.
Print Assumptions C82_other_features_refuted.

(** With xerox_composition, the same transducer meets the conditions of the theorems. *)
Example C82_witness :
  flags_paired (paths other_paths) /\ known_symbols (paths other_paths) other_alpha /\ simple_flags (Some (B "F")) other_alpha /\
  (forall s, In s other_alpha -> ~ reserved_symbol s /\ ~ pmatch_symbol s) /\
  exists t', eliminate_flag true (B "F") (Tran (paths other_paths) other_alpha) = Ok t' /\
    t_rel t' [same "@P.G.y@"; same "a"] 0 /\ t_rel t' [same "b"] 0.
Proof.
  assert (H1 : flags_paired (paths other_paths)) by paired_tac.
  assert (H2 : known_symbols (paths other_paths) other_alpha) by known_tac.
  assert (H3 := other_simple).
  assert (H4 : forall s, In s other_alpha -> ~ reserved_symbol s /\ ~ pmatch_symbol s).
  { intros s Hs. apply reserved_check with other_alpha; [vm_compute; reflexivity|assumption]. }
  do 4 (split; [assumption|]).
  destruct (eliminate_flag true (B "F") (Tran (paths other_paths) other_alpha)) as [t'| | |] eqn:E.
  - exists t'. split; [reflexivity|].
    assert (HF : B "F" <> []) by discriminate.
    destruct (C82_eliminate_flag_partial true (B "F") _ _ t' HF H1 H2 H3 H4 (or_introl eq_refl) E) as [R _].
    split; apply R.
    + exists [same "@P.G.y@"; same "a"]. split; [split; [left; reflexivity|reflexivity]|]. split; [apply obeyed_compute; vm_compute; reflexivity|].
      apply (without_filter (Some (B "F")) (B "F")); [split; [reflexivity|discriminate]|intros p Hp _; cbn in Hp; decompose [or] Hp; subst; try contradiction; reflexivity|vm_compute; reflexivity].
    + exists [same "@P.F.x@"; same "b"; same "@R.F.x@"]. split; [split; [right; left; reflexivity|reflexivity]|]. split; [apply obeyed_compute; vm_compute; reflexivity|].
      apply (without_filter (Some (B "F")) (B "F")); [split; [reflexivity|discriminate]|intros p Hp _; cbn in Hp; decompose [or] Hp; subst; try contradiction; reflexivity|vm_compute; reflexivity].
  - exfalso. unfold eliminate_flag in E. cbn [t_alpha] in E.
    replace (existsb (fun g => bstr_eqb (get_feature g) (B "F")) (get_flags other_alpha)) with true in E by (vm_compute; reflexivity).
    unfold eliminate in E. cbn [t_alpha] in E. destruct (get_flag_filter (get_flags other_alpha) (B "F")) as [f|] eqn:EF; [|discriminate].
    unfold compose_both in E. cbn [t_alpha] in E. replace (f_alpha f) with (alpha_of (get_flag_filter (get_flags other_alpha) (B "F"))) in E by (rewrite EF; reflexivity).
    replace (true && existsb reencoded (alpha_of (get_flag_filter (get_flags other_alpha) (B "F")) ++ other_alpha)) with false in E by (vm_compute; reflexivity).
    discriminate.
  - exfalso. unfold eliminate_flag in E. destruct (existsb _ _); [|discriminate]. unfold eliminate, compose_both in E.
    destruct (get_flag_filter _ _); [destruct (true && _)|]; discriminate.
  - exfalso. unfold eliminate_flag in E. destruct (existsb _ _); [|discriminate]. unfold eliminate, compose_both in E.
    destruct (get_flag_filter _ _); [destruct (true && _)|]; discriminate.
Qed.
