(** Proofs about the conversion to the optimized-lookup tables: the tables represent the
    transducer, and the conversion succeeds. *)
From Coq Require Import Sorted Permutation NArith.
From Verif Require Import Base OrdMap Flags_Model Flags_Spec Flags_Proofs BT_Model BT_Spec An_Model LK_Model OLF_Model OLF_Proofs OLC_Model OLL_Model OLC_Spec OLC_Proofs OLC_Proofs2 OLC_Proofs3 OLC_Proofs4 OLC_Proofs5 OLC_Proofs6.

Lemma Forall2_map_l {A B C} (f : A -> B) (R : A -> C -> Prop) (h : B -> C) l :
  (forall a, In a l -> R a (h (f a))) -> Forall2 R l (map h (map f l)).
Proof. induction l as [|a l IH]; intros H; cbn [map]; constructor; [apply H; left; reflexivity|]. apply IH. intros b Hb. apply H. right. exact Hb. Qed.

Lemma permutation_map_inv {A B} (f : A -> B) l l2 : Permutation l2 (map f l) -> exists l1, l2 = map f l1 /\ Permutation l1 l.
Proof. intros H. apply Permutation_map_inv in H. destruct H as (l1 & E & P). exists l1. split; [exact E|]. apply Permutation_sym, P. Qed.

Theorem converted_at enc dec g weighted tr k ix al :
  structure_ok g -> no_insertions g -> faithful enc dec g -> small tr ->
  pack (flag_numbers g) (seen_inputs g) 0 (placeholders g) packing0 = Ok k ->
  index_table enc (flag_numbers g) (seen_inputs g) (placeholders g) (k_slots k) = Ok ix ->
  alphabet_of_table (symbol_table g) = Ok al ->
  tr = {| tr_header := header_make (N.of_nat (seen_inputs g)) (N.of_nat (length (symbol_table g))) (N.of_nat (length ix))
            (N.of_nat (length (transition_table enc (flag_numbers g) (placeholders g) (k_starts k)))) weighted;
          tr_alphabet := al;
          tr_tables := {| t_wclass := true; t_index := ix;
                          t_trans := transition_table enc (flag_numbers g) (placeholders g) (k_starts k) |} |} ->
  represents dec tr g (addr g k).
Proof.
  intros HS HI HW (HN1 & HN2) HP HX HA ->.
  cbn [tr_tables t_index t_trans] in HN1, HN2.
  destruct (alphabet_of_table_Ok _ al HA (symbol_table_NoDup g)) as (EN & _).
  constructor; cbn [tr_tables tr_alphabet tr_header header_make h_input_symbols].
  - eapply (addr_zero enc g k ix); eassumption.
  - intros s1 s2 L1 L2. eapply (addr_inj enc g k ix); eassumption.
  - intros s L. eapply (read_final enc dec g k ix); eassumption.
  - intros s L. destruct (read_free enc g k ix al HI HP HX HA HN1 HN2 s L) as (hit & E & H).
    destruct (permutation_map_inv _ _ _ (free_arcs_perm enc g k ix HI HN1 HN2 s)) as (l & EL & P).
    rewrite EL in E, H.
    exists hit, (map (entry_of enc (placeholders g) (k_starts k)) (map (tplace_of (symbol_table g)) l)), l.
    split; [exact E|]. split; [exact P|]. split.
    + apply Forall2_map_l. intros a Ha. apply (stands enc dec g k al HW HA s).
      apply (Permutation_in a P) in Ha. apply filter_In in Ha. apply Ha.
    + intros ->. intros C. apply map_eq_nil in C. exact (H eq_refl C).
  - intros s x j L E Lj Nz. rewrite EN in E.
    assert (Lj' : j < seen_inputs g) by lia.
    assert (F : free_no (flag_numbers g) j = false).
    { unfold free_no. rewrite (proj2 (Nat.eqb_neq _ _) Nz). cbn [orb].
      destruct (is_flag_no (flag_numbers g) j) eqn:C; [|reflexivity]. apply is_flag_no_spec, flag_numbers_In in C. lia. }
    destruct (read_symbol enc g k ix al HP HX HA HN1 HN2 s j L F Lj') as (hit & E2 & H).
    rewrite (with_input_arcs g s j x E) in E2, H.
    eexists hit, _. split; [exact E2|]. split.
    + apply Forall2_map_l. intros a Ha. apply (stands enc dec g k al HW HA s). apply filter_In in Ha. apply Ha.
    + intros ->. intros C. apply map_eq_nil in C. exact (H eq_refl C).
  - intros s x j L E Lj F. rewrite EN in E. unfold free_input in F. apply orb_false_iff in F. destruct F as (F1 & F2).
    assert (Lt : (N.of_nat j < 65535)%N).
    { assert (j < length (symbol_table g)) by (apply nth_error_Some; congruence). destruct (alphabet_of_table_Ok _ al HA (symbol_table_NoDup g)) as (_ & X & _). lia. }
    assert (Lo : seen_inputs g + length (flag_part g) <= j).
    { destruct (Nat.le_gt_cases (seen_inputs g + length (flag_part g)) j) as [X|X]; [exact X|]. exfalso.
      pose proof (table_nth_flag g j x E (proj2 (flag_numbers_In g j) ltac:(lia))) as H.
      apply In_flag_set in H. destruct H as (a & Ha & FL & ->). apply all_arcs_In in Ha. destruct Ha as (s' & Ha).
      unfold flag_like in FL. rewrite F2, (not_insertion _ (HI s' a Ha)) in FL. discriminate. }
    pose proof (read_other enc g k ix al HP HX HA HN1 HN2 s j L Lo Lt) as X.
    destruct (symbol_entries _ _ _) as [r| | |]; [left; rewrite X; reflexivity|destruct X|right; reflexivity|destruct X].
  - rewrite EN. apply symbol_table_NoDup.
  - rewrite EN. reflexivity.
  - intros x. rewrite EN. split.
    + intros (j & E & L & Z). destruct (table_nth_input g j x E ltac:(lia)) as [(-> & C)|(H & F & _)]; [congruence|].
      apply In_input_set in H. destruct H as (a & Ha & FL & ->). apply all_arcs_In in Ha. destruct Ha as (s & Ha).
      exists s, a. split; [exact Ha|]. split; [reflexivity|]. unfold free_input. unfold flag_like in FL. apply orb_false_iff in FL.
      rewrite (proj1 FL), orb_false_r. destruct (bstr_eqb_spec (isy a) (B "@_EPSILON_SYMBOL_@")); [contradiction|reflexivity].
    + intros (s & a & Ha & <- & F). destruct (arc_symbols g s a Ha) as (H1 & _).
      exists (number (symbol_table g) (isy a)). pose proof (number_In _ _ H1) as E. split; [exact E|].
      pose proof (arc_input_number g s a Ha) as X. cbv zeta in X.
      unfold free_input in F. apply orb_false_iff in F. destruct F as (F1 & F2).
      assert (FL : flag_like (isy a) = false) by (unfold flag_like; rewrite F2, (not_insertion _ (HI s a Ha)); reflexivity).
      rewrite FL in X. destruct X as [(_ & X)|(C & _)]; [|discriminate].
      split; [lia|]. intros Z. rewrite Z in E. injection E as E. rewrite <- E in F1. discriminate.
Qed.

Theorem converted enc dec g weighted tr :
  structure_ok g -> no_insertions g -> faithful enc dec g -> to_ol enc g weighted = Ok tr -> small tr ->
  exists addr, represents dec tr g addr.
Proof.
  intros HS HI HW HT HN. destruct (to_ol_Ok enc g weighted tr HT) as (k & ix & al & HP & HX & HA & E).
  exists (addr g k). eapply converted_at; eassumption.
Qed.

(** * The conversion succeeds *)
Lemma mset_length_le {V} k (v : V) m : length (mset bcmp k v m) <= S (length m).
Proof. induction m as [|[k' v'] r IH]; simpl; [lia|]. destruct (bcmp k k'); simpl; lia. Qed.

Lemma define_total t k s : is_diacritic s = true ->
  (Z.of_nat (length (feature_map t)) <= 65535)%Z -> (Z.of_nat (length (value_map t)) + 1 <= 65535)%Z ->
  exists t', define_diacritic t k s = Some t'
    /\ length (feature_map t') <= S (length (feature_map t)) /\ length (value_map t') <= S (length (value_map t)).
Proof.
  intros D HF HV. destruct (proj1 (is_diacritic_denotes s) D) as (x & Hx).
  destruct (denotes_code s x Hx) as (_ & c & o & Ec & Eo & _).
  unfold define_diacritic. rewrite D, Ec, Eo. cbn [negb]. destruct (split_feature_value s) as (f, ov).
  set (v := match ov with Some v => v | None => [] end).
  unfold size_t_to_ushort.
  destruct (Z.leb_spec (Z.of_nat (length (feature_map t))) 65535) as [_|C]; [|lia].
  destruct (Z.leb_spec (Z.of_nat (length (value_map t)) + 1) 65535) as [_|C]; [|lia].
  destruct (mget bcmp f (feature_map t)) as [i|] eqn:EF, (mget bcmp v (value_map t)) as [j|] eqn:EV.
  - rewrite EF, EV. eexists. split; [reflexivity|]. simpl. lia.
  - rewrite EF, (mget_mset_same bcmp bcmp_eq). eexists. split; [reflexivity|]. cbn [feature_map value_map].
    split; [lia|apply mset_length_le].
  - rewrite EV, (mget_mset_same bcmp bcmp_eq). eexists. split; [reflexivity|]. cbn [feature_map value_map].
    split; [apply mset_length_le|lia].
  - rewrite !(mget_mset_same bcmp bcmp_eq). eexists. split; [reflexivity|]. cbn [feature_map value_map].
    split; apply mset_length_le.
Qed.
Lemma classify_all_total l : forall a i,
  (Z.of_nat (length (feature_map (a_fd a))) + Z.of_nat (length l) <= 65535)%Z ->
  (Z.of_nat (length (value_map (a_fd a))) + Z.of_nat (length l) <= 65535)%Z ->
  exists a', classify_all a i l = Some a'.
Proof.
  induction l as [|s l IH]; intros a i HF HV; cbn [classify_all]; [eauto|].
  unfold classify. destruct (is_diacritic s) eqn:D.
  - destruct (define_total (a_fd a) i s D) as (t & E & L1 & L2); [simpl in HF; lia|simpl in HV; lia|].
    rewrite E. apply IH; cbn [a_fd]; cbn [length] in HF, HV; lia.
  - apply IH; cbn [a_fd]; cbn [length] in HF, HV; lia.
Qed.
Lemma alphabet_total g : (N.of_nat (length (symbol_table g)) <= 65535)%N -> exists al, alphabet_of_table (symbol_table g) = Ok al.
Proof.
  intros L. unfold alphabet_of_table. destruct (N.ltb_spec 65535 (N.of_nat (length (symbol_table g)))) as [C|_]; [lia|].
  unfold symbol_table in *. set (l := input_part g ++ flag_part g ++ other_part g) in *. cbn [length] in L.
  change (classify_all alphabet0 0 (EPS :: l)) with (classify_all alphabet0 1 l).
  destruct (classify_all_total l alphabet0 1) as (a' & E).
  { change (length (feature_map (a_fd alphabet0))) with 0. lia. }
  { change (length (value_map (a_fd alphabet0))) with 1. lia. }
  rewrite E. eauto.
Qed.
Lemma conversion_total enc g weighted : (N.of_nat (length (symbol_table g)) <= 65535)%N -> exists tr, to_ol enc g weighted = Ok tr.
Proof. intros L. apply to_ol_total; [exact L|apply alphabet_total, L]. Qed.
Lemma conversion_diverges enc g weighted : N.of_nat (length (symbol_table g)) = 65536%N -> to_ol enc g weighted = Diverge.
Proof.
  intros L. unfold to_ol. destruct (N.ltb_spec 65536 (N.of_nat (length (symbol_table g)))) as [L'|_]; [lia|].
  destruct (packed g) as (k & Ek & Hk). rewrite Ek. cbn [rbind].
  destruct (index_table_Ok enc g k Hk (seen_inputs g)) as (ix & E2 & _). rewrite E2. cbn [rbind].
  unfold alphabet_of_table. rewrite L. reflexivity.
Qed.
