(** Proofs about the conversion to the optimized-lookup tables: packing the index table. *)
From Coq Require Import Sorted Permutation NArith.
From Verif Require Import Base OrdMap Flags_Model BT_Model BT_Spec An_Model LK_Model OLF_Model OLF_Proofs OLC_Model OLL_Model OLC_Proofs OLC_Proofs2.

Definition slot_at (sl : slots) (i : nat) : option (nat * option nat) :=
  match nth_error sl i with Some v => v | None => None end.

Lemma used_at_spec sl i : used_at sl i = match slot_at sl i with Some _ => true | None => false end.
Proof. unfold used_at, slot_at. destruct (nth_error sl i) as [[v|]|]; reflexivity. Qed.
Lemma slot_overflow sl i : length sl <= i -> slot_at sl i = None.
Proof. intros H. unfold slot_at. rewrite (proj2 (nth_error_None sl i) H). reflexivity. Qed.
Lemma slot_bound sl i v : slot_at sl i = Some v -> i < length sl.
Proof. intros H. destruct (Nat.lt_ge_cases i (length sl)) as [L|L]; [exact L|]. rewrite slot_overflow in H by exact L. discriminate. Qed.

Lemma nth_error_upd_same {A} (l : list A) i v : i < length l -> nth_error (upd i v l) i = Some v.
Proof.
  revert i. induction l as [|x l IH]; intros i L; [simpl in L; lia|]. destruct i as [|i]; simpl; [reflexivity|].
  apply IH. simpl in L. lia.
Qed.
Lemma nth_error_upd_other {A} (l : list A) i j v : i <> j -> nth_error (upd i v l) j = nth_error l j.
Proof.
  revert i j. induction l as [|x l IH]; intros i j N; [destruct i; reflexivity|].
  destruct i as [|i], j as [|j]; simpl; try reflexivity; [congruence|]. apply IH. congruence.
Qed.

Lemma slot_assign sl i v j : slot_at (assign sl i v) j = if j =? i then Some v else slot_at sl j.
Proof.
  unfold slot_at, assign. destruct (Nat.eqb_spec j i) as [-> |N].
  - rewrite nth_error_upd_same; [reflexivity|]. rewrite app_length, repeat_length. lia.
  - rewrite nth_error_upd_other by congruence.
    destruct (Nat.lt_ge_cases j (length sl)) as [L|L].
    + rewrite nth_error_app1 by exact L. reflexivity.
    + rewrite nth_error_app2 by exact L. rewrite (proj2 (nth_error_None sl j) L).
      destruct (nth_error (repeat None _) _) as [w|] eqn:E; [|reflexivity].
      apply nth_error_In, repeat_spec in E. exact E.
Qed.

Lemma slot_mark flags s i p sl j :
  slot_at (mark flags s i p sl) j =
  match find (fun q => i + index_offset flags (fst q) + 1 =? j) (p_groups p) with
  | Some q => Some (s, Some (index_offset flags (fst q)))
  | None => if j =? i then Some (s, None) else slot_at sl j
  end.
Proof.
  unfold mark.
  assert (G : forall gs sl0, slot_at (fold_left (fun sl q => let k := index_offset flags (fst q) in assign sl (i + k + 1) (s, Some k)) gs sl0) j
     = match find (fun q : nat * list tplace => i + index_offset flags (fst q) + 1 =? j) gs with
       | Some q => Some (s, Some (index_offset flags (fst q)))
       | None => slot_at sl0 j end).
  { induction gs as [|q gs IH]; intros sl0; cbn [fold_left find]; [reflexivity|].
    rewrite IH. cbv zeta.
    destruct (find _ gs) as [q'|] eqn:F.
    - destruct (Nat.eqb_spec (i + index_offset flags (fst q) + 1) j) as [E|E]; [|reflexivity].
      apply find_some in F. destruct F as (_ & F). apply Nat.eqb_eq in F.
      replace (index_offset flags (fst q')) with (index_offset flags (fst q)) by lia. reflexivity.
    - rewrite slot_assign. rewrite Nat.eqb_sym. destruct (i + index_offset flags (fst q) + 1 =? j); reflexivity. }
  rewrite G. destruct (find _ _); [reflexivity|]. apply slot_assign.
Qed.

(** The searches end. *)
Lemma first_from_total P fuel : forall i, (exists j, i <= j < i + fuel /\ P j = true) ->
  exists k, first_from fuel P i = Ok k /\ P k = true.
Proof.
  induction fuel as [|fuel IH]; intros i (j & L & H); [lia|]. simpl.
  destruct (P i) eqn:E; [eauto|]. apply IH. exists j. split; [|exact H].
  destruct (Nat.eq_dec i j) as [-> |N]; [congruence|lia].
Qed.
Lemma first_from_Ok P fuel : forall i k, first_from fuel P i = Ok k -> P k = true /\ i <= k.
Proof.
  induction fuel as [|fuel IH]; intros i k H; simpl in H; [discriminate|].
  destruct (P i) eqn:E; [injection H as <-; auto|]. destruct (IH _ _ H). split; [assumption|lia].
Qed.

Lemma fits_beyond sl flags p i : length sl <= i -> fits sl flags p i = true.
Proof.
  intros L. unfold fits. rewrite used_at_spec, slot_overflow by exact L. simpl. apply forallb_forall.
  intros q _. rewrite used_at_spec, slot_overflow by lia. reflexivity.
Qed.
Lemma too_full_beyond sl index symbols todo : forall i, length sl <= index -> 0 < symbols ->
  too_full sl index symbols 0 i todo = false.
Proof.
  induction todo as [|todo IH]; intros i L S; [reflexivity|]. cbn [too_full].
  rewrite used_at_spec, slot_overflow by lia. cbn [Nat.add].
  destruct (Nat.leb_spec (17 * symbols) (20 * 0)) as [H|H]; [lia|]. apply IH; assumption.
Qed.
Lemma unsuitable_beyond sl symbols i : length sl <= i -> 0 < symbols -> unsuitable sl symbols i = false.
Proof. intros L S. unfold unsuitable. rewrite used_at_spec, slot_overflow, too_full_beyond by assumption. reflexivity. Qed.

Definition pack_ok (flags : list nat) (ps : list placeholder) (n : nat) (k : packing) : Prop :=
  length (k_starts k) = n
  /\ (forall s, s < n -> let p := nth s ps no_placeholder in
        if is_simple p then nth s (k_starts k) None = None
        else exists i, nth s (k_starts k) None = Some i
             /\ slot_at (k_slots k) i = Some (s, None)
             /\ (forall q, In q (p_groups p) ->
                   slot_at (k_slots k) (i + index_offset flags (fst q) + 1) = Some (s, Some (index_offset flags (fst q)))))
  /\ (forall j s o, slot_at (k_slots k) j = Some (s, o) ->
        s < n /\ exists i, nth s (k_starts k) None = Some i /\
        match o with
        | None => j = i
        | Some o => j = i + o + 1 /\ exists q, In q (p_groups (nth s ps no_placeholder)) /\ index_offset flags (fst q) = o
        end).

Lemma pack0_ok flags ps : pack_ok flags ps 0 packing0.
Proof.
  unfold pack_ok, packing0. cbn [k_slots k_starts]. split; [reflexivity|]. split; [intros; lia|].
  intros j s o H. unfold slot_at in H. destruct j; discriminate.
Qed.

Lemma pack_state_ok flags symbols ps n k : 0 < symbols -> pack_ok flags ps n k ->
  exists k', pack_state flags symbols n (nth n ps no_placeholder) k = Ok k' /\ pack_ok flags ps (S n) k'.
Proof.
  intros Hs (H1 & H2 & H3). unfold pack_state. set (p := nth n ps no_placeholder).
  destruct (is_simple p) eqn:S.
  - eexists. split; [reflexivity|]. unfold pack_ok. cbn [k_starts k_slots].
    split; [rewrite app_length; simpl; lia|]. split.
    + intros s L. destruct (Nat.eq_dec s n) as [-> |N].
      * fold p. rewrite S. rewrite app_nth2 by lia. rewrite H1, Nat.sub_diag. reflexivity.
      * rewrite app_nth1 by lia. apply H2. lia.
    + intros j s o H. destruct (H3 j s o H) as (L & i & E & H'). split; [lia|]. exists i. split; [|exact H'].
      rewrite app_nth1 by lia. exact E.
  - destruct (first_from_total (fits (k_slots k) flags p) (Datatypes.S (length (k_slots k))) (k_first_available k)) as (i & E & F).
    { exists (k_first_available k + length (k_slots k)). split; [lia|]. apply fits_beyond. lia. }
    rewrite E. cbn [rbind]. set (sl := mark flags n i p (k_slots k)).
    destruct (first_from_total (fun j => negb (unsuitable sl symbols j)) (Datatypes.S (length sl)) (k_first_available k)) as (f & E2 & F2).
    { exists (k_first_available k + length sl). split; [lia|]. rewrite unsuitable_beyond; [reflexivity|lia|exact Hs]. }
    rewrite E2. cbn [rbind]. destruct (if f =? k_previous_first k then _ else _) as ((f' & pf) & stk).
    eexists. split; [reflexivity|].
    unfold fits in F. rewrite andb_true_iff, forallb_forall, negb_true_iff in F. destruct F as (F1 & F3).
    assert (U1 : slot_at (k_slots k) i = None).
    { rewrite used_at_spec in F1. destruct (slot_at (k_slots k) i); [discriminate|reflexivity]. }
    assert (U2 : forall q, In q (p_groups p) -> slot_at (k_slots k) (i + index_offset flags (fst q) + 1) = None).
    { intros q Hq. apply F3 in Hq. rewrite negb_true_iff, used_at_spec in Hq.
      replace (index_offset flags (fst q) + i + 1) with (i + index_offset flags (fst q) + 1) in Hq by lia.
      destruct (slot_at (k_slots k) (i + index_offset flags (fst q) + 1)); [discriminate|reflexivity]. }
    assert (OLD : forall j v, slot_at (k_slots k) j = Some v -> slot_at sl j = Some v).
    { intros j v H. unfold sl. rewrite slot_mark. destruct (find _ _) as [q|] eqn:FI.
      - apply find_some in FI. destruct FI as (Hq & FI). apply Nat.eqb_eq in FI. rewrite <- FI, (U2 q Hq) in H. discriminate.
      - destruct (Nat.eqb_spec j i) as [-> |N]; [congruence|exact H]. }
    assert (NEWi : slot_at sl i = Some (n, None)).
    { unfold sl. rewrite slot_mark. destruct (find _ _) as [q|] eqn:FI.
      - apply find_some in FI. destruct FI as (Hq & FI). apply Nat.eqb_eq in FI. lia.
      - rewrite Nat.eqb_refl. reflexivity. }
    assert (NEWq : forall q, In q (p_groups p) -> slot_at sl (i + index_offset flags (fst q) + 1) = Some (n, Some (index_offset flags (fst q)))).
    { intros q Hq. unfold sl. rewrite slot_mark. destruct (find _ _) as [q'|] eqn:FI.
      - apply find_some in FI. destruct FI as (_ & FI). apply Nat.eqb_eq in FI.
        replace (index_offset flags (fst q')) with (index_offset flags (fst q)) by lia. reflexivity.
      - pose proof (find_none _ _ FI q Hq) as X. cbv beta in X. rewrite Nat.eqb_refl in X. discriminate. }
    unfold pack_ok. cbn [k_starts k_slots]. split; [rewrite app_length; simpl; lia|]. split.
    + intros s L. destruct (Nat.eq_dec s n) as [-> |N].
      * fold p. rewrite S. exists i. rewrite app_nth2 by lia. rewrite H1, Nat.sub_diag. cbn [nth]. auto.
      * specialize (H2 s ltac:(lia)). cbv zeta in H2 |- *. destruct (is_simple (nth s ps no_placeholder)).
        -- rewrite app_nth1 by lia. exact H2.
        -- destruct H2 as (i' & X1 & X2 & X3). exists i'. rewrite app_nth1 by lia.
           split; [exact X1|]. split; [apply OLD, X2|]. intros q Hq. apply OLD, X3, Hq.
    + intros j s o H. unfold sl in H. rewrite slot_mark in H. destruct (find _ _) as [q|] eqn:FI.
      * injection H as <- <-. apply find_some in FI. destruct FI as (Hq & FI). apply Nat.eqb_eq in FI.
        split; [lia|]. exists i. rewrite app_nth2 by lia. rewrite H1, Nat.sub_diag. cbn [nth].
        split; [reflexivity|]. split; [lia|]. exists q. auto.
      * destruct (Nat.eqb_spec j i) as [-> |N].
        -- injection H as <- <-. split; [lia|]. exists i. rewrite app_nth2 by lia. rewrite H1, Nat.sub_diag. auto.
        -- destruct (H3 j s o H) as (L & i' & X & H'). split; [lia|]. exists i'. split; [|exact H'].
           rewrite app_nth1 by lia. exact X.
Qed.

Lemma pack_all_ok flags symbols ps : 0 < symbols -> forall r n k,
  skipn n ps = r -> n <= length ps -> pack_ok flags ps n k ->
  exists k', pack flags symbols n r k = Ok k' /\ pack_ok flags ps (length ps) k'.
Proof.
  intros Hs. induction r as [|p r IH]; intros n k E L H; cbn [pack].
  - assert (length (skipn n ps) = 0) by (rewrite E; reflexivity). rewrite skipn_length in H0.
    replace (length ps) with n by lia. eauto.
  - assert (LN : n < length ps).
    { assert (X : length (skipn n ps) = S (length r)) by (rewrite E; reflexivity). rewrite skipn_length in X. lia. }
    assert (P : nth n ps no_placeholder = p).
    { rewrite <- (firstn_skipn n ps), E. rewrite app_nth2; rewrite firstn_length_le by lia; [|lia].
      rewrite Nat.sub_diag. reflexivity. }
    destruct (pack_state_ok flags symbols ps n k Hs H) as (k' & E2 & H').
    rewrite P in E2. rewrite E2. cbn [rbind]. apply IH; [|lia|exact H'].
    assert (X : skipn 1 (skipn n ps) = r) by (rewrite E; reflexivity).
    clear -X. revert X. generalize ps as l. revert n. induction n as [|n IH]; intros l; simpl; [intros <-; destruct l; reflexivity|].
    destruct l as [|a l]; simpl; [intros <-; destruct n; reflexivity|]. intros X. rewrite <- (IH l X). destruct l; reflexivity.
Qed.

Theorem packed g : exists k, pack (flag_numbers g) (seen_inputs g) 0 (placeholders g) packing0 = Ok k
  /\ pack_ok (flag_numbers g) (placeholders g) (length (sts g)) k.
Proof.
  destruct (pack_all_ok (flag_numbers g) (seen_inputs g) (placeholders g) (seen_pos g) (placeholders g) 0 packing0) as (k & E & H);
    [reflexivity|lia|apply pack0_ok|].
  rewrite placeholders_length in H. eauto.
Qed.

(** State 0 is placed first. *)
Lemma pack_starts_prefix flags symbols r : forall n k k', pack flags symbols n r k = Ok k' ->
  exists l, k_starts k' = k_starts k ++ l.
Proof.
  induction r as [|p r IH]; intros n k k' H; cbn [pack] in H.
  - injection H as <-. exists []. symmetry. apply app_nil_r.
  - apply rbind_Ok in H. destruct H as (k1 & E & H). destruct (IH _ _ _ H) as (l & ->).
    unfold pack_state in E. destruct (is_simple p).
    + injection E as <-. cbn [k_starts]. rewrite <- app_assoc. eauto.
    + apply rbind_Ok in E. destruct E as (i & _ & E). apply rbind_Ok in E. destruct E as (f & _ & E).
      destruct (if f =? k_previous_first k then _ else _) as ((f' & pf) & stk). injection E as <-. cbn [k_starts].
      rewrite <- app_assoc. eauto.
Qed.
Lemma start_of_zero g k : sts g <> [] ->
  pack (flag_numbers g) (seen_inputs g) 0 (placeholders g) packing0 = Ok k -> nth 0 (k_starts k) None = Some 0.
Proof.
  intros N H. assert (L : 0 < length (sts g)) by (destruct (sts g); [congruence|simpl; lia]).
  destruct (placeholders_nth g 0 L) as ((_ & _ & _ & T & _) & _).
  destruct (placeholders g) as [|p r] eqn:E.
  { pose proof (placeholders_length g) as X. rewrite E in X. simpl in X. lia. }
  cbn [nth] in T. specialize (T eq_refl). cbn [pack] in H. apply rbind_Ok in H. destruct H as (k1 & E1 & H).
  apply pack_starts_prefix in H. destruct H as (l & ->).
  unfold pack_state, is_simple in E1. rewrite T in E1. apply rbind_Ok in E1. destruct E1 as (i & Ei & E1).
  apply rbind_Ok in E1. destruct E1 as (f & _ & E1).
  assert (i = 0).
  { cbn [k_slots k_first_available packing0 length first_from] in Ei.
    rewrite fits_beyond in Ei by (simpl; lia). injection Ei as <-. reflexivity. }
  subst i. destruct (if f =? k_previous_first packing0 then _ else _) as ((f' & pf) & stk). injection E1 as <-. reflexivity.
Qed.
