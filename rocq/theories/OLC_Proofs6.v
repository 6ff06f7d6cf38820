(** Proofs about the conversion to the optimized-lookup tables: what the readers find. *)
From Coq Require Import Sorted Permutation NArith.
From Verif Require Import Base OrdMap Flags_Model BT_Model BT_Spec An_Model LK_Model OLF_Model OLF_Proofs OLC_Model OLL_Model OLC_Spec OLC_Proofs OLC_Proofs2 OLC_Proofs3 OLC_Proofs4 OLC_Proofs5.

Lemma is_insertion_spec x : is_insertion x = true -> x = B "@I.@" \/ insertion x \/ length x <= 3.
Proof.
  unfold is_insertion, at_is. rewrite !andb_true_iff. intros (((H1 & H2) & H3) & H4).
  destruct x as [|a [|b [|c r]]]; [discriminate|discriminate|discriminate|].
  simpl in H1, H2, H3. apply Ascii.eqb_eq in H1, H2, H3. subst a b c.
  destruct r as [|d r]; [right; right; simpl; lia|]. right. left.
  destruct (@exists_last _ (d :: r)) as (y & z & E); [discriminate|]. rewrite E in *.
  exists y. cbn [B list_ascii_of_string app]. do 3 f_equal.
  cbn [length] in H4. rewrite app_length in H4. cbn [length] in H4.
  replace (S (S (S (length y + 1))) - 1) with (S (S (S (length y)))) in H4 by lia.
  cbn [nth_error] in H4. rewrite nth_error_app2, Nat.sub_diag in H4 by lia. cbn [nth_error] in H4.
  apply Ascii.eqb_eq in H4. subst z. reflexivity.
Qed.
Lemma not_insertion x : ~ insertion x -> is_insertion x = false.
Proof.
  intros H. destruct (is_insertion x) eqn:E; [|reflexivity]. exfalso.
  destruct (is_insertion_spec x E) as [-> |[I|L]]; [apply H; exists []; reflexivity|exact (H I)|].
  unfold is_insertion, at_is in E. rewrite !andb_true_iff in E. destruct E as (((H1 & H2) & H3) & H4).
  destruct x as [|a [|b [|c [|d r]]]]; try discriminate; simpl in *; [|lia].
  apply Ascii.eqb_eq in H3, H4. congruence.
Qed.
Lemma insertion_detected x : insertion x -> is_insertion x = true.
Proof.
  intros (y & ->). unfold is_insertion, at_is. rewrite !app_length.
  cbn [B list_ascii_of_string length app].
  replace (3 + (length y + 1) - 1) with (S (S (S (length y)))) by lia.
  cbn [nth_error]. rewrite nth_error_app2, Nat.sub_diag by lia. reflexivity.
Qed.

Section Read.
  Variable enc : Z -> N.
  Variable dec : N -> Z.
  Variable g : graph.
  Variable k : packing.
  Variable ix : list index_entry.
  Variable al : alphabet.
  Let st := symbol_table g.
  Let flags := flag_numbers g.
  Let ps := placeholders g.
  Let n := length (sts g).
  Let symbols := seen_inputs g.
  Let T := transition_table enc flags ps (k_starts k).
  Let t := {| t_wclass := true; t_index := ix; t_trans := T |}.
  Hypothesis HS : structure_ok g.
  Hypothesis HI : no_insertions g.
  Hypothesis HW : faithful enc dec g.
  Hypothesis HP : pack flags symbols 0 ps packing0 = Ok k.
  Hypothesis HX : index_table enc flags symbols ps (k_slots k) = Ok ix.
  Hypothesis HA : alphabet_of_table st = Ok al.
  Hypothesis HN1 : (N.of_nat (length ix) + 65536 < TA_OFFSET)%N.
  Hypothesis HN2 : (N.of_nat (length T) < TA_OFFSET)%N.

  Definition addr (s : nat) : N := target_of ps (k_starts k) s.
  Let ent := entry_of enc ps (k_starts k).
  Let ts (s : nat) := arc_places g s.
  Let ph (s : nat) := nth s ps no_placeholder.

  Local Lemma HK : pack_ok flags ps n k.
  Proof.
    destruct (packed g) as (k' & E & H). unfold flags, ps, symbols in HP. rewrite HP in E. injection E as <-. exact H.
  Qed.
  Local Lemma ph_s s : s < n -> ph_ok flags s (ts s) (ph s).
  Proof. apply ph_of. Qed.
  Local Lemma st_len : (N.of_nat (length st) <= 65535)%N.
  Proof. destruct (alphabet_of_table_Ok st al HA (symbol_table_NoDup g)) as (_ & H & _). exact H. Qed.
  Local Lemma names : a_table al = st.
  Proof. apply (alphabet_of_table_Ok st al HA (symbol_table_NoDup g)). Qed.

  Local Lemma ix_facts : length (k_slots k) + symbols <= length ix
    /\ (forall j v, nth_error (k_slots k) j = Some v -> exists e, nth_error ix j = Some e /\ index_of_slot enc flags ps v = Ok e)
    /\ (forall j, length (k_slots k) <= j -> j < length ix -> nth_error ix j = Some blank_index).
  Proof.
    destruct (index_table_Ok enc g k HK symbols) as (ix' & E & H). unfold flags, ps in HX. rewrite HX in E. injection E as <-. exact H.
  Qed.

  Local Lemma ioz x : free_no flags x = true -> index_offset flags x = 0.
  Proof. exact (index_offset_zero g x). Qed.
  Local Lemma iof x : free_no flags x = false -> index_offset flags x = x.
  Proof. exact (index_offset_free g x). Qed.

  (** ** Addresses *)
  Local Lemma nonsimple_start s : s < n -> is_simple (ph s) = false -> exists i,
    nth s (k_starts k) None = Some i /\ addr s = N.of_nat i /\ slot_at (k_slots k) i = Some (s, None)
    /\ (forall q, In q (p_groups (ph s)) -> slot_at (k_slots k) (i + index_offset flags (fst q) + 1) = Some (s, Some (index_offset flags (fst q))))
    /\ i < length (k_slots k).
  Proof.
    intros L S. destruct HK as (_ & H & _). specialize (H s L). cbv zeta in H. fold (ph s) in H. rewrite S in H.
    destruct H as (i & H1 & H2 & H3). exists i. split; [exact H1|]. split.
    - unfold addr, target_of. fold (ph s). rewrite S, H1. reflexivity.
    - split; [exact H2|]. split; [exact H3|]. eapply slot_bound, H2.
  Qed.
  Local Lemma simple_pos s : s < n -> is_simple (ph s) = true -> 0 < s.
  Proof.
    intros L S. destruct s; [|lia]. destruct (ph_s 0 L) as (_ & _ & _ & H & _). unfold is_simple in S.
    rewrite (H eq_refl) in S. discriminate.
  Qed.
  Local Lemma first_eq s : s < n -> p_first (ph s) = first_of s (sts g).
  Proof. intros L. apply (placeholders_nth g s L). Qed.
  Local Lemma final_eq s : s < n -> p_final (ph s) = finw g s.
  Proof. intros L. apply (placeholders_nth g s L). Qed.

  Local Lemma T_layout s : s < n -> exists rest,
    skipn (first_of s (sts g)) T = map ent (in_order (ts s) (keys flags (ph s))) ++ rest /\ ends rest
    /\ (0 < s -> nth_error T (first_of s (sts g) - 1) = Some (marker enc (finw g s)) /\ 0 < first_of s (sts g)).
  Proof.
    intros L. assert (Lp : s < length ps) by (unfold ps; rewrite placeholders_length; exact L).
    destruct (transition_table_nth enc flags ps (k_starts k) (sts g) (lengths_ok enc g (k_starts k)) s Lp) as (rest & H1 & H2 & H3).
    exists rest. fold (ph s) in H1, H3. rewrite (state_entries_eq enc ps (k_starts k) flags s (ts s) (ph s) (ph_s s L)) in H1.
    rewrite (final_eq s L) in H3. auto.
  Qed.
  Local Lemma first_bound s : s < n -> first_of s (sts g) + length (arcs g s) < length T.
  Proof.
    intros L. destruct (T_layout s L) as (rest & H1 & (m & r & -> & _) & _).
    apply (f_equal (@length _)) in H1. rewrite skipn_length, app_length, map_length in H1.
    rewrite (Permutation_length (places_perm flags s (ts s) (ph s) (flag_numbers_ok g) (ph_s s L))) in H1.
    unfold ts, arc_places in H1. rewrite map_length in H1. simpl in H1. lia.
  Qed.

  Local Lemma simple_addr s : s < n -> is_simple (ph s) = true ->
    addr s = (N.of_nat (first_of s (sts g) - 1) + TA_OFFSET)%N /\ 0 < first_of s (sts g).
  Proof.
    intros L S. destruct (T_layout s L) as (_ & _ & _ & H). destruct (H (simple_pos s L S)) as (_ & P).
    split; [|exact P]. unfold addr, target_of. fold (ph s). rewrite S, (first_eq s L). lia.
  Qed.

  Lemma addr_zero : addr 0 = 0%N.
  Proof.
    assert (L : 0 < n). { destruct HS as (H & _). unfold n. destruct (sts g); [congruence|simpl; lia]. }
    pose proof (start_of_zero g k (proj1 HS) HP) as E.
    destruct (ph_s 0 L) as (_ & _ & _ & H & _). unfold addr, target_of. fold (ph 0). unfold is_simple. rewrite (H eq_refl), E. reflexivity.
  Qed.
  Lemma addr_inj s1 s2 : s1 < n -> s2 < n -> addr s1 = addr s2 -> s1 = s2.
  Proof.
    intros L1 L2 E. destruct (is_simple (ph s1)) eqn:S1, (is_simple (ph s2)) eqn:S2.
    - destruct (simple_addr s1 L1 S1) as (E1 & P1). destruct (simple_addr s2 L2 S2) as (E2 & P2).
      assert (F : first_of s1 (sts g) = first_of s2 (sts g)) by lia.
      destruct (Nat.lt_trichotomy s1 s2) as [D|[D|D]]; [|exact D|].
      + pose proof (first_of_mono (sts g) s1 s2 D L2). lia.
      + pose proof (first_of_mono (sts g) s2 s1 D L1). lia.
    - destruct (simple_addr s1 L1 S1) as (E1 & _). destruct (nonsimple_start s2 L2 S2) as (i & _ & E2 & _ & _ & B).
      destruct ix_facts as (B2 & _). lia.
    - destruct (simple_addr s2 L2 S2) as (E1 & _). destruct (nonsimple_start s1 L1 S1) as (i & _ & E2 & _ & _ & B).
      destruct ix_facts as (B2 & _). lia.
    - destruct (nonsimple_start s1 L1 S1) as (i1 & _ & E1 & U1 & _). destruct (nonsimple_start s2 L2 S2) as (i2 & _ & E2 & U2 & _).
      assert (i1 = i2) by lia. subst i2. congruence.
  Qed.

  (** ** Index entries *)
  Local Lemma get_ix j e : nth_error ix j = Some e -> get_index t (N.of_nat j) = Ok e.
  Proof.
    intros H. assert (j < length ix) by (apply nth_error_Some; congruence).
    unfold get_index, table_pos. destruct (N.ltb_spec (N.of_nat j) TA_OFFSET) as [L|L]; [|lia].
    rewrite Nat2N.id. cbn [t_index t]. rewrite H. reflexivity.
  Qed.

  (** The index entry of state [s] (not simple) for number [x]. *)
  Local Lemma index_entry_hit s x i : s < n -> nth s (k_starts k) None = Some i ->
    slot_at (k_slots k) (i + x + 1) = Some (s, Some x) ->
    exists o, symbol_offset flags (ph s) x = Ok o /\
      nth_error ix (i + 1 + x) = Some {| ie_input := N.of_nat x; ie_target := (N.of_nat (first_of s (sts g) + o) + TA_OFFSET)%N |}.
  Proof.
    intros L _ H. unfold slot_at in H. replace (i + x + 1) with (i + 1 + x) in H by lia.
    destruct (nth_error (k_slots k) (i + 1 + x)) as [v|] eqn:E; [|discriminate]. subst v.
    destruct ix_facts as (_ & F & _). destruct (F _ _ E) as (e & H1 & H2). unfold index_of_slot in H2. fold (ph s) in H2.
    apply rbind_Ok in H2. destruct H2 as (o & H2 & H3). injection H3 as <-. exists o. rewrite (first_eq s L) in H1. auto.
  Qed.
  Local Lemma index_entry_miss s x i : s < n -> is_simple (ph s) = false -> nth s (k_starts k) None = Some i ->
    (forall q, In q (p_groups (ph s)) -> index_offset flags (fst q) <> x) ->
    i + 1 + x < length ix -> (N.of_nat x < 65535)%N ->
    exists e, nth_error ix (i + 1 + x) = Some e /\ ie_input e <> N.of_nat x.
  Proof.
    intros L S E H B Lx. destruct ix_facts as (_ & F1 & F2).
    destruct (Nat.lt_ge_cases (i + 1 + x) (length (k_slots k))) as [L2|L2].
    - destruct (nth_error (k_slots k) (i + 1 + x)) as [v|] eqn:EV; [|apply nth_error_None in EV; lia].
      destruct (F1 _ _ EV) as (e & H1 & H2). exists e. split; [exact H1|].
      destruct v as [(s', o)|]; [|injection H2 as <-; cbn [ie_input blank_index]; unfold OLF_Model.NO_SYMBOL; lia].
      assert (SL : slot_at (k_slots k) (i + 1 + x) = Some (s', o)) by (unfold slot_at; rewrite EV; reflexivity).
      destruct HK as (_ & _ & H3). destruct (H3 _ _ _ SL) as (L' & i' & E' & H').
      destruct o as [o|].
      + simpl in H2. apply rbind_Ok in H2. destruct H2 as (o' & _ & H2). injection H2 as <-. cbn [ie_input].
        intros C. apply Nat2N.inj in C. subst o. destruct H' as (H' & q & Hq & Hx).
        assert (i' = i) by lia. subst i'.
        assert (s' = s).
        { destruct HK as (_ & H4 & _). pose proof (H4 s' L') as X. cbv zeta in X.
          destruct (is_simple (nth s' ps no_placeholder)); [congruence|]. destruct X as (i1 & X1 & X2 & _).
          destruct (nonsimple_start s L S) as (i2 & Y1 & _ & Y2 & _). congruence. }
        subst s'. exact (H q Hq Hx).
      + simpl in H2. destruct (p_final (nth s' ps no_placeholder)); injection H2 as <-; cbn [ie_input blank_index];
          unfold OLF_Model.NO_SYMBOL; lia.
    - exists blank_index. split; [apply F2; assumption|]. cbn [ie_input blank_index]. unfold OLF_Model.NO_SYMBOL. lia.
  Qed.

  (** ** Tests on entries *)
  Local Lemma arc_place_input s u : In u (ts s) -> exists a, In a (arcs g s) /\ u = tplace_of st a.
  Proof. unfold ts, arc_places. rewrite in_map_iff. intros (a & <- & H). eauto. Qed.
  Local Lemma arc_flag s a : In a (arcs g s) -> flag_like (isy a) = is_diacritic (isy a).
  Proof. intros H. unfold flag_like. rewrite (not_insertion _ (HI s a H)). apply orb_false_r. Qed.
  Local Lemma number_bound x : In x st -> number st x < length st.
  Proof. intros H. apply nth_error_Some. rewrite (number_In st x H). discriminate. Qed.

  Local Lemma free_no_arc s a : In a (arcs g s) -> free_no flags (number st (isy a)) = free_input (isy a).
  Proof.
    intros H. destruct (arc_symbols g s a H) as (HI1 & _). pose proof (number_In st _ HI1) as HN.
    pose proof (arc_input_number g s a H) as X. cbv zeta in X. fold st in X. rewrite (arc_flag s a H) in X.
    unfold free_no, free_input. fold EPS.
    destruct X as [(F & L)|(F & L)]; rewrite F.
    - rewrite orb_false_r. destruct (table_nth_input g _ _ HN L) as [(E & Z)|(_ & E & Z)].
      + rewrite Z. cbn [Nat.eqb orb]. rewrite E. symmetry. apply bstr_eqb_refl.
      + rewrite (proj2 (Nat.eqb_neq _ _) Z), (proj2 (bstr_eqb_neq _ _) E). cbn [orb].
        destruct (is_flag_no flags _) eqn:C; [|reflexivity]. apply is_flag_no_spec, flag_numbers_In in C. unfold seen_inputs in *. lia.
    - rewrite orb_true_r. apply orb_true_iff. right. apply is_flag_no_spec, L.
  Qed.
  Local Lemma free_entry_spec s u : In u (ts s) -> free_entry al (ent u) = free_no flags (tp_input u).
  Proof.
    intros H. destruct (arc_place_input s u H) as (a & Ha & ->). unfold free_entry, ent, entry_of. cbn [te_input tp_input tplace_of].
    rewrite (flag_symbol_spec st al _ HA (symbol_table_NoDup g)).
    destruct (arc_symbols g s a Ha) as (HI1 & _). rewrite (number_In st _ HI1).
    rewrite (free_no_arc s a Ha). unfold free_input. f_equal.
    destruct (bstr_eqb_spec (isy a) (B "@_EPSILON_SYMBOL_@")) as [E|E].
    - rewrite E. reflexivity.
    - apply N.eqb_neq. intros Z. apply E. pose proof (number_In st _ HI1) as X.
      replace (number st (isy a)) with 0 in X by lia. injection X as <-. reflexivity.
  Qed.
  Local Lemma entry_with_spec s u x : In u (ts s) -> entry_with (N.of_nat x) (ent u) = (tp_input u =? x).
  Proof.
    intros H. destruct (arc_place_input s u H) as (a & Ha & ->). unfold entry_with, ent, entry_of. cbn [te_input tp_input tplace_of].
    destruct (arc_symbols g s a Ha) as (HI1 & _). pose proof (number_bound _ HI1). pose proof st_len.
    destruct (N.eqb_spec (N.of_nat (number st (isy a))) OLF_Model.NO_SYMBOL) as [E|_]; [unfold OLF_Model.NO_SYMBOL in E; lia|].
    cbn [negb andb]. destruct (Nat.eqb_spec (number st (isy a)) x) as [-> |D]; [apply N.eqb_refl|]. apply N.eqb_neq. lia.
  Qed.
  Local Lemma ends_free l : ends l -> exists e r, l = e :: r /\ free_entry al e = false.
  Proof.
    intros (m & r & -> & E). exists m, r. split; [reflexivity|]. unfold free_entry. rewrite E.
    change OLF_Model.NO_SYMBOL with (N.of_nat (N.to_nat 65535)). rewrite (flag_symbol_spec st al _ HA (symbol_table_NoDup g)).
    rewrite (proj2 (nth_error_None st (N.to_nat 65535))) by (pose proof st_len; lia). reflexivity.
  Qed.
  Local Lemma ends_with x l : ends l -> exists e r, l = e :: r /\ entry_with x e = false.
  Proof. intros (m & r & -> & E). exists m, r. split; [reflexivity|]. unfold entry_with. rewrite E. reflexivity. Qed.

  (** ** Scans *)
  Local Lemma T_from s k1 k2 : s < n -> keys flags (ph s) = k1 ++ k2 -> exists rest,
    transitions_from t (N.of_nat (first_of s (sts g) + length (in_order (ts s) k1)))
    = map ent (in_order (ts s) k2) ++ rest /\ ends rest.
  Proof.
    intros L E. destruct (T_layout s L) as (rest & H & R & _). exists rest. split; [|exact R].
    pose proof (first_bound s L) as B.
    assert (LE : length (in_order (ts s) k1) <= length (arcs g s)).
    { pose proof (Permutation_length (places_perm flags s (ts s) (ph s) (flag_numbers_ok g) (ph_s s L))) as X.
      rewrite E, in_order_app, app_length in X. unfold ts at 3 in X. unfold arc_places in X. rewrite map_length in X. lia. }
    unfold transitions_from, table_pos. destruct (N.ltb_spec (N.of_nat (first_of s (sts g) + length (in_order (ts s) k1))) TA_OFFSET) as [_|C]; [|lia].
    rewrite Nat2N.id. cbn [t_trans t]. rewrite skipn_add, H, E, in_order_app, map_app, <- app_assoc.
    replace (length (in_order (ts s) k1)) with (length (map ent (in_order (ts s) k1))) by apply map_length.
    apply skipn_app_exact.
  Qed.

  Local Lemma scan_free s : s < n ->
    run_of (free_entry al) (transitions_from t (N.of_nat (first_of s (sts g)))) = Ok (map ent (in_order (ts s) (0 :: flags))).
  Proof.
    intros L. set (others := filter (fun i => negb (is_flag_no flags i)) (seq 1 (vsize (ph s) - 1))).
    destruct (T_from s [] (keys flags (ph s)) L eq_refl) as (rest & H & R).
    change (in_order (ts s) []) with (@nil tplace) in H. cbn [length] in H. rewrite Nat.add_0_r in H. rewrite H.
    change (keys flags (ph s)) with ((0 :: flags) ++ others). rewrite in_order_app, map_app, <- app_assoc.
    apply run_of_stop.
    - apply Forall_forall. intros e He. apply in_map_iff in He. destruct He as (u & <- & Hu). apply in_order_In in Hu.
      destruct Hu as (Hu & Hk). rewrite (free_entry_spec s u Hu). unfold free_no.
      destruct Hk as [<- |Hk]; [reflexivity|]. apply orb_true_iff. right. apply is_flag_no_spec, Hk.
    - destruct (in_order (ts s) others) as [|u r] eqn:E; [apply ends_free, R|].
      cbn [map app]. eexists; eexists. split; [reflexivity|].
      assert (Hu : In u (in_order (ts s) others)) by (rewrite E; left; reflexivity).
      apply in_order_In in Hu. destruct Hu as (Hu & Hk). rewrite (free_entry_spec s u Hu). unfold others in Hk.
      apply filter_In in Hk. destruct Hk as (Hk & F). apply in_seq in Hk. unfold free_no.
      apply negb_true_iff in F. rewrite F, orb_false_r. apply Nat.eqb_neq. lia.
  Qed.

  Local Lemma scan_symbol s x k1 k2 : s < n -> keys flags (ph s) = k1 ++ x :: k2 ->
    run_of (entry_with (N.of_nat x)) (transitions_from t (N.of_nat (first_of s (sts g) + length (in_order (ts s) k1))))
    = Ok (map ent (with_input x (ts s))).
  Proof.
    intros L E. destruct (T_from s k1 (x :: k2) L E) as (rest & H & R). rewrite H.
    rewrite in_order_cons, map_app, <- app_assoc. apply run_of_stop.
    - apply Forall_forall. intros e He. apply in_map_iff in He. destruct He as (u & <- & Hu). apply with_input_In in Hu.
      destruct Hu as (Hu & <-). rewrite (entry_with_spec s u _ Hu). apply Nat.eqb_refl.
    - destruct (in_order (ts s) k2) as [|u r] eqn:E2; [apply ends_with, R|].
      cbn [map app]. eexists; eexists. split; [reflexivity|].
      assert (Hu : In u (in_order (ts s) k2)) by (rewrite E2; left; reflexivity).
      apply in_order_In in Hu. destruct Hu as (Hu & Hk). rewrite (entry_with_spec s u _ Hu). apply Nat.eqb_neq.
      pose proof (keys_NoDup flags (ph s) (flag_numbers_ok g)) as N. rewrite E in N. apply NoDup_remove_2 in N.
      intros C. apply N. apply in_app_iff. right. rewrite <- C. exact Hk.
  Qed.

  (** Scan from the first transition of a simple state. *)
  Local Lemma scan_simple s x : s < n -> is_simple (ph s) = true -> free_no flags x = false ->
    run_of (entry_with (N.of_nat x)) (transitions_from t (N.of_nat (first_of s (sts g)))) = Ok (map ent (with_input x (ts s))).
  Proof.
    intros L S F. destruct (T_from s [] (keys flags (ph s)) L eq_refl) as (rest & H & R).
    change (in_order (ts s) []) with (@nil tplace) in H. cbn [length] in H. rewrite Nat.add_0_r in H. rewrite H. clear H.
    pose proof (ph_s s L) as PH. pose proof (places_perm flags s (ts s) (ph s) (flag_numbers_ok g) PH) as PM.
    destruct (with_input x (ts s)) as [|u0 r0] eqn:W.
    - apply (run_of_stop _ []); [constructor|].
      destruct (in_order (ts s) (keys flags (ph s))) as [|u r] eqn:E; [apply ends_with, R|].
      cbn [map app]. eexists; eexists. split; [reflexivity|].
      assert (Hu : In u (ts s)) by (apply (Permutation_in u PM); left; reflexivity).
      rewrite (entry_with_spec s u _ Hu). apply Nat.eqb_neq. intros C.
      assert (Hw : In u (with_input x (ts s))) by (apply with_input_In; auto). rewrite W in Hw. destruct Hw.
    - assert (ALL : forall u, In u (ts s) -> tp_input u = x).
      { assert (H0 : In u0 (ts s) /\ tp_input u0 = x) by (apply with_input_In; rewrite W; left; reflexivity).
        destruct H0 as (H0 & Hx). destruct PH as (_ & _ & Hc & _ & Ht). unfold is_simple in S.
        destruct (p_type (ph s)) eqn:TY; [rewrite Ht in H0; destruct H0| | |discriminate].
        - destruct Ht as (_ & Ht). specialize (Ht u0 H0). rewrite Hx in Ht. congruence.
        - destruct Ht as (y & _ & Ht). rewrite Ht in Hc. intros u Hu.
          destruct (Hc u0 H0) as [C0|[]]. destruct (Hc u Hu) as [C|[]]. congruence. }
      assert (EQ : in_order (ts s) (keys flags (ph s)) = u0 :: r0).
      { assert (IN : In x (keys flags (ph s))).
        { assert (H0 : In u0 (ts s) /\ tp_input u0 = x) by (apply with_input_In; rewrite W; left; reflexivity).
          destruct H0 as (H0 & <-). apply (keys_cover flags s (ts s) (ph s) PH u0 H0). }
        apply in_split in IN. destruct IN as (k1 & k2 & EK).
        assert (Z : forall ks, ~ In x ks -> in_order (ts s) ks = []).
        { intros ks Hn. destruct (in_order (ts s) ks) as [|u r] eqn:E; [reflexivity|]. exfalso.
          assert (Hu : In u (in_order (ts s) ks)) by (rewrite E; left; reflexivity). apply in_order_In in Hu.
          destruct Hu as (Hu & Hk). rewrite (ALL u Hu) in Hk. exact (Hn Hk). }
        pose proof (keys_NoDup flags (ph s) (flag_numbers_ok g)) as N. rewrite EK in N |- *. apply NoDup_remove_2 in N.
        rewrite in_order_app, in_order_cons, W, (Z k1), (Z k2), app_nil_r; [reflexivity|..];
          intros C; apply N, in_app_iff; auto. }
      rewrite EQ. apply run_of_stop; [|apply ends_with, R].
      apply Forall_forall. intros e He. apply in_map_iff in He. destruct He as (u & <- & Hu).
      rewrite <- W in Hu. apply with_input_In in Hu. destruct Hu as (Hu & <-). rewrite (entry_with_spec s u _ Hu). apply Nat.eqb_refl.
  Qed.

  (** ** The readers *)
  Lemma read_final s : s < n -> final_weight dec t (addr s) = Ok (finw g s).
  Proof.
    intros L. assert (WF : forall w, finw g s = Some w -> dec (enc w) = w /\ enc w <> NO_TABLE_INDEX).
    { intros w Hw. apply HW. right. exists s. exact Hw. }
    unfold final_weight. destruct (is_simple (ph s)) eqn:S.
    - destruct (simple_addr s L S) as (E & P). destruct (T_layout s L) as (_ & _ & _ & H).
      destruct (H (simple_pos s L S)) as (HM & _). pose proof (first_bound s L).
      destruct (N.leb_spec TA_OFFSET (addr s)) as [C|C]; [|lia].
      replace (addr s - TA_OFFSET)%N with (N.of_nat (first_of s (sts g) - 1)) by lia.
      unfold get_transition, table_pos. destruct (N.ltb_spec (N.of_nat (first_of s (sts g) - 1)) TA_OFFSET) as [_|C2]; [|lia].
      rewrite Nat2N.id. cbn [t_trans t]. rewrite HM. cbn [rmap rbind]. unfold marker.
      destruct (finw g s) as [w|]; [|reflexivity]. unfold trans_final, weight_of. cbn [te_input te_output te_target te_weight t_wclass t].
      cbn [N.eqb Pos.eqb andb OLF_Model.NO_SYMBOL]. rewrite (proj1 (WF w eq_refl)). reflexivity.
    - destruct (nonsimple_start s L S) as (i & _ & E & H & _ & B). destruct ix_facts as (B2 & F & _).
      destruct (N.leb_spec TA_OFFSET (addr s)) as [C|C]; [lia|]. rewrite E.
      unfold slot_at in H. destruct (nth_error (k_slots k) i) as [v|] eqn:EV; [|discriminate]. subst v.
      destruct (F _ _ EV) as (e & H1 & H2). rewrite (get_ix i e H1). cbn [rmap rbind].
      unfold index_of_slot in H2. fold (ph s) in H2. rewrite (final_eq s L) in H2.
      destruct (finw g s) as [w|]; injection H2 as <-; [|reflexivity].
      destruct (WF w eq_refl) as (W1 & W2). unfold index_final. cbn [ie_input ie_target t_wclass t].
      rewrite N.eqb_refl, (proj2 (N.eqb_neq _ _) W2). cbn [andb negb]. rewrite W1. reflexivity.
  Qed.

  Lemma read_free s : s < n -> exists hit, free_entries al t (addr s) = Ok (hit, map ent (in_order (ts s) (0 :: flags)))
    /\ (hit = true -> in_order (ts s) (0 :: flags) <> []).
  Proof.
    intros L. unfold free_entries. destruct (is_simple (ph s)) eqn:S.
    - destruct (simple_addr s L S) as (E & P). destruct (N.leb_spec TA_OFFSET (addr s)) as [C|C]; [|lia].
      replace (addr s - TA_OFFSET + 1)%N with (N.of_nat (first_of s (sts g))) by lia.
      rewrite (scan_free s L). exists false. split; [reflexivity|discriminate].
    - destruct (nonsimple_start s L S) as (i & EI & E & H & HQ & B). destruct ix_facts as (B2 & F & _).
      destruct (N.leb_spec TA_OFFSET (addr s)) as [C|C]; [lia|]. rewrite E.
      replace (N.of_nat i + 1)%N with (N.of_nat (i + 1 + 0)) by lia.
      destruct (in_order (ts s) (0 :: flags)) as [|u r] eqn:EO.
      + destruct (index_entry_miss s 0 i L S EI) as (e & H1 & H2); [|pose proof (seen_pos g); unfold symbols in B2; lia|lia|].
        * intros q Hq C0. assert (Hf : free_no flags (fst q) = true).
          { destruct (free_no flags (fst q)) eqn:X; [reflexivity|]. pose proof (iof _ X) as C1. fold flags in C1. rewrite C1 in C0.
            unfold free_no in X. rewrite C0 in X. discriminate. }
          destruct (ph_s s L) as (_ & HG & _). destruct q as (x, l). destruct (HG x l Hq) as (-> & NE). simpl in Hf.
          destruct (with_input x (ts s)) as [|v r] eqn:W; [congruence|].
          assert (Hv : In v (with_input x (ts s))) by (rewrite W; left; reflexivity). apply with_input_In in Hv.
          assert (X : In v (in_order (ts s) (0 :: flags))).
          { apply in_order_In. split; [tauto|]. destruct Hv as (_ & ->). unfold free_no in Hf.
            apply orb_true_iff in Hf. destruct Hf as [Hf|Hf]; [left; apply Nat.eqb_eq in Hf; auto|right; apply is_flag_no_spec, Hf]. }
          rewrite EO in X. destruct X.
        * rewrite (get_ix _ _ H1). cbn [rbind]. destruct (N.eqb_spec (ie_input e) 0) as [C0|_]; [rewrite C0 in H2; simpl in H2; congruence|].
          exists false. split; [reflexivity|discriminate].
      + assert (Hu : In u (in_order (ts s) (0 :: flags))) by (rewrite EO; left; reflexivity). apply in_order_In in Hu.
        destruct Hu as (Hu & Hk).
        assert (Hf : free_no flags (tp_input u) = true).
        { unfold free_no. destruct Hk as [<- |Hk]; [reflexivity|]. apply orb_true_iff. right. apply is_flag_no_spec, Hk. }
        destruct (ph_s s L) as (_ & _ & HC & _). apply HC in Hu. apply in_map_iff in Hu. destruct Hu as (q & Eq & Hq).
        specialize (HQ q Hq). rewrite Eq, (ioz _ Hf) in HQ.
        destruct (index_entry_hit s 0 i L EI HQ) as (o & HO & H1). unfold symbol_offset in HO. cbn [Nat.eqb] in HO. injection HO as <-.
        rewrite (get_ix _ _ H1). cbn [rbind ie_input ie_target]. cbn [N.of_nat N.eqb].
        replace (N.of_nat (first_of s (sts g) + 0) + TA_OFFSET - TA_OFFSET)%N with (N.of_nat (first_of s (sts g))) by lia.
        rewrite (scan_free s L). cbn [rmap rbind]. rewrite EO. exists true. split; [reflexivity|]. intros _. discriminate.
  Qed.

  Lemma read_symbol s x : s < n -> free_no flags x = false -> x < symbols ->
    exists hit, symbol_entries t (addr s) (N.of_nat x) = Ok (hit, map ent (with_input x (ts s)))
    /\ (hit = true -> with_input x (ts s) <> []).
  Proof.
    intros L Fx Lx. unfold symbol_entries. destruct (is_simple (ph s)) eqn:S.
    - destruct (simple_addr s L S) as (E & P). destruct (N.leb_spec TA_OFFSET (addr s)) as [C|C]; [|lia].
      replace (addr s - TA_OFFSET + 1)%N with (N.of_nat (first_of s (sts g))) by lia.
      rewrite (scan_simple s x L S Fx). exists false. split; [reflexivity|discriminate].
    - destruct (nonsimple_start s L S) as (i & EI & E & H & HQ & B). destruct ix_facts as (B2 & F & _).
      destruct (N.leb_spec TA_OFFSET (addr s)) as [C|C]; [lia|]. rewrite E.
      replace (N.of_nat i + 1 + N.of_nat x)%N with (N.of_nat (i + 1 + x)) by lia.
      destruct (with_input x (ts s)) as [|u r] eqn:EO.
      + destruct (index_entry_miss s x i L S EI) as (e & H1 & H2); [|lia| |].
        * intros q Hq C0. assert (Hf : fst q = x).
          { destruct (free_no flags (fst q)) eqn:X.
            - pose proof (ioz _ X) as C1. fold flags in C1. rewrite C1 in C0. unfold free_no in Fx. rewrite <- C0 in Fx. discriminate.
            - pose proof (iof _ X) as C1. fold flags in C1. congruence. }
          destruct (ph_s s L) as (_ & HG & _). destruct q as (x', l). simpl in Hf. subst x'. destruct (HG x l Hq) as (-> & NE). congruence.
        * pose proof st_len. unfold st, symbol_table, symbols, seen_inputs in *. cbn [length] in *. rewrite app_length in *. lia.
        * rewrite (get_ix _ _ H1). cbn [rbind]. destruct (N.eqb_spec (ie_input e) (N.of_nat x)) as [C0|_]; [congruence|].
          exists false. split; [reflexivity|discriminate].
      + assert (Hu : In u (with_input x (ts s))) by (rewrite EO; left; reflexivity). apply with_input_In in Hu. destruct Hu as (Hu & Hx).
        pose proof (ph_s s L) as PH. destruct PH as (_ & _ & HC & _). apply HC in Hu. apply in_map_iff in Hu. destruct Hu as (q & Eq & Hq).
        specialize (HQ q Hq). rewrite Eq, Hx, (iof _ Fx) in HQ.
        destruct (index_entry_hit s x i L EI HQ) as (o & HO & H1).
        destruct (symbol_offset_spec flags s (ts s) (ph s) x (ph_s s L) Fx) as (k1 & k2 & EK & HO2).
        { apply input_present_spec. rewrite <- Hx, <- Eq. apply in_map, Hq. }
        rewrite HO2 in HO. injection HO as <-.
        rewrite (get_ix _ _ H1). cbn [rbind ie_input ie_target]. rewrite N.eqb_refl.
        match goal with |- context [transitions_from t ?p] =>
          replace p with (N.of_nat (first_of s (sts g) + length (in_order (ts s) k1))) by lia end.
        rewrite (scan_symbol s x k1 k2 L EK). cbn [rmap rbind]. rewrite EO. exists true. split; [reflexivity|]. intros _. discriminate.
  Qed.

  (** Numbers that are no input symbols and no flags: nothing is found, but the read may be
      outside the table. *)
  Lemma read_other s x : s < n -> symbols + length (flag_part g) <= x -> (N.of_nat x < 65535)%N ->
    match symbol_entries t (addr s) (N.of_nat x) with Ok r => r = (false, []) | Ub => True | _ => False end.
  Proof.
    intros L Lx Bx.
    assert (Fx : free_no flags x = false).
    { unfold free_no. pose proof (seen_pos g). fold symbols in H. apply orb_false_iff. split; [apply Nat.eqb_neq; lia|].
      destruct (is_flag_no flags x) eqn:C; [|reflexivity]. apply is_flag_no_spec, flag_numbers_In in C. fold symbols in C. lia. }
    assert (W : with_input x (ts s) = []).
    { destruct (with_input x (ts s)) as [|u r] eqn:W; [reflexivity|]. exfalso.
      assert (Hu : In u (with_input x (ts s))) by (rewrite W; left; reflexivity). apply with_input_In in Hu. destruct Hu as (Hu & Hx).
      destruct (arc_place_input s u Hu) as (a & Ha & ->). cbn [tp_input tplace_of] in Hx.
      pose proof (arc_input_number g s a Ha) as X. cbv zeta in X. fold st in X. rewrite Hx in X. fold symbols in X.
      destruct X as [(_ & X)|(_ & X)]; [lia|]. apply flag_numbers_In in X. fold symbols in X. lia. }
    unfold symbol_entries. destruct (is_simple (ph s)) eqn:S.
    - destruct (simple_addr s L S) as (E & P). destruct (N.leb_spec TA_OFFSET (addr s)) as [C|C]; [|lia].
      replace (addr s - TA_OFFSET + 1)%N with (N.of_nat (first_of s (sts g))) by lia.
      rewrite (scan_simple s x L S Fx), W. reflexivity.
    - destruct (nonsimple_start s L S) as (i & EI & E & H & HQ & B). destruct ix_facts as (B2 & F & _).
      destruct (N.leb_spec TA_OFFSET (addr s)) as [C|C]; [lia|]. rewrite E.
      replace (N.of_nat i + 1 + N.of_nat x)%N with (N.of_nat (i + 1 + x)) by lia.
      destruct (Nat.lt_ge_cases (i + 1 + x) (length ix)) as [BX|BX].
      + destruct (index_entry_miss s x i L S EI) as (e & H1 & H2); [|exact BX|exact Bx|].
        * intros q Hq C0. assert (Hf : fst q = x).
          { destruct (free_no flags (fst q)) eqn:X.
            - pose proof (ioz _ X) as C1. fold flags in C1. rewrite C1 in C0. unfold free_no in Fx. rewrite <- C0 in Fx. discriminate.
            - pose proof (iof _ X) as C1. fold flags in C1. congruence. }
          destruct (ph_s s L) as (_ & HG & _). destruct q as (x', l). simpl in Hf. subst x'. destruct (HG x l Hq) as (-> & NE). congruence.
        * rewrite (get_ix _ _ H1). cbn [rbind]. destruct (N.eqb_spec (ie_input e) (N.of_nat x)) as [C0|_]; [congruence|]. reflexivity.
      + unfold get_index, table_pos. destruct (N.ltb_spec (N.of_nat (i + 1 + x)) TA_OFFSET) as [_|C2]; [|lia].
        rewrite Nat2N.id. cbn [t_index t]. rewrite (proj2 (nth_error_None ix _) BX). exact I.
  Qed.

  (** ** Entries stand for arcs *)
  Lemma stands s a : In a (arcs g s) -> stands_for dec (a_table al) addr a (ent (tplace_of st a)).
  Proof.
    intros H. destruct (arc_symbols g s a H) as (H1 & H2). rewrite names. unfold stands_for, ent, entry_of.
    cbn [te_input te_output te_target te_weight tp_input tp_output tp_target tp_weight tplace_of]. rewrite !Nat2N.id.
    split; [apply number_In, H1|]. split; [apply number_In, H2|]. split; [reflexivity|].
    apply HW. left. exists s, a. auto.
  Qed.
  Lemma with_input_arcs s x y : nth_error st x = Some y ->
    with_input x (ts s) = map (tplace_of st) (filter (fun a => bstr_eqb (isy a) y) (arcs g s)).
  Proof.
    intros E. unfold with_input, ts, arc_places. 
    assert (A : forall l, (forall a, In a l -> In a (arcs g s)) ->
      filter (fun t : tplace => tp_input t =? x) (map (tplace_of st) l) = map (tplace_of st) (filter (fun a => bstr_eqb (isy a) y) l)).
    { induction l as [|a l IH]; intros Hl; [reflexivity|]. cbn [map filter tp_input tplace_of].
      assert (EQ : (number st (isy a) =? x) = bstr_eqb (isy a) y).
      { destruct (arc_symbols g s a (Hl a (or_introl eq_refl))) as (H1 & _).
        destruct (bstr_eqb_spec (isy a) y) as [-> |D].
        - apply Nat.eqb_eq. apply number_nth; [apply symbol_table_NoDup|exact E].
        - apply Nat.eqb_neq. intros <-. pose proof (number_In st _ H1) as H3. congruence. }
      rewrite EQ. destruct (bstr_eqb (isy a) y); cbn [map]; rewrite IH by (intros b Hb; apply Hl; right; exact Hb); reflexivity. }
    apply A. auto.
  Qed.
  Lemma free_arcs_perm s : Permutation (in_order (ts s) (0 :: flags)) (map (tplace_of st) (filter (fun a => free_input (isy a)) (arcs g s))).
  Proof.
    assert (E : map (tplace_of st) (filter (fun a => free_input (isy a)) (arcs g s)) = filter (fun u => free_no flags (tp_input u)) (ts s)).
    { unfold ts, arc_places. assert (A : forall l, (forall a, In a l -> In a (arcs g s)) ->
        map (tplace_of st) (filter (fun a => free_input (isy a)) l) = filter (fun u => free_no flags (tp_input u)) (map (tplace_of st) l)).
      { induction l as [|a l IH]; intros Hl; [reflexivity|]. cbn [map filter]. cbn [tp_input tplace_of].
        rewrite (free_no_arc s a (Hl a (or_introl eq_refl))). destruct (free_input (isy a)); cbn [map]; rewrite IH by (intros b Hb; apply Hl; right; exact Hb); reflexivity. }
      apply A. auto. }
    rewrite E. set (f := filter _ _).
    assert (E2 : in_order (ts s) (0 :: flags) = in_order f (0 :: flags)).
    { unfold in_order. f_equal. apply map_ext_in. intros x Hx. unfold f, with_input. generalize (ts s) as l.
      assert (Fx : free_no flags x = true).
      { unfold free_no. destruct Hx as [<- |Hx]; [reflexivity|]. apply orb_true_iff. right. apply is_flag_no_spec, Hx. }
      induction l as [|u l IH]; [reflexivity|]. cbn [filter]. destruct (Nat.eqb_spec (tp_input u) x) as [D|D].
      - rewrite D, Fx. cbn [filter]. rewrite D, Nat.eqb_refl, IH. reflexivity.
      - destruct (free_no flags (tp_input u)); cbn [filter]; [rewrite (proj2 (Nat.eqb_neq _ _) D)|]; exact IH. }
    rewrite E2. apply in_order_perm.
    - destruct (flag_numbers_ok g) as (H1 & H2). constructor; assumption.
    - intros u Hu. unfold f in Hu. apply filter_In in Hu. destruct Hu as (_ & Hu). unfold free_no in Hu.
      apply orb_true_iff in Hu. destruct Hu as [Hu|Hu]; [left; apply Nat.eqb_eq in Hu; auto|right; apply is_flag_no_spec, Hu].
  Qed.
  (** ** What is found at an address, and where an index entry leads *)
  Lemma marker_entry s : s < n -> (TA_OFFSET <= addr s)%N ->
    (addr s + 1 < 2 * TA_OFFSET)%N /\ exists e, get_transition t (addr s) = Ok e /\ te_input e = OLF_Model.NO_SYMBOL.
  Proof.
    intros L C. destruct (is_simple (ph s)) eqn:S.
    - destruct (simple_addr s L S) as (E & P). destruct (T_layout s L) as (_ & _ & _ & H).
      destruct (H (simple_pos s L S)) as (HM & _). pose proof (first_bound s L). split; [lia|].
      exists (marker enc (finw g s)). split; [|unfold marker; destruct (finw g s); reflexivity].
      unfold get_transition, table_pos. destruct (N.ltb_spec (addr s) TA_OFFSET) as [C2|_]; [lia|].
      replace (addr s - TA_OFFSET)%N with (N.of_nat (first_of s (sts g) - 1)) by lia.
      rewrite Nat2N.id. cbn [t_trans t]. rewrite HM. reflexivity.
    - destruct (nonsimple_start s L S) as (i & _ & E & _ & _ & B). destruct ix_facts as (B2 & _). lia.
  Qed.
  Lemma address_bound s : s < n -> (addr s < TA_OFFSET)%N -> (addr s + 65536 < TA_OFFSET)%N.
  Proof.
    intros L C. destruct (is_simple (ph s)) eqn:S.
    - destruct (simple_addr s L S) as (E & P). lia.
    - destruct (nonsimple_start s L S) as (i & _ & E & _ & _ & B). destruct ix_facts as (B2 & _). lia.
  Qed.
  Lemma index_leads j e : get_index t j = Ok e -> ie_input e <> OLF_Model.NO_SYMBOL -> (TA_OFFSET <= ie_target e < 2 * TA_OFFSET)%N.
  Proof.
    intros G NE. unfold get_index in G. cbn [t_index t] in G. destruct (nth_error ix (table_pos j)) as [e'|] eqn:E; [|discriminate].
    injection G as ->. destruct ix_facts as (_ & F & F2).
    destruct (Nat.lt_ge_cases (table_pos j) (length (k_slots k))) as [Lt|Ge].
    - destruct (nth_error (k_slots k) (table_pos j)) as [v|] eqn:EV; [|apply nth_error_None in EV; lia].
      destruct (F _ _ EV) as (e1 & H1 & H2). rewrite E in H1. injection H1 as <-.
      destruct v as [(s, [o|])|]; cbn [index_of_slot] in H2.
      + apply rbind_Ok in H2. destruct H2 as (o' & HO & H2). injection H2 as <-. cbn [ie_target].
        assert (SL : slot_at (k_slots k) (table_pos j) = Some (s, Some o)) by (unfold slot_at; rewrite EV; reflexivity).
        destruct HK as (_ & _ & H3). destruct (H3 _ _ _ SL) as (L & i & _ & H'). destruct H' as (_ & q & Hq & Ho).
        pose proof (first_bound s L) as B. fold (ph s) in HO |- *. fold (ph s) in Hq. rewrite (first_eq s L).
        assert (o' <= length (arcs g s)); [|lia].
        destruct (free_no flags (fst q)) eqn:Fq.
        * rewrite (ioz _ Fq) in Ho. subst o. unfold symbol_offset in HO. cbn [Nat.eqb] in HO. injection HO as <-. lia.
        * rewrite (iof _ Fq) in Ho. subst o.
          destruct (symbol_offset_spec flags s (ts s) (ph s) (fst q) (ph_s s L) Fq) as (k1 & k2 & EK & E2).
          { apply input_present_spec. apply in_map, Hq. }
          rewrite E2 in HO. injection HO as <-.
          pose proof (Permutation_length (places_perm flags s (ts s) (ph s) (flag_numbers_ok g) (ph_s s L))) as X.
          rewrite EK, in_order_app, app_length in X. unfold ts at 3 in X. unfold arc_places in X. rewrite map_length in X. lia.
      + destruct (p_final _); injection H2 as <-; cbn [ie_input blank_index] in NE; congruence.
      + injection H2 as <-. cbn [ie_input blank_index] in NE. congruence.
    - rewrite F2 in E by (try exact Ge; apply nth_error_Some; congruence). injection E as <-. cbn [ie_input blank_index] in NE. congruence.
  Qed.
End Read.
