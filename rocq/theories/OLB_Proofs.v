(** Proofs about reading the tables back: the positions found for a state. *)
From Coq Require Import Sorted Permutation NArith.
From Verif Require Import Base OrdMap Flags_Model BT_Model BT_Spec An_Model LK_Model OLF_Model OLF_Proofs OLC_Model OLL_Model OLC_Spec OLC_Proofs OLC_Proofs2 OLC_Proofs3 OLC_Proofs4 OLC_Proofs5 OLC_Proofs6.

Definition places (pos : N) (n : nat) : list N := map (fun j => (pos + N.of_nat j)%N) (seq 0 n).
Lemma places_S pos n : places pos (S n) = pos :: places (pos + 1) n.
Proof.
  unfold places. cbn [seq map]. f_equal; [lia|]. rewrite <- seq_shift, map_map. apply map_ext. intros j. lia.
Qed.
Lemma In_places pos n p : In p (places pos n) <-> exists j, j < n /\ p = (pos + N.of_nat j)%N.
Proof.
  unfold places. rewrite in_map_iff. split.
  - intros (j & <- & H). apply in_seq in H. exists j. split; [lia|reflexivity].
  - intros (j & H & ->). exists j. split; [reflexivity|]. apply in_seq. lia.
Qed.
Lemma positions_while_stop test : forall A B pos, Forall (fun e => test e = true) A ->
  (exists e r, B = e :: r /\ test e = false) -> positions_while test pos (A ++ B) = Ok (places pos (length A)).
Proof.
  induction A as [|a A IH]; intros B pos HA HB.
  - destruct HB as (e & r & -> & E). cbn [app positions_while]. rewrite E. reflexivity.
  - inversion_clear HA as [|? ? Ha HA']. cbn [app positions_while length]. rewrite Ha, (IH B (pos + 1)%N HA' HB), places_S. reflexivity.
Qed.
Lemma like_epsilon_run_stop al k : forall A B pos,
  Forall (fun e => entry_with k e = true \/ te_input e = 0%N \/ is_like_epsilon al (te_input e) = true) A ->
  (exists e r, B = e :: r /\ entry_with k e = false /\ te_input e <> 0%N /\ is_like_epsilon al (te_input e) = false) ->
  exists l, like_epsilon_run al k pos (A ++ B) = Ok l /\
    forall p, In p l <-> exists j e, nth_error A j = Some e /\ entry_with k e = true /\ p = (pos + N.of_nat j)%N.
Proof.
  induction A as [|a A IH]; intros B pos HA HB.
  - destruct HB as (e & r & -> & E1 & E2 & E3). exists []. split.
    + cbn [app like_epsilon_run]. rewrite E1, E3, (proj2 (N.eqb_neq _ _) E2). reflexivity.
    + intros p. split; [intros []|]. intros ([|j] & e' & H & _); discriminate.
  - inversion_clear HA as [|? ? Ha HA']. destruct (IH B (pos + 1)%N HA' HB) as (l & E & H).
    assert (SH : forall p, (exists j e, nth_error A j = Some e /\ entry_with k e = true /\ p = (pos + 1 + N.of_nat j)%N)
      <-> exists j e, nth_error (a :: A) (S j) = Some e /\ entry_with k e = true /\ p = (pos + N.of_nat (S j))%N).
    { intros p. split; intros (j & e & H1 & H2 & H3); exists j, e; (split; [exact H1|split; [exact H2|lia]]). }
    cbn [app like_epsilon_run]. destruct (entry_with k a) eqn:W.
    + exists (pos :: l). rewrite E. split; [reflexivity|]. intros p. cbn [In]. rewrite H, SH. split.
      * intros [<- |(j & e & X)]; [exists 0, a; cbn [nth_error]; split; [reflexivity|split; [exact W|lia]]|exists (S j), e; exact X].
      * intros ([|j] & e & X1 & X2 & X3); [left; lia|right; exists j, e; auto].
    + exists l. split.
      * destruct Ha as [C|[C|C]]; [congruence| |]; [rewrite C|rewrite C]; cbn [N.eqb negb andb]; [exact E|]. rewrite andb_false_r. exact E.
      * intros p. rewrite H, SH. split; [intros (j & e & X); exists (S j), e; exact X|].
        intros ([|j] & e & X1 & X2 & X3); [cbn [nth_error] in X1; injection X1 as <-; congruence|exists j, e; auto].
Qed.

Section Positions.
  Variable enc : Z -> N.
  Variable dec : N -> Z.
  Variable g : graph.
  Variable k : packing.
  Variable ix : list index_entry.
  Variable al : alphabet.
  Let st := symbol_table g.
  Let flags := flag_numbers g.
  Let ps := placeholders g.
  Let n := length (sts g).
  Let symbols := seen_inputs g.
  Let T := transition_table enc flags ps (k_starts k).
  Let t := {| t_wclass := true; t_index := ix; t_trans := T |}.
  Hypothesis HS : structure_ok g.
  Hypothesis HI : no_insertions g.
  Hypothesis HW : faithful enc dec g.
  Hypothesis HP : pack flags symbols 0 ps packing0 = Ok k.
  Hypothesis HX : index_table enc flags symbols ps (k_slots k) = Ok ix.
  Hypothesis HA : alphabet_of_table st = Ok al.
  Hypothesis HN1 : (N.of_nat (length ix) + 65536 < TA_OFFSET)%N.
  Hypothesis HN2 : (N.of_nat (length T) < TA_OFFSET)%N.

  Let ent := entry_of enc ps (k_starts k).
  Let ts (s : nat) := arc_places g s.
  Let ph (s : nat) := nth s ps no_placeholder.
  Let addr := addr g k.
  Let F (s : nat) := first_of s (sts g).
  (** The entries of state [s] in the order of the table. *)
  Definition ord (s : nat) : list tplace := in_order (arc_places g s) (keys (flag_numbers g) (nth s (placeholders g) no_placeholder)).

  Local Lemma simple_addr s : s < n -> is_simple (ph s) = true -> addr s = (N.of_nat (F s - 1) + TA_OFFSET)%N /\ 0 < F s.
  Proof. exact (OLC_Proofs6.simple_addr enc g k ix HN1 HN2 s). Qed.
  Local Lemma nonsimple_start s : s < n -> is_simple (ph s) = false -> exists i,
    nth s (k_starts k) None = Some i /\ addr s = N.of_nat i /\ slot_at (k_slots k) i = Some (s, None)
    /\ (forall q, In q (p_groups (ph s)) -> slot_at (k_slots k) (i + index_offset flags (fst q) + 1) = Some (s, Some (index_offset flags (fst q))))
    /\ i < length (k_slots k).
  Proof. exact (OLC_Proofs6.nonsimple_start g k HP s). Qed.
  Local Lemma T_from s k1 k2 : s < n -> keys flags (ph s) = k1 ++ k2 -> exists rest,
    skipn (F s + length (in_order (ts s) k1)) T = map ent (in_order (ts s) k2) ++ rest /\ ends rest.
  Proof.
    intros L E. pose proof (OLC_Proofs6.first_bound enc g k ix HN1 HN2 s L) as B. fold flags ps T in B.
    pose proof (Permutation_length (places_perm flags s (ts s) (ph s) (flag_numbers_ok g) (OLC_Proofs6.ph_s g s L))) as X.
    rewrite E, in_order_app, app_length in X. unfold ts at 3 in X. unfold arc_places in X. rewrite map_length in X.
    destruct (OLC_Proofs6.T_from enc g k ix HN1 HN2 s k1 k2 L E) as (rest & H & R).
    exists rest. split; [|exact R]. unfold transitions_from, table_pos in H. cbn [t_trans] in H.
    destruct (N.ltb_spec (N.of_nat (first_of s (sts g) + length (in_order (arc_places g s) k1))) TA_OFFSET) as [_|C];
      [|fold (ts s) in C; lia].
    rewrite Nat2N.id in H. exact H.
  Qed.
  Local Lemma from_offset p : (N.of_nat p < TA_OFFSET)%N -> transitions_from t (N.of_nat p + TA_OFFSET) = skipn p T.
  Proof.
    intros L. unfold transitions_from, table_pos. destruct (N.ltb_spec (N.of_nat p + TA_OFFSET) TA_OFFSET) as [C|_]; [lia|].
    rewrite N.add_sub, Nat2N.id. reflexivity.
  Qed.
  Local Lemma first_bound s : s < n -> F s + length (ord s) < length T.
  Proof.
    intros L. pose proof (OLC_Proofs6.first_bound enc g k ix HN1 HN2 s L) as B. fold flags ps T in B.
    change (ord s) with (in_order (ts s) (keys flags (ph s))). rewrite (Permutation_length (places_perm flags s (ts s) (ph s) (flag_numbers_ok g) (OLC_Proofs6.ph_s g s L))).
    unfold ts, arc_places. rewrite map_length. exact B.
  Qed.
  Lemma ord_perm s : s < n -> Permutation (ord s) (map (tplace_of st) (arcs g s)).
  Proof. intros L. exact (places_perm flags s (ts s) (ph s) (flag_numbers_ok g) (OLC_Proofs6.ph_s g s L)). Qed.
  Local Lemma ord_ts s u : s < n -> In u (ord s) -> In u (ts s).
  Proof. intros L. apply Permutation_in, ord_perm, L. Qed.

  Lemma entry_at s j u : s < n -> nth_error (ord s) j = Some u ->
    get_transition t (N.of_nat (F s) + TA_OFFSET + N.of_nat j) = Ok (ent u).
  Proof.
    intros L H. pose proof (first_bound s L) as B. assert (j < length (ord s)) by (apply nth_error_Some; congruence).
    unfold get_transition, table_pos. destruct (N.ltb_spec (N.of_nat (F s) + TA_OFFSET + N.of_nat j) TA_OFFSET) as [C|_]; [lia|].
    replace (N.to_nat (N.of_nat (F s) + TA_OFFSET + N.of_nat j - TA_OFFSET)) with (F s + j) by lia.
    cbn [t_trans t]. destruct (T_from s [] (keys flags (ph s)) L eq_refl) as (rest & E & _).
    change (length (in_order (ts s) [])) with 0 in E. rewrite Nat.add_0_r in E.
    assert (X : nth_error (skipn (F s) T) j = Some (ent u)).
    { rewrite E, nth_error_app1; [|rewrite map_length; exact H0]. apply map_nth_error. exact H. }
    assert (Y : nth_error T (F s + j) = Some (ent u)).
    { rewrite <- X. rewrite <- (firstn_skipn (F s) T) at 1. rewrite nth_error_app2; [|rewrite firstn_length; lia].
      rewrite firstn_length. replace (F s + j - Nat.min (F s) (length T)) with j by lia. reflexivity. }
    rewrite Y. reflexivity.
  Qed.

  (** ** One symbol *)
  Local Lemma like_arc s a : In a (arcs g s) -> is_like_epsilon al (N.of_nat (number st (isy a))) = is_diacritic (isy a).
  Proof.
    intros H. destruct (arc_symbols g s a H) as (H1 & _). pose proof (number_In st _ H1) as HN.
    unfold is_like_epsilon. rewrite (flag_symbol_spec st al _ HA (symbol_table_NoDup g)), HN.
    rewrite (OLC_Proofs6.names g al HA), Nat2N.id. fold st. rewrite HN, (not_insertion _ (HI s a H)), andb_false_r. apply orb_false_r.
  Qed.
  Local Lemma like_no_symbol : is_like_epsilon al OLF_Model.NO_SYMBOL = false.
  Proof.
    unfold is_like_epsilon. pose proof (OLC_Proofs6.st_len g al HA) as B. fold st in B.
    change OLF_Model.NO_SYMBOL with (N.of_nat (N.to_nat 65535)). rewrite (flag_symbol_spec st al _ HA (symbol_table_NoDup g)).
    rewrite (OLC_Proofs6.names g al HA), Nat2N.id. fold st. rewrite (proj2 (nth_error_None st (N.to_nat 65535))) by lia. reflexivity.
  Qed.
  Local Lemma free_like s u : In u (ts s) -> free_no flags (tp_input u) = true <-> tp_input u = 0 \/ is_like_epsilon al (N.of_nat (tp_input u)) = true.
  Proof.
    intros H. destruct (OLC_Proofs6.arc_place_input g s u H) as (a & Ha & ->). cbn [tp_input tplace_of]. fold st.
    pose proof (OLC_Proofs6.free_no_arc enc g k ix HI HN1 HN2 s a Ha) as X. fold st flags in X. rewrite X, (like_arc s a Ha).
    unfold free_input. rewrite orb_true_iff. destruct (arc_symbols g s a Ha) as (H1 & _). fold st in H1. pose proof (number_In st _ H1) as Y.
    split; intros [E|E]; auto.
    - left. apply bstr_eqb_eq in E. rewrite E. apply number_eps.
    - left. rewrite E in Y. injection Y as <-. reflexivity.
  Qed.
  Local Lemma entry_with_spec s u x : In u (ts s) -> entry_with (N.of_nat x) (ent u) = (tp_input u =? x).
  Proof. exact (OLC_Proofs6.entry_with_spec enc g k ix al HA HN1 HN2 s u x). Qed.

  Definition found (s : nat) (P : tplace -> Prop) (l : list N) : Prop :=
    forall p, In p l <-> exists j u, nth_error (ord s) j = Some u /\ P u /\ p = (N.of_nat (first_of s (sts g)) + TA_OFFSET + N.of_nat j)%N.

  Local Lemma nth_app3 (A : Type) (l1 l2 l3 : list A) j u : nth_error (l1 ++ l2 ++ l3) j = Some u ->
    (exists j', j = length l1 + j' /\ j' < length l2 /\ nth_error l2 j' = Some u) \/ In u l1 \/ In u l3.
  Proof.
    intros H. destruct (Nat.lt_ge_cases j (length l1)) as [L|L].
    - rewrite nth_error_app1 in H by exact L. right. left. eapply nth_error_In, H.
    - rewrite nth_error_app2 in H by exact L. destruct (Nat.lt_ge_cases (j - length l1) (length l2)) as [L2|L2].
      + rewrite nth_error_app1 in H by exact L2. left. exists (j - length l1). split; [lia|]. auto.
      + rewrite nth_error_app2 in H by exact L2. right. right. eapply nth_error_In, H.
  Qed.

  Local Lemma block s x k1 k2 : s < n -> keys flags (ph s) = k1 ++ x :: k2 ->
    exists l, positions_while (entry_with (N.of_nat x)) (N.of_nat (F s + length (in_order (ts s) k1)) + TA_OFFSET)
      (transitions_from t (N.of_nat (F s + length (in_order (ts s) k1)) + TA_OFFSET)) = Ok l
    /\ found s (fun u => tp_input u = x) l.
  Proof.
    intros L E. destruct (T_from s k1 (x :: k2) L E) as (rest & H & R). pose proof (first_bound s L) as B.
    assert (OE : ord s = in_order (ts s) k1 ++ with_input x (ts s) ++ in_order (ts s) k2).
    { change (ord s) with (in_order (ts s) (keys flags (ph s))). rewrite E, in_order_app, in_order_cons. reflexivity. }
    assert (LE : length (ord s) = length (in_order (ts s) k1) + (length (with_input x (ts s)) + length (in_order (ts s) k2))).
    { rewrite OE, !app_length. reflexivity. }
    pose proof (keys_NoDup flags (ph s) (flag_numbers_ok g)) as ND. rewrite E in ND. apply NoDup_remove_2 in ND. rewrite in_app_iff in ND.
    rewrite from_offset, H by lia. rewrite in_order_cons, map_app, <- app_assoc.
    eexists. split.
    - apply positions_while_stop.
      + apply Forall_forall. intros e He. apply in_map_iff in He. destruct He as (u & <- & Hu). apply with_input_In in Hu.
        destruct Hu as (Hu & <-). rewrite (entry_with_spec s u _ Hu). apply Nat.eqb_refl.
      + destruct (in_order (ts s) k2) as [|u r] eqn:E2; [exact (OLC_Proofs6.ends_with _ rest R)|].
        cbn [map app]. eexists; eexists. split; [reflexivity|].
        assert (Hu : In u (in_order (ts s) k2)) by (rewrite E2; left; reflexivity).
        apply in_order_In in Hu. destruct Hu as (Hu & Hk). rewrite (entry_with_spec s u _ Hu). apply Nat.eqb_neq. intros C. rewrite C in Hk. tauto.
    - intros p. rewrite In_places, map_length, OE. split.
      + intros (j & Hj & ->). destruct (nth_error (with_input x (ts s)) j) as [u|] eqn:EU; [|apply nth_error_None in EU; lia].
        exists (length (in_order (ts s) k1) + j), u. split; [|split].
        * rewrite nth_error_app2 by lia. replace (length (in_order (ts s) k1) + j - length (in_order (ts s) k1)) with j by lia.
          rewrite nth_error_app1 by exact Hj. exact EU.
        * apply nth_error_In, with_input_In in EU. tauto.
        * fold (F s). lia.
      + intros (j & u & HU & Hx & ->). apply nth_app3 in HU. destruct HU as [(j' & -> & Hj & HU)|[HU|HU]].
        * exists j'. split; [exact Hj|]. fold (F s). lia.
        * apply in_order_In in HU. rewrite Hx in HU. tauto.
        * apply in_order_In in HU. rewrite Hx in HU. tauto.
  Qed.

  Local Lemma free_block s x : s < n -> is_like_epsilon al (N.of_nat x) = true ->
    exists l, like_epsilon_run al (N.of_nat x) (N.of_nat (F s) + TA_OFFSET) (transitions_from t (N.of_nat (F s) + TA_OFFSET)) = Ok l
    /\ found s (fun u => tp_input u = x) l.
  Proof.
    intros L Lx. set (others := filter (fun i => negb (is_flag_no flags i)) (seq 1 (vsize (ph s) - 1))).
    pose proof (first_bound s L) as B.
    destruct (T_from s [] (keys flags (ph s)) L eq_refl) as (rest & H & R).
    change (length (in_order (ts s) [])) with 0 in H. rewrite Nat.add_0_r in H. rewrite from_offset, H by lia.
    change (keys flags (ph s)) with ((0 :: flags) ++ others). rewrite in_order_app, map_app, <- app_assoc.
    assert (OE : ord s = in_order (ts s) (0 :: flags) ++ in_order (ts s) others).
    { exact (in_order_app (ts s) (0 :: flags) others). }
    assert (NF : forall u, In u (in_order (ts s) others) -> free_no flags (tp_input u) = false /\ In u (ts s)).
    { intros u Hu. apply in_order_In in Hu. destruct Hu as (Hu & Hk). split; [|exact Hu]. apply filter_In in Hk. destruct Hk as (Hk & Fk).
      apply in_seq in Hk. unfold free_no. apply negb_true_iff in Fk. rewrite Fk, orb_false_r. apply Nat.eqb_neq. lia. }
    assert (NX : forall u, In u (in_order (ts s) others) -> tp_input u <> x).
    { intros u Hu C. destruct (NF u Hu) as (H1 & H2). assert (free_no flags (tp_input u) = true) by (apply (free_like s u H2); right; rewrite C; exact Lx). congruence. }
    destruct (like_epsilon_run_stop al (N.of_nat x) (map ent (in_order (ts s) (0 :: flags))) (map ent (in_order (ts s) others) ++ rest)
                (N.of_nat (F s) + TA_OFFSET)%N) as (l & E & HL).
    - apply Forall_forall. intros e He. apply in_map_iff in He. destruct He as (u & <- & Hu). apply in_order_In in Hu. destruct Hu as (Hu & Hk).
      right. unfold ent, entry_of. cbn [te_input]. assert (FN : free_no flags (tp_input u) = true).
      { unfold free_no. destruct Hk as [<- |Hk]; [reflexivity|]. apply orb_true_iff. right. apply is_flag_no_spec, Hk. }
      apply (free_like s u Hu) in FN. destruct FN as [-> |FN]; [left; reflexivity|right; exact FN].
    - destruct (in_order (ts s) others) as [|u r] eqn:E2.
      + destruct R as (m & r & -> & E). exists m, r. rewrite E. split; [reflexivity|]. split; [unfold entry_with; rewrite E; reflexivity|].
        split; [discriminate|exact like_no_symbol].
      + cbn [map app]. eexists; eexists. split; [reflexivity|].
        destruct (NF u (or_introl eq_refl)) as (H1 & H2). split; [rewrite (entry_with_spec s u x H2); apply Nat.eqb_neq, NX; left; reflexivity|].
        unfold ent, entry_of. cbn [te_input]. split.
        * intros C. assert (X : free_no flags (tp_input u) = true) by (apply (free_like s u H2); left; lia). congruence.
        * destruct (is_like_epsilon al (N.of_nat (tp_input u))) eqn:C; [|reflexivity].
          assert (X : free_no flags (tp_input u) = true) by (apply (free_like s u H2); right; exact C). congruence.
    - exists l. split; [exact E|]. intros p. rewrite HL, OE. split.
      + intros (j & e & H1 & H2 & ->). assert (Hj : j < length (map ent (in_order (ts s) (0 :: flags)))) by (apply nth_error_Some; congruence).
        rewrite map_length in Hj. destruct (nth_error (in_order (ts s) (0 :: flags)) j) as [u|] eqn:EU; [|apply nth_error_None in EU; lia].
        rewrite (map_nth_error ent _ _ EU) in H1. injection H1 as <-. exists j, u. rewrite nth_error_app1 by exact Hj.
        split; [exact EU|]. split; [|reflexivity]. apply nth_error_In, in_order_In in EU. rewrite (entry_with_spec s u x (proj1 EU)) in H2.
        apply Nat.eqb_eq, H2.
      + intros (j & u & H1 & H2 & ->). destruct (Nat.lt_ge_cases j (length (in_order (ts s) (0 :: flags)))) as [Lj|Lj].
        * rewrite nth_error_app1 in H1 by exact Lj. exists j, (ent u). split; [apply map_nth_error, H1|]. split; [|reflexivity].
          apply nth_error_In, in_order_In in H1. rewrite (entry_with_spec s u x (proj1 H1)). apply Nat.eqb_eq, H2.
        * rewrite nth_error_app2 in H1 by exact Lj. apply nth_error_In in H1. destruct (NX u H1 H2).
  Qed.
  Local Lemma found_nothing s x : s < n -> with_input x (ts s) = [] -> found s (fun u => tp_input u = x) [].
  Proof.
    intros L W p. split; [intros []|]. intros (j & u & H & Hx & _). apply nth_error_In, (ord_ts s u L) in H.
    assert (X : In u (with_input x (ts s))) by (apply with_input_In; auto). rewrite W in X. destruct X.
  Qed.

  (** The read of the index entry for epsilon. *)
  Local Lemma eps_index s i : s < n -> is_simple (ph s) = false -> nth s (k_starts k) None = Some i ->
    (forall q, In q (p_groups (ph s)) -> slot_at (k_slots k) (i + index_offset flags (fst q) + 1) = Some (s, Some (index_offset flags (fst q)))) ->
    i < length (k_slots k) ->
    exists e, get_index t (N.of_nat i + 1) = Ok e /\
      (in_order (ts s) (0 :: flags) = [] /\ ie_input e <> 0%N
       \/ ie_input e = 0%N /\ ie_target e = (N.of_nat (F s) + TA_OFFSET)%N).
  Proof.
    intros L S EI HQ B. destruct (OLC_Proofs6.ix_facts enc g k ix HP HX) as (B2 & _ & _).
    replace (N.of_nat i + 1)%N with (N.of_nat (i + 1 + 0)) by lia.
    destruct (in_order (ts s) (0 :: flags)) as [|u r] eqn:EO.
    - destruct (OLC_Proofs6.index_entry_miss enc g k ix HP HX HN1 HN2 s 0 i L S EI) as (e & H1 & H2); [|pose proof (seen_pos g); lia|lia|].
      + intros q Hq C0. assert (Hf : free_no flags (fst q) = true).
        { destruct (free_no flags (fst q)) eqn:X; [reflexivity|]. pose proof (OLC_Proofs6.iof g _ X) as C1. fold flags in C1, C0. rewrite C1 in C0.
          unfold free_no in X. rewrite C0 in X. discriminate. }
        destruct (OLC_Proofs6.ph_s g s L) as (_ & HG & _). destruct q as (x, l). destruct (HG x l Hq) as (-> & NE). simpl in Hf.
        destruct (with_input x (ts s)) as [|v r] eqn:W; [fold (ts s) in NE; congruence|].
        assert (Hv : In v (with_input x (ts s))) by (rewrite W; left; reflexivity). apply with_input_In in Hv.
        assert (X : In v (in_order (ts s) (0 :: flags))).
        { apply in_order_In. split; [tauto|]. destruct Hv as (_ & ->). unfold free_no in Hf.
          apply orb_true_iff in Hf. destruct Hf as [Hf|Hf]; [left; apply Nat.eqb_eq in Hf; auto|right; apply is_flag_no_spec, Hf]. }
        rewrite EO in X. destruct X.
      + exists e. split; [exact (OLC_Proofs6.get_ix enc g k ix HN1 HN2 _ _ H1)|]. left. auto.
    - assert (Hu : In u (in_order (ts s) (0 :: flags))) by (rewrite EO; left; reflexivity). apply in_order_In in Hu.
      destruct Hu as (Hu & Hk).
      assert (Hf : free_no flags (tp_input u) = true).
      { unfold free_no. destruct Hk as [<- |Hk]; [reflexivity|]. apply orb_true_iff. right. apply is_flag_no_spec, Hk. }
      destruct (OLC_Proofs6.ph_s g s L) as (_ & _ & HC & _). apply HC in Hu. apply in_map_iff in Hu. destruct Hu as (q & Eq & Hq).
      specialize (HQ q Hq). rewrite Eq in HQ. pose proof (OLC_Proofs6.ioz g _ Hf) as Z. fold flags in Z. rewrite Z in HQ.
      destruct (OLC_Proofs6.index_entry_hit enc g k ix HP HX HN1 HN2 s 0 i L EI HQ) as (o & HO & H1).
      unfold symbol_offset in HO. cbn [Nat.eqb] in HO. injection HO as <-.
      eexists. split; [exact (OLC_Proofs6.get_ix enc g k ix HN1 HN2 _ _ H1)|]. right. cbn [ie_input ie_target]. split; [reflexivity|]. fold (F s). lia.
  Qed.

  (** What is read for number [x] in a state with an index. *)
  Lemma read_positions s x : s < n -> is_simple (ph s) = false -> (N.of_nat x < 65535)%N ->
    (exists l, state_positions al t (addr s) (N.of_nat x) = Ok l /\ found s (fun u => tp_input u = x) l)
    \/ state_positions al t (addr s) (N.of_nat x) = Ub /\ symbols <= x /\ is_like_epsilon al (N.of_nat x) = false.
  Proof.
    intros L S Bx. destruct (nonsimple_start s L S) as (i & EI & E & H & HQ & B). rewrite E.
    destruct (OLC_Proofs6.ix_facts enc g k ix HP HX) as (B2 & _ & _). fold symbols in B2.
    destruct (eps_index s i L S EI HQ B) as (e0 & HE0 & CE). unfold state_positions.
    destruct (is_like_epsilon al (N.of_nat x)) eqn:LK.
    - left. rewrite HE0. cbn [rbind]. destruct CE as [(NO & C)|(C1 & C2)].
      + unfold entry_with. cbn [te_input]. rewrite (proj2 (N.eqb_neq _ _) C), andb_false_r. exists []. split; [reflexivity|].
        apply (found_nothing s x L). destruct (with_input x (ts s)) as [|u r] eqn:W; [reflexivity|]. exfalso.
        assert (Hu : In u (with_input x (ts s))) by (rewrite W; left; reflexivity). apply with_input_In in Hu. destruct Hu as (Hu & Hx).
        assert (FN : free_no flags (tp_input u) = true) by (apply (free_like s u Hu); right; rewrite Hx; exact LK).
        assert (X : In u (in_order (ts s) (0 :: flags))).
        { apply in_order_In. split; [exact Hu|]. unfold free_no in FN. apply orb_true_iff in FN.
          destruct FN as [FN|FN]; [left; apply Nat.eqb_eq in FN; auto|right; apply is_flag_no_spec, FN]. }
        rewrite NO in X. destruct X.
      + unfold entry_with at 1. cbn [te_input]. rewrite C1, C2. cbn [N.eqb negb andb]. exact (free_block s x L LK).
    - destruct (Nat.eq_dec x 0) as [-> |NZ].
      + left. replace (N.of_nat i + 1 + N.of_nat 0)%N with (N.of_nat i + 1)%N by lia. rewrite HE0. cbn [rbind].
        destruct CE as [(NO & C)|(C1 & C2)].
        * rewrite (proj2 (N.eqb_neq (ie_input e0) (N.of_nat 0)) C), andb_false_r. exists []. split; [reflexivity|].
          apply (found_nothing s 0 L). destruct (with_input 0 (ts s)) as [|u r] eqn:W; [reflexivity|].
          rewrite in_order_cons, W in NO. discriminate.
        * rewrite C1, C2. cbn [N.eqb negb andb N.of_nat].
          destruct (block s 0 [] (flags ++ filter (fun i => negb (is_flag_no flags i)) (seq 1 (vsize (ph s) - 1))) L eq_refl) as (l & HL & HF).
          change (length (in_order (ts s) [])) with 0 in HL. rewrite Nat.add_0_r in HL. exists l. auto.
      + replace (N.of_nat i + 1 + N.of_nat x)%N with (N.of_nat (i + 1 + x)) by lia.
        destruct (with_input x (ts s)) as [|u r] eqn:W.
        * destruct (Nat.lt_ge_cases (i + 1 + x) (length ix)) as [BX|BX].
          -- left. destruct (OLC_Proofs6.index_entry_miss enc g k ix HP HX HN1 HN2 s x i L S EI) as (e & H1 & H2); [|exact BX|exact Bx|].
             ++ intros q Hq C0. assert (Hf : fst q = x).
                { fold flags in C0. destruct (free_no flags (fst q)) eqn:X.
                  - pose proof (OLC_Proofs6.ioz g _ X) as C1. fold flags in C1. congruence.
                  - pose proof (OLC_Proofs6.iof g _ X) as C1. fold flags in C1. congruence. }
                destruct (OLC_Proofs6.ph_s g s L) as (_ & HG & _). destruct q as (x', l). simpl in Hf. subst x'.
                destruct (HG x l Hq) as (-> & NE). exact (NE W).
             ++ pose proof (OLC_Proofs6.get_ix enc g k ix HN1 HN2 _ _ H1) as HG. fold flags ps T t in HG. rewrite HG. cbn [rbind].
                rewrite (proj2 (N.eqb_neq _ _) H2), andb_false_r. exists []. split; [reflexivity|]. exact (found_nothing s x L W).
          -- right. split; [|split; [|reflexivity]].
             ++ unfold get_index, table_pos. destruct (N.ltb_spec (N.of_nat (i + 1 + x)) TA_OFFSET) as [_|C2]; [|lia].
                rewrite Nat2N.id. cbn [t_index t]. rewrite (proj2 (nth_error_None ix _) BX). reflexivity.
             ++ lia.
        * left. assert (Hu : In u (with_input x (ts s))) by (rewrite W; left; reflexivity). apply with_input_In in Hu. destruct Hu as (Hu & Hx).
          assert (Fx : free_no flags x = false).
          { destruct (free_no flags x) eqn:C; [|reflexivity]. rewrite <- Hx in C. apply (free_like s u Hu) in C. rewrite Hx in C. destruct C; congruence. }
          pose proof (OLC_Proofs6.ph_s g s L) as PH. destruct PH as (_ & _ & HC & _). apply HC in Hu. apply in_map_iff in Hu. destruct Hu as (q & Eq & Hq).
          specialize (HQ q Hq). rewrite Eq, Hx in HQ. pose proof (OLC_Proofs6.iof g _ Fx) as Z. fold flags in Z. rewrite Z in HQ.
          destruct (OLC_Proofs6.index_entry_hit enc g k ix HP HX HN1 HN2 s x i L EI HQ) as (o & HO & H1).
          destruct (symbol_offset_spec flags s (ts s) (ph s) x (OLC_Proofs6.ph_s g s L) Fx) as (k1 & k2 & EK & HO2).
          { apply input_present_spec. rewrite <- Hx, <- Eq. apply in_map, Hq. }
          fold flags ps in HO. fold (ph s) in HO. rewrite HO2 in HO. injection HO as <-.
          pose proof (OLC_Proofs6.get_ix enc g k ix HN1 HN2 _ _ H1) as HG. fold flags ps T t in HG. rewrite HG. cbn [rbind ie_input ie_target].
          rewrite N.eqb_refl. destruct (N.eqb_spec (N.of_nat x) OLF_Model.NO_SYMBOL) as [C|_]; [unfold OLF_Model.NO_SYMBOL in C; lia|].
          cbn [negb andb]. exact (block s x k1 k2 L EK).
  Qed.

  (** ** A whole state *)
  Local Lemma In_collect (l : list N) : forall acc p, In p (fold_left (fun acc p => sadd N.compare p acc) l acc) <-> In p acc \/ In p l.
  Proof.
    induction l as [|a l IH]; intros acc p; cbn [fold_left]; [cbn [In]; tauto|].
    rewrite IH, (In_sadd N.compare N.compare_eq_iff). cbn [In]. intuition congruence.
  Qed.
  Variable h : header.
  Hypothesis HH : h_symbols h = N.of_nat (length st).
  Local Lemma rseq_positions (f : nat -> res (list N)) (Q : nat -> tplace -> Prop) (bad : nat -> Prop) s : forall ks,
    (forall x, In x ks -> (exists l, f x = Ok l /\ found s (Q x) l) \/ f x = Ub /\ bad x) ->
    (exists ls, rseq (map f ks) = Ok ls /\ found s (fun u => exists x, In x ks /\ Q x u) (concat ls))
    \/ rseq (map f ks) = Ub /\ exists x, In x ks /\ bad x.
  Proof.
    induction ks as [|x ks IH]; intros H.
    - left. exists []. split; [reflexivity|]. intros p. split; [intros []|]. intros (j & u & _ & (x & [] & _) & _).
    - cbn [map rseq]. destruct (H x (or_introl eq_refl)) as [(l & E & HL)|(E & HB)].
      + rewrite E. cbn [rbind]. destruct IH as [(ls & E2 & HLS)|(E2 & y & Hy & HB)].
        * intros y Hy. apply H. right. exact Hy.
        * left. rewrite E2. cbn [rmap rbind]. eexists. split; [reflexivity|]. cbn [concat]. intros p. rewrite in_app_iff, (HL p), (HLS p). split.
          -- intros [(j & u & H1 & H2 & H3)|(j & u & H1 & (y & Hy & H2) & H3)]; exists j, u; (split; [exact H1|split; [|exact H3]]).
             ++ exists x. split; [left; reflexivity|exact H2].
             ++ exists y. split; [right; exact Hy|exact H2].
          -- intros (j & u & H1 & (y & [<- |Hy] & H2) & H3); [left|right]; exists j, u; (split; [exact H1|split; [|exact H3]]); [exact H2|exists y; auto].
        * right. rewrite E2. split; [reflexivity|]. exists y. split; [right; exact Hy|exact HB].
      + right. rewrite E. split; [reflexivity|]. exists x. split; [left; reflexivity|exact HB].
  Qed.
  Lemma state_read s : s < n ->
    (exists l, get_transitions_from_state h al t (addr s) = Ok l /\ found s (fun _ => True) l)
    \/ get_transitions_from_state h al t (addr s) = Ub
       /\ exists x, symbols <= x < length st /\ is_like_epsilon al (N.of_nat x) = false.
  Proof.
    intros L. pose proof (OLC_Proofs6.st_len g al HA) as BS. fold st in BS. unfold get_transitions_from_state.
    destruct (is_simple (ph s)) eqn:S.
    - left. destruct (simple_addr s L S) as (E & P). destruct (N.ltb_spec (addr s) TA_OFFSET) as [C|_]; [lia|].
      destruct (OLC_Proofs6.T_layout enc g k s L) as (_ & _ & _ & HM). fold (F s) in HM. fold flags ps T in HM.
      destruct (HM (OLC_Proofs6.simple_pos enc g k ix HN1 HN2 s L S)) as (HM1 & _). pose proof (first_bound s L) as B.
      unfold get_transition, table_pos. destruct (N.ltb_spec (addr s) TA_OFFSET) as [C|_]; [lia|].
      replace (N.to_nat (addr s - TA_OFFSET)) with (F s - 1) by lia. cbn [t_trans t]. rewrite HM1. cbn [rbind].
      assert (ME : te_input (marker enc (finw g s)) = OLF_Model.NO_SYMBOL /\ te_output (marker enc (finw g s)) = OLF_Model.NO_SYMBOL).
      { unfold marker. destruct (finw g s); split; reflexivity. }
      destruct ME as (-> & ->). rewrite N.eqb_refl. cbn [negb orb].
      replace (addr s + 1)%N with (N.of_nat (F s) + TA_OFFSET)%N by lia.
      rewrite from_offset by lia. destruct (T_from s [] (keys flags (ph s)) L eq_refl) as (rest & H & R).
      change (length (in_order (ts s) [])) with 0 in H. rewrite Nat.add_0_r in H. rewrite H.
      eexists. split.
      + apply positions_while_stop.
        * apply Forall_forall. intros e He. apply in_map_iff in He. destruct He as (u & <- & Hu). apply (ord_ts s u L) in Hu.
          destruct (OLC_Proofs6.arc_place_input g s u Hu) as (a & Ha & ->). unfold ent, entry_of. cbn [te_input tp_input tplace_of].
          destruct (arc_symbols g s a Ha) as (H1 & _). pose proof (number_In st _ H1) as HN. fold st.
          assert (number st (isy a) < length st) by (apply nth_error_Some; congruence).
          apply negb_true_iff, N.eqb_neq. unfold OLF_Model.NO_SYMBOL. lia.
        * destruct R as (m & r & -> & E2). exists m, r. rewrite E2. split; reflexivity.
      + intros p. rewrite In_places, map_length. fold (ord s). split.
        * intros (j & Hj & ->). change (in_order (ts s) (keys flags (ph s))) with (ord s) in Hj.
          destruct (nth_error (ord s) j) as [u|] eqn:EU; [|apply nth_error_None in EU; lia]. exists j, u. auto.
        * intros (j & u & H1 & _ & ->). exists j. split; [|reflexivity]. apply nth_error_Some. change (in_order (ts s) (keys flags (ph s))) with (ord s). congruence.
    - destruct (nonsimple_start s L S) as (i & _ & E & _ & _ & B). destruct (OLC_Proofs6.ix_facts enc g k ix HP HX) as (B2 & _ & _).
      destruct (N.ltb_spec (addr s) TA_OFFSET) as [_|C]; [|lia]. rewrite HH, Nat2N.id.
      destruct (rseq_positions (fun x => state_positions al t (addr s) (N.of_nat x)) (fun x u => tp_input u = x)
        (fun x => symbols <= x /\ is_like_epsilon al (N.of_nat x) = false) s (seq 0 (length st))) as [(ls & EL & HL)|(EL & x & Hx & HB)].
      + intros x Hx. apply in_seq in Hx. apply (read_positions s x L S). lia.
      + left. rewrite EL. cbn [rmap rbind]. eexists. split; [reflexivity|]. intros p. rewrite In_collect, (HL p). split.
        * intros [[]|(j & u & H1 & _ & H3)]. exists j, u. auto.
        * intros (j & u & H1 & _ & H3). right. exists j, u. split; [exact H1|]. split; [|exact H3]. exists (tp_input u). split; [|reflexivity].
          apply nth_error_In, (ord_ts s u L) in H1. destruct (OLC_Proofs6.arc_place_input g s u H1) as (a & Ha & ->). cbn [tp_input tplace_of].
          destruct (arc_symbols g s a Ha) as (H2 & _). pose proof (number_In st _ H2) as HN. apply in_seq. split; [lia|].
          apply nth_error_Some. fold st. rewrite HN. discriminate.
      + right. rewrite EL. split; [reflexivity|]. exists x. apply in_seq in Hx. split; [lia|tauto].
  Qed.
End Positions.
