(** Proofs about the conversion to the optimized-lookup tables: the alphabet, and what the
    readers of the tables find. *)
From Coq Require Import Sorted Permutation NArith.
From Verif Require Import Base OrdMap Flags_Model Flags_Spec Flags_Proofs BT_Model BT_Spec An_Model LK_Model OLF_Model OLF_Proofs OLC_Model OLL_Model OLC_Proofs OLC_Proofs2 OLC_Proofs3 OLC_Proofs4.

(** * The alphabet *)
Fixpoint flag_defs (i : nat) (l : list bstr) : list (nat * bstr) :=
  match l with
  | [] => []
  | s :: r => if is_diacritic s then (i, s) :: flag_defs (S i) r else flag_defs (S i) r
  end.

Lemma classify_all_fd l : forall a i a', classify_all a i l = Some a' -> define_all (a_fd a) (flag_defs i l) = Some (a_fd a').
Proof.
  induction l as [|s l IH]; intros a i a' H; cbn [classify_all flag_defs] in *.
  - injection H as <-. reflexivity.
  - destruct (classify a i s) as [a1|] eqn:E; [|discriminate]. unfold classify in E.
    destruct (is_diacritic s).
    + cbn [define_all]. destruct (define_diacritic (a_fd a) i s) as [t|]; [|discriminate]. injection E as <-.
      apply IH in H. exact H.
    + injection E as <-. apply IH in H. exact H.
Qed.

Lemma last_def_low l : forall i k, k < i -> last_def (flag_defs i l) k = None.
Proof.
  induction l as [|s l IH]; intros i k L; [reflexivity|]. cbn [flag_defs]. destruct (is_diacritic s).
  - cbn [last_def]. rewrite IH by lia. destruct (Nat.eqb_spec k i); [lia|reflexivity].
  - apply IH. lia.
Qed.
Lemma last_def_flag l : forall i k, last_def (flag_defs i l) (i + k) =
  match nth_error l k with Some s => if is_diacritic s then Some s else None | None => None end.
Proof.
  induction l as [|s l IH]; intros i k; [destruct k; reflexivity|].
  destruct k as [|k]; cbn [flag_defs nth_error].
  - rewrite Nat.add_0_r. destruct (is_diacritic s); [|apply last_def_low; lia].
    cbn [last_def]. rewrite last_def_low, Nat.eqb_refl by lia. reflexivity.
  - replace (i + S k) with (S i + k) by lia. destruct (is_diacritic s); [|apply IH].
    cbn [last_def]. rewrite IH. destruct (nth_error l k) as [u|] eqn:E.
    + destruct (is_diacritic u); [reflexivity|]. destruct (Nat.eqb_spec (S i + k) i); [lia|reflexivity].
    + destruct (Nat.eqb_spec (S i + k) i); [lia|reflexivity].
Qed.

Lemma classify_all_special l : forall a i a', classify_all a i l = Some a' -> NoDup l ->
  a_unknown a' = match position UNK l with Some k => N.of_nat (i + k) | None => a_unknown a end
  /\ a_identity a' = match position IDN l with Some k => N.of_nat (i + k) | None => a_identity a end
  /\ a_default a' = match position internal_default l with Some k => N.of_nat (i + k) | None => a_default a end.
Proof.
  induction l as [|s l IH]; intros a i a' H N; cbn [classify_all position] in *.
  - injection H as <-. auto.
  - inversion N as [|x y N1 N2]; subst.
    assert (P : forall x, position x l = None \/ exists k, position x l = Some k) by (intros x; destruct (position x l); eauto).
    assert (Q : forall x k, position x l = Some k -> In x l) by (intros x k E; apply position_nth in E; eapply nth_error_In, E).
    destruct (classify a i s) as [a1|] eqn:E; [|discriminate].
    apply IH in H; [|exact N2]. destruct H as (H1 & H2 & H3). rewrite H1, H2, H3. clear H1 H2 H3 IH.
    assert (E1 : a_unknown a1 = if bstr_eqb s UNK then N.of_nat i else a_unknown a).
    { unfold classify in E. destruct (is_diacritic s) eqn:D.
      - destruct (define_diacritic (a_fd a) i s); [|discriminate]. injection E as <-. cbn [a_unknown].
        destruct (bstr_eqb_spec s UNK) as [-> |_]; [vm_compute in D; discriminate|reflexivity].
      - injection E as <-. reflexivity. }
    assert (E2 : a_identity a1 = if bstr_eqb s IDN then N.of_nat i else a_identity a).
    { unfold classify in E. destruct (is_diacritic s) eqn:D.
      - destruct (define_diacritic (a_fd a) i s); [|discriminate]. injection E as <-. cbn [a_identity].
        destruct (bstr_eqb_spec s IDN) as [-> |_]; [vm_compute in D; discriminate|reflexivity].
      - injection E as <-. cbn [a_identity].
        destruct (bstr_eqb_spec s IDN) as [-> |NI]; [reflexivity|].
        destruct (bstr_eqb_spec s internal_unknown); [reflexivity|]. destruct (bstr_eqb_spec s internal_default); [reflexivity|].
        change internal_identity with IDN. destruct (bstr_eqb_spec s IDN); [congruence|reflexivity]. }
    assert (E3 : a_default a1 = if bstr_eqb s internal_default then N.of_nat i else a_default a).
    { unfold classify in E. destruct (is_diacritic s) eqn:D.
      - destruct (define_diacritic (a_fd a) i s); [|discriminate]. injection E as <-. cbn [a_default].
        destruct (bstr_eqb_spec s internal_default) as [-> |_]; [vm_compute in D; discriminate|reflexivity].
      - injection E as <-. cbn [a_default].
        destruct (bstr_eqb_spec s internal_default) as [-> |_]; [reflexivity|].
        destruct (bstr_eqb_spec s internal_unknown); reflexivity. }
    rewrite E1, E2, E3. clear E E1 E2 E3.
    assert (G : forall x v, match position x l with Some k => N.of_nat (S i + k) | None => if bstr_eqb s x then N.of_nat i else v end
      = match (if bstr_eqb x s then Some 0 else option_map S (position x l)) with Some k => N.of_nat (i + k) | None => v end).
    { intros x v. destruct (bstr_eqb_spec s x) as [-> |D].
      - rewrite bstr_eqb_refl. destruct (P x) as [-> |(k & E)]; [rewrite Nat.add_0_r; reflexivity|].
        exfalso. apply N1, (Q x k E).
      - destruct (bstr_eqb_spec x s) as [-> |D2]; [congruence|].
        destruct (position x l); simpl; [f_equal; lia|reflexivity]. }
    rewrite !G. auto.
Qed.

Lemma alphabet_of_table_Ok st al : alphabet_of_table st = Ok al -> NoDup st ->
  a_table al = st
  /\ (N.of_nat (length st) <= 65535)%N
  /\ a_orig_count al = N.of_nat (length st)
  /\ define_all fd_empty (flag_defs 0 st) = Some (a_fd al)
  /\ a_unknown al = match position UNK st with Some k => N.of_nat k | None => OLF_Model.NO_SYMBOL end
  /\ a_identity al = match position IDN st with Some k => N.of_nat k | None => OLF_Model.NO_SYMBOL end
  /\ a_default al = match position internal_default st with Some k => N.of_nat k | None => OLF_Model.NO_SYMBOL end.
Proof.
  unfold alphabet_of_table. intros H N. destruct (N.ltb_spec 65535 (N.of_nat (length st))) as [L|L]; [discriminate|].
  destruct (classify_all alphabet0 0 st) as [a|] eqn:E; [|discriminate]. injection H as <-.
  destruct (classify_all_special _ _ _ _ E N) as (H1 & H2 & H3). apply classify_all_fd in E.
  cbn [set_orig set_table a_table a_fd a_unknown a_identity a_default a_orig_count].
  split; [reflexivity|]. split; [exact L|]. split; [apply N.mod_small; lia|]. split; [exact E|]. auto.
Qed.

(** A number denotes a flag exactly when its symbol is one. *)
Lemma flag_symbol_spec st al k : alphabet_of_table st = Ok al -> NoDup st ->
  is_flag_symbol al (N.of_nat k) = match nth_error st k with Some s => is_diacritic s | None => false end.
Proof.
  intros H N. destruct (alphabet_of_table_Ok st al H N) as (_ & _ & _ & D & _).
  destruct (define_all_ok _ _ _ fd_empty_ok D) as (_ & _ & Hk). specialize (Hk k).
  pose proof (last_def_flag st 0 k) as X. cbn [Nat.add] in X. rewrite X in Hk. unfold is_flag_symbol. rewrite Nat2N.id.
  destruct (nth_error st k) as [s|]; [|rewrite Hk; reflexivity].
  destruct (is_diacritic s); [|rewrite Hk; reflexivity].
  destruct Hk as ((x & Hx) & Hk). destruct (Hk x Hx) as (op & -> & _). reflexivity.
Qed.

Lemma rseq_map {A B} (f : A -> res B) l : (forall x, In x l -> exists y, f x = Ok y) ->
  exists r, rseq (map f l) = Ok r /\ Forall2 (fun x y => f x = Ok y) l r.
Proof.
  induction l as [|x l IH]; intros H; cbn [map rseq].
  - exists []. split; [reflexivity|constructor].
  - destruct (H x (or_introl eq_refl)) as (y & E). destruct IH as (r & E2 & F); [intros z Hz; apply H; right; exact Hz|].
    exists (y :: r). rewrite E. cbn [rbind]. rewrite E2. cbn [rbind]. split; [reflexivity|]. constructor; assumption.
Qed.
Lemma Forall2_len {A B} (R : A -> B -> Prop) l r : Forall2 R l r -> length l = length r.
Proof. induction 1; simpl; congruence. Qed.
Lemma Forall2_from_nth {A B} (R : A -> B -> Prop) da db l : forall m, length l = length m ->
  (forall i, i < length m -> R (nth i l da) (nth i m db)) -> Forall2 R l m.
Proof.
  induction l as [|p l IH]; intros [|a m] L H; simpl in L; try discriminate; [constructor|].
  constructor; [apply (H 0); simpl; lia|]. apply IH; [lia|]. intros s Ls. apply (H (S s)). simpl. lia.
Qed.
Lemma Forall2_nth_error {A B} (R : A -> B -> Prop) l r : Forall2 R l r -> forall i x, nth_error l i = Some x ->
  exists y, nth_error r i = Some y /\ R x y.
Proof.
  induction 1 as [|a b l r H F IH]; intros i x E; [destruct i; discriminate|].
  destruct i as [|i]; simpl in *; [injection E as <-; eauto|auto].
Qed.

(** * Existence of the tables *)
Section Tables.
  Variable enc : Z -> N.
  Variable g : graph.
  Let st := symbol_table g.
  Let flags := flag_numbers g.
  Let ps := placeholders g.
  Let n := length (sts g).
  Variable k : packing.
  Hypothesis HK : pack_ok flags ps n k.

  Lemma ph_of s : s < n -> ph_ok flags s (arc_places g s) (nth s ps no_placeholder).
  Proof. intros L. apply (placeholders_nth g s L). Qed.

  Lemma index_offset_free x : free_no flags x = false -> index_offset flags x = x.
  Proof. unfold free_no, index_offset. rewrite orb_false_iff. intros (_ & ->). reflexivity. Qed.
  Lemma index_offset_zero x : free_no flags x = true -> index_offset flags x = 0.
  Proof.
    unfold free_no, index_offset. rewrite orb_true_iff, Nat.eqb_eq. intros [-> | ->]; [|reflexivity].
    destruct (is_flag_no flags 0); reflexivity.
  Qed.

  (** Every slot yields an entry. *)
  Lemma slot_entry v : In v (k_slots k) -> exists e, index_of_slot enc flags ps v = Ok e.
  Proof.
    intros H. apply In_nth_error in H. destruct H as (j & H). destruct v as [(s, o)|]; [|simpl; eauto].
    assert (E : slot_at (k_slots k) j = Some (s, o)) by (unfold slot_at; rewrite H; reflexivity).
    destruct HK as (_ & _ & H3). destruct (H3 j s o E) as (L & i & _ & H').
    unfold index_of_slot. destruct o as [o|]; [|destruct (p_final _); eauto].
    destruct H' as (_ & q & Hq & Ho).
    destruct (free_no flags (fst q)) eqn:F.
    - rewrite (index_offset_zero _ F) in Ho. subst o. unfold symbol_offset. cbn [Nat.eqb rbind]. eauto.
    - rewrite (index_offset_free _ F) in Ho. subst o.
      destruct (symbol_offset_spec flags s _ _ (fst q) (ph_of s L) F) as (k1 & k2 & _ & E2).
      { apply input_present_spec. apply in_map, Hq. }
      rewrite E2. cbn [rbind]. eauto.
  Qed.

  Lemma index_table_Ok symbols : exists ix, index_table enc flags symbols ps (k_slots k) = Ok ix
    /\ length (k_slots k) + symbols <= length ix
    /\ (forall j v, nth_error (k_slots k) j = Some v -> exists e, nth_error ix j = Some e /\ index_of_slot enc flags ps v = Ok e)
    /\ (forall j, length (k_slots k) <= j -> j < length ix -> nth_error ix j = Some blank_index).
  Proof.
    unfold index_table. set (sl := match k_slots k with [] => [None] | _ => k_slots k end).
    assert (A1 : forall v, In v sl -> exists e, index_of_slot enc flags ps v = Ok e).
    { intros v Hv. destruct (k_slots k) as [|v0 r] eqn:E; [|apply slot_entry; rewrite E; exact Hv].
      destruct Hv as [<- |[]]. simpl. eauto. }
    destruct (rseq_map _ sl A1) as (r & E & F). rewrite E. cbn [rmap rbind].
    assert (A2 : length r = length sl) by (symmetry; eapply Forall2_len, F).
    eexists. split; [reflexivity|]. rewrite app_length, repeat_length.
    assert (A3 : length (k_slots k) <= length sl) by (unfold sl; destruct (k_slots k); simpl; lia).
    split; [lia|]. split.
    - intros j v Hv. assert (Hv' : nth_error sl j = Some v).
      { unfold sl. destruct (k_slots k); [destruct j; discriminate|exact Hv]. }
      destruct (Forall2_nth_error _ _ _ F j v Hv') as (e & H1 & H2). exists e. split; [|exact H2].
      rewrite nth_error_app1; [exact H1|]. apply nth_error_Some. congruence.
    - intros j L1 L2. destruct (Nat.lt_ge_cases j (length r)) as [L|L].
      + rewrite nth_error_app1 by exact L.
        destruct (k_slots k) as [|v0 r0] eqn:EK; [|unfold sl in A2; simpl in *; lia].
        unfold sl in *. simpl in A2. assert (j = 0) by lia. subst j.
        destruct (Forall2_nth_error _ _ _ F 0 None eq_refl) as (e & H1 & H2). rewrite H1. simpl in H2. congruence.
      + rewrite nth_error_app2 by exact L.
        assert (X : forall m i, i < m -> nth_error (repeat blank_index m) i = Some blank_index).
        { induction m as [|m IH]; intros i Li; [lia|]. destruct i; simpl; [reflexivity|]. apply IH. lia. }
        apply X. lia.
  Qed.

  Lemma lengths_ok starts : Forall2 (fun p a => length (state_entries enc flags ps starts p) = length a) ps (sts g).
  Proof.
    assert (L : length ps = length (sts g)) by apply placeholders_length.
    assert (A : forall s, s < n -> length (state_entries enc flags ps starts (nth s ps no_placeholder)) = length (nth s (sts g) [])).
    { intros s Ls. rewrite (state_entries_length enc ps starts flags s _ _ (flag_numbers_ok g) (ph_of s Ls)).
      unfold arc_places. rewrite map_length. reflexivity. }
    apply (Forall2_from_nth _ no_placeholder []); [exact L|exact A].
  Qed.
End Tables.

Lemma to_ol_Ok enc g weighted tr : to_ol enc g weighted = Ok tr ->
  exists k ix al,
    pack (flag_numbers g) (seen_inputs g) 0 (placeholders g) packing0 = Ok k
    /\ index_table enc (flag_numbers g) (seen_inputs g) (placeholders g) (k_slots k) = Ok ix
    /\ alphabet_of_table (symbol_table g) = Ok al
    /\ tr = {| tr_header := header_make (N.of_nat (seen_inputs g)) (N.of_nat (length (symbol_table g))) (N.of_nat (length ix))
                 (N.of_nat (length (transition_table enc (flag_numbers g) (placeholders g) (k_starts k)))) weighted;
               tr_alphabet := al;
               tr_tables := {| t_wclass := true; t_index := ix;
                               t_trans := transition_table enc (flag_numbers g) (placeholders g) (k_starts k) |} |}.
Proof.
  unfold to_ol. destruct (N.ltb_spec 65536 (N.of_nat (length (symbol_table g)))) as [L|L]; [discriminate|]. intros H.
  apply rbind_Ok in H. destruct H as (k & E1 & H). apply rbind_Ok in H. destruct H as (ix & E2 & H).
  apply rbind_Ok in H. destruct H as (al & E3 & H). injection H as <-. eauto 10.
Qed.
Lemma to_ol_total enc g weighted : (N.of_nat (length (symbol_table g)) <= 65535)%N ->
  (exists al, alphabet_of_table (symbol_table g) = Ok al) -> exists tr, to_ol enc g weighted = Ok tr.
Proof.
  intros L (al & E). unfold to_ol. destruct (N.ltb_spec 65536 (N.of_nat (length (symbol_table g)))) as [L'|_]; [lia|].
  destruct (packed g) as (k & Ek & Hk). rewrite Ek. cbn [rbind].
  destruct (index_table_Ok enc g k Hk (seen_inputs g)) as (ix & E2 & _). rewrite E2. cbn [rbind]. rewrite E. cbn [rbind]. eauto.
Qed.
