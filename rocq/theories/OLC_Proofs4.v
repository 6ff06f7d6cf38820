(** Proofs about the conversion to the optimized-lookup tables: contents of the tables. *)
From Coq Require Import Sorted Permutation NArith.
From Verif Require Import Base OrdMap Flags_Model BT_Model BT_Spec An_Model LK_Model OLF_Model OLF_Proofs OLC_Model OLL_Model OLC_Proofs OLC_Proofs2 OLC_Proofs3.

Definition flags_ok (flags : list nat) : Prop := NoDup flags /\ ~ In 0 flags.
Lemma flag_numbers_ok g : flags_ok (flag_numbers g).
Proof. split; [apply seq_NoDup|]. rewrite flag_numbers_In. pose proof (seen_pos g). lia. Qed.

(** * Order of the groups of a state *)
Definition keys (flags : list nat) (p : placeholder) : list nat :=
  0 :: flags ++ filter (fun i => negb (is_flag_no flags i)) (seq 1 (vsize p - 1)).
Definition in_order (ts : list tplace) (ks : list nat) : list tplace := concat (map (fun k => with_input k ts) ks).

Lemma with_input_In k ts t : In t (with_input k ts) <-> In t ts /\ tp_input t = k.
Proof. unfold with_input. rewrite filter_In, Nat.eqb_eq. tauto. Qed.
Lemma in_order_In ts ks t : In t (in_order ts ks) <-> In t ts /\ In (tp_input t) ks.
Proof.
  unfold in_order. rewrite in_concat. split.
  - intros (l & H1 & H2). apply in_map_iff in H1. destruct H1 as (k & <- & H1). apply with_input_In in H2.
    destruct H2 as (H2 & ->). auto.
  - intros (H1 & H2). exists (with_input (tp_input t) ts). split; [apply in_map_iff; eauto|]. apply with_input_In. auto.
Qed.
Lemma in_order_app ts k1 k2 : in_order ts (k1 ++ k2) = in_order ts k1 ++ in_order ts k2.
Proof. unfold in_order. rewrite map_app, concat_app. reflexivity. Qed.
Lemma in_order_cons ts k ks : in_order ts (k :: ks) = with_input k ts ++ in_order ts ks.
Proof. reflexivity. Qed.

Lemma in_order_perm ts : forall ks, NoDup ks -> (forall t, In t ts -> In (tp_input t) ks) -> Permutation (in_order ts ks) ts.
Proof.
  intros ks N. revert ts. induction ks as [|k ks IH]; intros ts H.
  - destruct ts as [|t ts]; [constructor|]. destruct (H t (or_introl eq_refl)).
  - inversion N as [|x y N1 N2]; subst. rewrite in_order_cons.
    set (rest := filter (fun t => negb (tp_input t =? k)) ts).
    assert (P : Permutation (with_input k ts ++ rest) ts).
    { unfold with_input, rest. clear. induction ts as [|t ts IH]; simpl; [constructor|].
      destruct (tp_input t =? k); simpl; [constructor; exact IH|].
      rewrite <- Permutation_middle. constructor. exact IH. }
    transitivity (with_input k ts ++ rest); [|exact P]. apply Permutation_app_head.
    transitivity (in_order rest ks).
    + assert (E : in_order ts ks = in_order rest ks); [|rewrite E; reflexivity].
      unfold in_order. f_equal. apply map_ext_in. intros j Hj. unfold with_input, rest. clear -Hj N1.
      assert (j <> k) by congruence. induction ts as [|t ts IH]; simpl; [reflexivity|].
      destruct (Nat.eqb_spec (tp_input t) k) as [E|E]; simpl.
      * rewrite E. destruct (Nat.eqb_spec k j); [congruence|exact IH].
      * destruct (tp_input t =? j); [f_equal; exact IH|exact IH].
    + apply IH; [exact N2|]. intros t Ht. unfold rest in Ht. apply filter_In in Ht. destruct Ht as (Ht & E).
      rewrite negb_true_iff, Nat.eqb_neq in E. destruct (H t Ht) as [E'|E']; [congruence|exact E'].
Qed.

Lemma keys_NoDup flags p : flags_ok flags -> NoDup (keys flags p).
Proof.
  intros (N & Z). unfold keys. constructor.
  - rewrite in_app_iff, filter_In, in_seq. intros [H|(H & _)]; [exact (Z H)|lia].
  - apply NoDup_app_intro; [exact N|apply NoDup_filter, seq_NoDup|].
    intros x H1 H2. apply filter_In in H2. destruct H2 as (_ & H2). apply is_flag_no_spec in H1. rewrite H1 in H2. discriminate.
Qed.
Lemma keys_cover flags s ts p : ph_ok flags s ts p -> forall t, In t ts -> In (tp_input t) (keys flags p).
Proof.
  intros (N & H1 & H2 & _) t Ht. apply H2 in Ht. unfold keys. set (k := tp_input t) in *.
  destruct (Nat.eq_dec k 0) as [-> |Z]; [left; reflexivity|]. right. apply in_app_iff.
  destruct (is_flag_no flags k) eqn:F; [left; apply is_flag_no_spec, F|]. right.
  apply filter_In. rewrite F. split; [|reflexivity]. apply in_seq. split; [lia|].
  unfold vsize. destruct (p_groups p) as [|q r] eqn:G; [destruct Ht|].
  assert (k <= list_max (map fst (q :: r))).
  { pose proof (proj1 (list_max_le (map fst (q :: r)) (list_max (map fst (q :: r)))) (le_n _)) as X.
    rewrite Forall_forall in X. apply X, Ht. }
  lia.
Qed.
Lemma places_perm flags s ts p : flags_ok flags -> ph_ok flags s ts p -> Permutation (in_order ts (keys flags p)) ts.
Proof. intros F H. apply in_order_perm; [apply keys_NoDup, F|apply (keys_cover flags s ts p H)]. Qed.

(** * Offsets *)
Lemma group_size_spec flags s ts p k : ph_ok flags s ts p -> group_size p k = length (with_input k ts).
Proof. intros H. rewrite <- (ph_group flags s ts p k H). unfold group_size. destruct (group p k); reflexivity. Qed.
Lemma absent_empty flags s ts p k : ph_ok flags s ts p -> input_present p k = false -> with_input k ts = [].
Proof.
  intros H E. rewrite <- (ph_group flags s ts p k H). unfold input_present in E. destruct (group p k); [discriminate|reflexivity].
Qed.

Lemma flag_offset_spec flags s ts p x : ph_ok flags s ts p -> forall fl off, ~ In x fl ->
  flag_offset p x off fl = inl (off + length (in_order ts fl)).
Proof.
  intros H. induction fl as [|f fl IH]; intros off N; cbn [flag_offset].
  - unfold in_order. simpl. f_equal. lia.
  - simpl in N. rewrite in_order_cons, app_length. destruct (input_present p f) eqn:E.
    + destruct (Nat.eqb_spec x f) as [-> |D]; [tauto|]. rewrite (IH _ ltac:(tauto)).
      rewrite (group_size_spec flags s ts p f H). f_equal. lia.
    + rewrite (IH _ ltac:(tauto)), (absent_empty flags s ts p f H E). simpl. reflexivity.
Qed.
Lemma other_offset_spec flags s ts p x : ph_ok flags s ts p -> is_flag_no flags x = false -> input_present p x = true ->
  forall is off, NoDup is -> In x is -> exists is1 is2,
    filter (fun i => negb (is_flag_no flags i)) is = is1 ++ x :: is2 /\
    other_offset p flags x off is = Some (off + length (in_order ts is1)).
Proof.
  intros H F P. induction is as [|i is IH]; intros off N Hx; [destruct Hx|].
  inversion N as [|a b N1 N2]; subst. cbn [other_offset filter].
  destruct (Nat.eq_dec i x) as [-> |D].
  - rewrite P, F, Nat.eqb_refl. exists [], (filter (fun i => negb (is_flag_no flags i)) is). simpl. split; [reflexivity|].
    f_equal. lia.
  - destruct Hx as [E|Hx]; [congruence|].
    destruct (is_flag_no flags i) eqn:Fi; cbn [negb].
    + destruct (input_present p i); apply IH; assumption.
    + destruct (input_present p i) eqn:Pi.
      * destruct (Nat.eqb_spec x i); [congruence|].
        destruct (IH (off + group_size p i) N2 Hx) as (is1 & is2 & E1 & E2).
        exists (i :: is1), is2. rewrite E1. split; [reflexivity|]. rewrite E2, in_order_cons, app_length.
        rewrite (group_size_spec flags s ts p i H). f_equal. lia.
      * destruct (IH off N2 Hx) as (is1 & is2 & E1 & E2).
        exists (i :: is1), is2. rewrite E1. split; [reflexivity|]. rewrite E2, in_order_cons, app_length.
        rewrite (absent_empty flags s ts p i H Pi). reflexivity.
Qed.
Lemma symbol_offset_spec flags s ts p x : ph_ok flags s ts p -> free_no flags x = false -> input_present p x = true ->
  exists k1 k2, keys flags p = k1 ++ x :: k2 /\ symbol_offset flags p x = Ok (length (in_order ts k1)).
Proof.
  intros H F P. unfold free_no in F. apply orb_false_iff in F. destruct F as (F1 & F2).
  unfold symbol_offset. rewrite F1.
  assert (NF : ~ In x flags) by (rewrite <- is_flag_no_spec; congruence).
  rewrite (flag_offset_spec flags s ts p x H _ _ NF).
  assert (IN : In x (seq 1 (vsize p - 1))).
  { apply in_seq. apply Nat.eqb_neq in F1. split; [lia|]. apply input_present_spec in P. unfold vsize.
    destruct (p_groups p) as [|q r]; [destruct P|].
    pose proof (proj1 (list_max_le (map fst (q :: r)) (list_max (map fst (q :: r)))) (le_n _)) as X.
    rewrite Forall_forall in X. apply X in P. lia. }
  destruct (other_offset_spec flags s ts p x H F2 P _ ((if input_present p 0 then group_size p 0 else 0) + length (in_order ts flags)) (seq_NoDup _ _) IN)
    as (is1 & is2 & E1 & E2).
  exists (0 :: flags ++ is1), is2. unfold keys. rewrite E1. split; [cbn [app]; rewrite <- app_assoc; reflexivity|].
  rewrite E2. f_equal. rewrite in_order_cons, in_order_app, !app_length.
  destruct (input_present p 0) eqn:P0.
  - rewrite (group_size_spec flags s ts p 0 H). lia.
  - rewrite (absent_empty flags s ts p 0 H P0). simpl. lia.
Qed.

(** * Transition entries *)
Section Entries.
  Variable enc : Z -> N.
  Variable ps : list placeholder.
  Variable starts : list (option nat).

  Definition entry_of (t : tplace) : trans_entry :=
    {| te_input := N.of_nat (tp_input t); te_output := N.of_nat (tp_output t);
       te_target := target_of ps starts (tp_target t); te_weight := enc (tp_weight t) |}.

  Lemma entries_of_eq k l : (forall t, In t l -> tp_input t = k) -> entries_of enc ps starts k l = map entry_of l.
  Proof. intros H. apply map_ext_in. intros t Ht. unfold entry_of. rewrite (H t Ht). reflexivity. Qed.
  Lemma group_entries_eq flags s ts p k : ph_ok flags s ts p -> group_entries enc ps starts p k = map entry_of (with_input k ts).
  Proof.
    intros H. unfold group_entries. rewrite <- (ph_group flags s ts p k H). destruct (group p k) as [l|] eqn:E; [|reflexivity].
    apply entries_of_eq. intros t Ht. pose proof (ph_group flags s ts p k H) as X. rewrite E in X. subst l.
    apply with_input_In in Ht. tauto.
  Qed.
  Lemma concat_groups flags s ts p ks : ph_ok flags s ts p ->
    concat (map (group_entries enc ps starts p) ks) = map entry_of (in_order ts ks).
  Proof.
    intros H. unfold in_order. rewrite concat_map, map_map. f_equal. apply map_ext.
    intros k. apply (group_entries_eq flags s ts p k H).
  Qed.
  Lemma state_entries_eq flags s ts p : ph_ok flags s ts p ->
    state_entries enc flags ps starts p = map entry_of (in_order ts (keys flags p)).
  Proof.
    intros H. unfold state_entries, keys. rewrite <- (concat_groups flags s ts p _ H). cbn [map concat]. f_equal.
    rewrite map_app, concat_app. f_equal.
    generalize (seq 1 (vsize p - 1)) as l. induction l as [|i l IH]; [reflexivity|]. cbn [map concat filter].
    destruct (is_flag_no flags i); cbn [negb]; [exact IH|]. cbn [map concat]. f_equal. exact IH.
  Qed.
  Lemma state_entries_length flags s ts p : flags_ok flags -> ph_ok flags s ts p ->
    length (state_entries enc flags ps starts p) = length ts.
  Proof.
    intros F H. rewrite (state_entries_eq flags s ts p H), map_length.
    apply Permutation_length, (places_perm flags s ts p F H).
  Qed.

  (** * Layout of the transition table *)
  Definition ends (l : list trans_entry) : Prop := exists m r, l = m :: r /\ te_input m = OLF_Model.NO_SYMBOL.

  Lemma state_tables_ends flags s l : ends (state_tables enc flags ps starts (S s) l ++ [last_entry]).
  Proof.
    destruct l as [|p l]; cbn [state_tables]; unfold ends.
    - exists last_entry, []. auto.
    - cbn [Nat.eqb app]. eexists; eexists. split; [reflexivity|]. unfold marker. destruct (p_final p); reflexivity.
  Qed.

  Lemma skipn_app_exact {A} (l1 l2 : list A) : skipn (length l1) (l1 ++ l2) = l2.
  Proof. induction l1; simpl; auto. Qed.
  Lemma skipn_add {A} n m (l : list A) : skipn (n + m) l = skipn m (skipn n l).
  Proof.
    revert l. induction n as [|n IH]; intros l; [reflexivity|]. destruct l as [|x l]; simpl; [destruct m; reflexivity|]. apply IH.
  Qed.

  Lemma state_tables_nth flags l : forall s al, Forall2 (fun p a => length (state_entries enc flags ps starts p) = length a) l al ->
    forall j, j < length l -> exists rest,
      skipn (first_of j al) (state_tables enc flags ps starts (S s) l ++ [last_entry])
      = marker enc (p_final (nth j l no_placeholder)) :: state_entries enc flags ps starts (nth j l no_placeholder) ++ rest
      /\ ends rest.
  Proof.
    induction l as [|p l IH]; intros s al F j L; [simpl in L; lia|].
    inversion F as [|p' a l' al' Ha F']; subst. cbn [state_tables Nat.eqb].
    destruct j as [|j].
    - exists (state_tables enc flags ps starts (S (S s)) l ++ [last_entry]). split; [|apply state_tables_ends].
      cbn [first_of skipn app nth]. rewrite <- app_assoc. reflexivity.
    - cbn [first_of nth app]. simpl in L. destruct (IH (S s) al' F' j ltac:(lia)) as (rest & E & H).
      exists rest. split; [|exact H]. rewrite <- E. cbn [Nat.add skipn]. rewrite skipn_add, <- Ha, <- app_assoc, skipn_app_exact. reflexivity.
  Qed.
End Entries.

(** The table of all states: transitions of state [s] from position first_of s, its finality
    marker before them unless it is state 0. *)
Lemma transition_table_nth enc flags ps starts al :
  Forall2 (fun p a => length (state_entries enc flags ps starts p) = length a) ps al ->
  forall s, s < length ps -> exists rest,
    skipn (first_of s al) (transition_table enc flags ps starts)
    = state_entries enc flags ps starts (nth s ps no_placeholder) ++ rest /\ ends rest
    /\ (0 < s -> nth_error (transition_table enc flags ps starts) (first_of s al - 1) = Some (marker enc (p_final (nth s ps no_placeholder)))
               /\ 0 < first_of s al).
Proof.
  intros F s L. unfold transition_table.
  assert (G : forall l, Forall2 (fun p a => length (state_entries enc flags ps starts p) = length a) l al -> s < length l ->
    exists rest,
    skipn (first_of s al) (state_tables enc flags ps starts 0 l ++ [last_entry])
    = state_entries enc flags ps starts (nth s l no_placeholder) ++ rest /\ ends rest
    /\ (0 < s -> nth_error (state_tables enc flags ps starts 0 l ++ [last_entry]) (first_of s al - 1) = Some (marker enc (p_final (nth s l no_placeholder)))
               /\ 0 < first_of s al)).
  { intros l F' L'. destruct l as [|p l]; [simpl in L'; lia|]. inversion F' as [|p' a l' al' Ha F'']; subst.
    cbn [state_tables Nat.eqb app]. destruct s as [|s].
    - exists (state_tables enc flags ps starts 1 l ++ [last_entry]). cbn [first_of skipn nth]. rewrite <- app_assoc.
      split; [reflexivity|]. split; [apply state_tables_ends|]. lia.
    - cbn [first_of nth]. simpl in L'. destruct (state_tables_nth enc ps starts flags l 0 al' F'' s ltac:(lia)) as (rest & E & H).
      rewrite <- app_assoc. exists rest.
      assert (E' : skipn (length a + first_of s al') (state_entries enc flags ps starts p ++ state_tables enc flags ps starts 1 l ++ [last_entry])
        = marker enc (p_final (nth s l no_placeholder)) :: state_entries enc flags ps starts (nth s l no_placeholder) ++ rest).
      { rewrite skipn_add, <- Ha, skipn_app_exact. exact E. }
      split; [|split; [exact H|]].
      + replace (1 + length a + first_of s al') with ((length a + first_of s al') + 1) by lia. rewrite skipn_add, E'. reflexivity.
      + intros _. split; [|lia]. replace (1 + length a + first_of s al' - 1) with (length a + first_of s al') by lia.
        set (T := state_entries enc flags ps starts p ++ _) in *. set (n := length a + first_of s al') in *.
        clearbody T n. clear -E'. rewrite <- (firstn_skipn n T).
        assert (LN : length (firstn n T) = n).
        { apply firstn_length_le. destruct (Nat.le_gt_cases n (length T)) as [X|X]; [exact X|].
          rewrite skipn_all2 in E' by lia. discriminate. }
        rewrite nth_error_app2 by lia. rewrite LN, Nat.sub_diag, E'. reflexivity. }
  apply (G ps F L).
Qed.

(** * Scanning the transitions of a state *)
Lemma run_of_stop test l1 l2 : Forall (fun e => test e = true) l1 -> (exists e r, l2 = e :: r /\ test e = false) ->
  run_of test (l1 ++ l2) = Ok l1.
Proof.
  intros F (e & r & -> & E). induction F as [|x l H F IH]; simpl.
  - rewrite E. reflexivity.
  - rewrite H, IH. reflexivity.
Qed.
