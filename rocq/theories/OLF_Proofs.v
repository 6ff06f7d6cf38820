(** Proofs about the optimized-lookup file format. *)
From Coq Require Import NArith.
From Verif Require Import Base Flags_Model OLF_Model OLF_Spec.
Local Open Scope N_scope.

Lemma le_length k n : length (le k n) = k.
Proof. revert n; induction k; intros n; simpl; auto. Qed.

Lemma unle_le k n : n < 256 ^ N.of_nat k -> unle (le k n) = n.
Proof.
  revert n; induction k as [|k IH]; intros n H.
  - simpl in *. lia.
  - rewrite Nat2N.inj_succ, N.pow_succ_r' in H.
    cbn [le unle]. rewrite N_ascii_embedding by (apply N.mod_lt; lia).
    rewrite IH by (apply N.div_lt_upper_bound; lia).
    pose proof (N.div_mod' n 256). lia.
Qed.

Lemma N_of_ascii_lt b : N_of_ascii b < 256.
Proof. apply N_ascii_bounded. Qed.

Lemma unle_lt bs : unle bs < 256 ^ N.of_nat (length bs).
Proof.
  induction bs as [|b r IH]; [simpl; lia|].
  cbn [length unle]. rewrite Nat2N.inj_succ, N.pow_succ_r'. pose proof (N_of_ascii_lt b). nia.
Qed.

Lemma le_unle bs : le (length bs) (unle bs) = bs.
Proof.
  induction bs as [|b r IH]; [reflexivity|].
  cbn [length unle le]. pose proof (N_of_ascii_lt b) as Hb.
  assert (E1 : (N_of_ascii b + 256 * unle r) mod 256 = N_of_ascii b).
  { rewrite N.add_comm, N.mul_comm, N.add_comm, N.mod_add by lia. apply N.mod_small; lia. }
  assert (E2 : (N_of_ascii b + 256 * unle r) / 256 = unle r).
  { rewrite (N.mul_comm 256), N.div_add by lia. rewrite N.div_small by lia. lia. }
  rewrite E1, E2, ascii_N_embedding, IH. reflexivity.
Qed.

Lemma rd_app k bs rest : length bs = k -> rd k (stream (bs ++ rest)) = Ok (bs, stream rest).
Proof.
  intros <-. unfold rd, stream. cbn [is_eof is_bytes].
  rewrite app_length, (proj2 (Nat.leb_le _ _)) by lia.
  rewrite firstn_app, Nat.sub_diag, firstn_all, skipn_app, Nat.sub_diag, skipn_all.
  simpl. rewrite app_nil_r. reflexivity.
Qed.

Lemma rd_inv k is bs is' : rd k is = Ok (bs, is') ->
  is = stream (bs ++ is_bytes is') /\ is' = stream (is_bytes is') /\ length bs = k.
Proof.
  unfold rd. destruct is as [b e]. cbn [is_eof is_bytes]. destruct e; [discriminate|].
  destruct (Nat.leb_spec k (length b)); [|discriminate].
  intros E. injection E as <- <-. cbn [is_bytes].
  rewrite firstn_skipn. repeat split. apply firstn_length_le; lia.
Qed.

Lemma rd_int_app k n rest : n < 256 ^ N.of_nat k ->
  rd_int k (stream (le k n ++ rest)) = Ok (n, stream rest).
Proof.
  intros H. unfold rd_int. rewrite (rd_app k) by apply le_length. simpl.
  rewrite unle_le by exact H. reflexivity.
Qed.

Lemma rd_int_inv k is n is' : rd_int k is = Ok (n, is') ->
  is = stream (le k n ++ is_bytes is') /\ is' = stream (is_bytes is') /\ n < 256 ^ N.of_nat k.
Proof.
  unfold rd_int. destruct (rd k is) as [[bs i2]| | |] eqn:E; try discriminate.
  simpl. intros H. injection H as <- <-. apply rd_inv in E. destruct E as (-> & E2 & <-).
  rewrite le_unle. split; [reflexivity|]. split; [exact E2|]. apply unle_lt.
Qed.

Lemma rd_bool_app b rest : rd_bool (stream (wr_bool b ++ rest)) = Ok (b, stream rest).
Proof.
  unfold rd_bool, wr_bool. rewrite rd_int_app by (destruct b; vm_compute; reflexivity).
  destruct b; reflexivity.
Qed.

Lemma rd_bool_inv is b is' : rd_bool is = Ok (b, is') ->
  is = stream (wr_bool b ++ is_bytes is') /\ is' = stream (is_bytes is').
Proof.
  unfold rd_bool. destruct (rd_int 4 is) as [[n i2]| | |] eqn:E; try discriminate.
  cbn [rbind]. apply rd_int_inv in E. destruct E as (-> & E2 & Hn).
  destruct (N.eqb_spec n 0) as [-> |]; [|destruct (N.eqb_spec n 1) as [-> |]; [|discriminate]];
    intros H; injection H as <- <-; split; try reflexivity; exact E2.
Qed.

Lemma header_roundtrip h rest : header_fits h ->
  header_read (stream (header_write h ++ rest)) = Ok (h, stream rest).
Proof.
  intros (H1 & H2 & H3 & H4 & H5 & H6).
  unfold header_write, header_read. rewrite <- !app_assoc.
  rewrite rd_int_app by exact H1. cbn [rbind].
  rewrite rd_int_app by exact H2. cbn [rbind].
  rewrite rd_int_app by exact H3. cbn [rbind].
  rewrite rd_int_app by exact H4. cbn [rbind].
  rewrite rd_int_app by exact H5. cbn [rbind].
  rewrite rd_int_app by exact H6. cbn [rbind].
  do 9 (rewrite rd_bool_app; cbn [rbind]).
  destruct h; reflexivity.
Qed.

Lemma rbind_Ok {A C} (r : res A) (f : A -> res C) c :
  rbind r f = Ok c -> exists a, r = Ok a /\ f a = Ok c.
Proof. destruct r; simpl; try discriminate. intros H. exists a. auto. Qed.

Ltac step_int H :=
  let n := fresh "n" in let i := fresh "i" in let E := fresh "E" in let R := fresh "R" in
  apply rbind_Ok in H; destruct H as ([n i] & E & H);
  apply rd_int_inv in E; destruct E as (E & R & ?); rewrite R in H; clear R.
Ltac step_bool H :=
  let n := fresh "b" in let i := fresh "i" in let E := fresh "E" in let R := fresh "R" in
  apply rbind_Ok in H; destruct H as ([n i] & E & H);
  apply rd_bool_inv in E; destruct E as (E & R); rewrite R in H; clear R.

Lemma stream_inj a b : stream a = stream b -> a = b.
Proof. intros H. injection H as H. exact H. Qed.

Lemma header_read_inv is h is' : header_read is = Ok (h, is') ->
  header_fits h /\ is = stream (header_write h ++ is_bytes is') /\ is' = stream (is_bytes is').
Proof.
  unfold header_read. intros H.
  do 6 step_int H. do 9 step_bool H. injection H as <- <-.
  cbn [is_bytes stream]. split; [repeat split; assumption|]. split; [|reflexivity].
  unfold header_write. cbn [h_input_symbols h_symbols h_index_size h_target_size h_states
    h_transitions h_weighted h_deterministic h_input_deterministic h_minimized h_cyclic
    h_eps_eps h_input_eps h_input_eps_cycles h_unweighted_input_eps_cycles].
  rewrite E.
  repeat match goal with E : stream _ = stream _ |- _ => apply stream_inj in E; rewrite E; clear E end.
  rewrite <- !app_assoc. reflexivity.
Qed.

Lemma header_write_length h : length (header_write h) = 56%nat.
Proof. unfold header_write, wr_bool. rewrite !app_length, !le_length. reflexivity. Qed.

Lemma rd_cases k is : (exists x, rd k is = Ok x) \/ rd k is = Throw.
Proof. unfold rd. destruct (is_eof is); auto. destruct (_ <=? _)%nat; eauto. Qed.

Lemma rd_int_cases k is : (exists x, rd_int k is = Ok x) \/ rd_int k is = Throw.
Proof.
  unfold rd_int. destruct (rd_cases k is) as [[[x i] ->]| ->]; simpl; eauto.
Qed.

Lemma rd_bool_cases is : (exists x, rd_bool is = Ok x) \/ rd_bool is = Throw.
Proof.
  unfold rd_bool. destruct (rd_int_cases 4 is) as [[[x i] ->]| ->]; cbn [rbind]; eauto.
  destruct (x =? 0); [eauto|]. destruct (x =? 1); eauto.
Qed.

Lemma header_read_cases is : (exists x, header_read is = Ok x) \/ header_read is = Throw.
Proof.
  unfold header_read.
  repeat (first
    [ match goal with |- context [rbind (rd_int ?k ?i) _] =>
        destruct (rd_int_cases k i) as [[[? ?] ->]| ->]; cbn [rbind]; [|right; reflexivity] end
    | match goal with |- context [rbind (rd_bool ?i) _] =>
        destruct (rd_bool_cases i) as [[[? ?] ->]| ->]; cbn [rbind]; [|right; reflexivity] end ]).
  left. eexists. reflexivity.
Qed.

(** * Alphabet *)
Lemma split_nul_free s r : nul_free s -> split_nul (s ++ NUL :: r) = (s, Some r).
Proof.
  induction s as [|c s IH]; intros H.
  - reflexivity.
  - simpl. destruct (Ascii.eqb_spec c NUL) as [-> |N].
    + exfalso. apply H. left. reflexivity.
    + rewrite IH; [reflexivity|]. intros Hin. apply H. right. exact Hin.
Qed.

Lemma split_nul_None s : nul_free s -> split_nul s = (s, None).
Proof.
  induction s as [|c s IH]; intros H; [reflexivity|].
  simpl. destruct (Ascii.eqb_spec c NUL) as [-> |N].
  - exfalso. apply H. left. reflexivity.
  - rewrite IH; [reflexivity|]. intros Hin. apply H. right. exact Hin.
Qed.

Lemma split_nul_inv bs s o : split_nul bs = (s, o) ->
  nul_free s /\ bs = s ++ match o with Some r => NUL :: r | None => [] end.
Proof.
  revert s o; induction bs as [|c r IH]; simpl; intros s o H.
  - injection H as <- <-. split; [intros []|reflexivity].
  - destruct (Ascii.eqb_spec c NUL) as [-> |N].
    + injection H as <- <-. split; [intros []|reflexivity].
    + destruct (split_nul r) as [s1 o1]. injection H as <- <-.
      destruct (IH s1 o1 eq_refl) as (H1 & H2). split.
      * intros [E|Hin]; [apply N; exact E|apply H1; exact Hin].
      * simpl. rewrite <- H2. reflexivity.
Qed.

Lemma c_str_free s : nul_free s -> c_str s = s.
Proof. intros H. unfold c_str. rewrite split_nul_None by exact H. reflexivity. Qed.

Definition sym_bytes (l : list bstr) : list ascii := concat (map (fun s => s ++ [NUL]) l).

Lemma getline_app s rest : nul_free s ->
  getline (stream (s ++ NUL :: rest)) = Ok (s, stream rest).
Proof.
  intros H. unfold getline. cbn [stream is_eof is_bytes].
  rewrite split_nul_free by exact H. destruct s; reflexivity.
Qed.

Definition stored (preserve : bool) (s : bstr) : bstr :=
  if is_diacritic s && negb preserve then [] else s.

Lemma classify_table a i s a' : classify a i s = Some a' -> a_table a' = a_table a.
Proof.
  unfold classify. destruct (is_diacritic s).
  - destruct (define_diacritic _ _ _); [|discriminate]. intros H. injection H as <-. reflexivity.
  - intros H. injection H as <-. reflexivity.
Qed.

Lemma classify_set_table a i s t :
  classify (set_table a t) i s = option_map (fun a' => set_table a' t) (classify a i s).
Proof.
  unfold classify, set_table. cbn [a_table a_fd a_unknown a_default a_identity a_orig_count].
  destruct (is_diacritic s); [|reflexivity].
  destruct (define_diacritic _ _ _); reflexivity.
Qed.

Lemma set_table_twice a t t' : set_table (set_table a t) t' = set_table a t'.
Proof. reflexivity. Qed.

Lemma classify_all_set_table l : forall a i t,
  classify_all (set_table a t) i l = option_map (fun a' => set_table a' t) (classify_all a i l).
Proof.
  induction l as [|s r IH]; intros a i t; [reflexivity|].
  simpl. rewrite classify_set_table. destruct (classify a i s) as [a1|]; [|reflexivity].
  simpl. apply IH.
Qed.

Lemma read_loop_ok p l : forall i a rest,
  Forall nul_free l ->
  alphabet_read_loop p (length l) i a (stream (sym_bytes l ++ rest)) =
  match classify_all a i l with
  | None => Throw
  | Some a' => Ok (set_orig (set_table a' (a_table a ++ map (stored p) l)), stream rest)
  end.
Proof.
  induction l as [|s r IH]; intros i a rest Hl.
  - simpl. rewrite app_nil_r. destruct a; reflexivity.
  - inversion Hl as [|x y Hs Hr]; subst. unfold sym_bytes in *. cbn [map concat length].
    rewrite <- !app_assoc. cbn [app alphabet_read_loop classify_all].
    rewrite getline_app by exact Hs. cbn [rbind].
    destruct (classify a i s) as [a1|] eqn:Ec; [|reflexivity].
    cbv zeta. change (if is_diacritic s && negb p then [] else s) with (stored p s).
    assert (Hst : c_str (stored p s) = stored p s).
    { unfold stored. destruct (_ && _); [reflexivity|apply c_str_free, Hs]. }
    rewrite Hst, IH by exact Hr. rewrite classify_all_set_table.
    destruct (classify_all a1 (S i) r) as [a2|]; [|reflexivity].
    simpl. rewrite (classify_table _ _ _ _ Ec), set_table_twice, <- app_assoc. reflexivity.
Qed.

Lemma set_orig_small a : N.of_nat (length (a_table a)) <= 65535 ->
  a_orig_count (set_orig a) = N.of_nat (length (a_table a)).
Proof. intros H. unfold set_orig. cbn. apply N.mod_small. lia. Qed.

(** What [classify_all] computes. *)
Definition fl (i : nat) (l : list bstr) : list (nat * bstr) :=
  filter (fun p => is_diacritic (snd p)) (combine (seq i (length l)) l).

Lemma classify_all_fd l : forall a i a', classify_all a i l = Some a' ->
  define_all (a_fd a) (fl i l) = Some (a_fd a') /\ a_table a' = a_table a.
Proof.
  induction l as [|s r IH]; intros a i a' H.
  - injection H as <-. split; reflexivity.
  - cbn [classify_all] in H. destruct (classify a i s) as [a1|] eqn:Ec; [|discriminate].
    destruct (IH _ _ _ H) as (H1 & H2). rewrite (classify_table _ _ _ _ Ec) in H2.
    split; [|exact H2].
    unfold fl in *. cbn [length seq combine filter snd].
    unfold classify in Ec. destruct (is_diacritic s) eqn:Ed.
    + cbn [define_all]. destruct (define_diacritic (a_fd a) i s); [|discriminate].
      injection Ec as <-. cbn [a_fd] in H1. exact H1.
    + injection Ec as <-. cbn [a_fd] in H1. exact H1.
Qed.

Lemma classify_all_Some l : forall a i t, define_all (a_fd a) (fl i l) = Some t ->
  exists a', classify_all a i l = Some a'.
Proof.
  induction l as [|s r IH]; intros a i t H; [eexists; reflexivity|].
  cbn [classify_all]. unfold fl in *. cbn [length seq combine filter snd] in H.
  unfold classify at 1. destruct (is_diacritic s) eqn:Ed.
  - cbn [define_all] in H. destruct (define_diacritic (a_fd a) i s); [|discriminate].
    eapply IH. exact H.
  - eapply IH. exact H.
Qed.

(** Number of the last occurrence, counting from [i], default [d]. *)
Fixpoint lastn (x : bstr) (l : list bstr) (i : nat) (d : N) : N :=
  match l with
  | [] => d
  | s :: r => lastn x r (S i) (if bstr_eqb s x then N.of_nat i else d)
  end.

Lemma special_facts :
  is_diacritic internal_unknown = false /\ is_diacritic internal_default = false
  /\ is_diacritic internal_identity = false
  /\ bstr_eqb internal_default internal_unknown = false
  /\ bstr_eqb internal_identity internal_unknown = false
  /\ bstr_eqb internal_identity internal_default = false.
Proof. repeat split; vm_compute; reflexivity. Qed.

Lemma classify_specials a i s a' : classify a i s = Some a' ->
  a_unknown a' = (if bstr_eqb s internal_unknown then N.of_nat i else a_unknown a)
  /\ a_default a' = (if bstr_eqb s internal_default then N.of_nat i else a_default a)
  /\ a_identity a' = (if bstr_eqb s internal_identity then N.of_nat i else a_identity a).
Proof.
  destruct special_facts as (F1 & F2 & F3 & F4 & F5 & F6).
  unfold classify. destruct (is_diacritic s) eqn:Ed.
  - destruct (define_diacritic _ _ _); [|discriminate]. intros H. injection H as <-.
    cbn [a_unknown a_default a_identity].
    assert (K : forall y, is_diacritic y = false -> bstr_eqb s y = false).
    { intros y Hy. apply bstr_eqb_neq. intros ->. congruence. }
    rewrite !K by assumption. auto.
  - intros H. injection H as <-. cbn [a_unknown a_default a_identity].
    split; [reflexivity|].
    destruct (bstr_eqb_spec s internal_unknown) as [-> |N1].
    + rewrite (proj2 (bstr_eqb_neq internal_unknown internal_default)) by (vm_compute; discriminate).
      rewrite (proj2 (bstr_eqb_neq internal_unknown internal_identity)) by (vm_compute; discriminate).
      auto.
    + split; [reflexivity|]. destruct (bstr_eqb_spec s internal_default) as [-> |N2]; [|reflexivity].
      rewrite (proj2 (bstr_eqb_neq internal_default internal_identity)) by (vm_compute; discriminate).
      reflexivity.
Qed.

Lemma classify_all_specials l : forall a i a', classify_all a i l = Some a' ->
  a_unknown a' = lastn internal_unknown l i (a_unknown a)
  /\ a_default a' = lastn internal_default l i (a_default a)
  /\ a_identity a' = lastn internal_identity l i (a_identity a).
Proof.
  induction l as [|s r IH]; intros a i a' H.
  - injection H as <-. auto.
  - cbn [classify_all] in H. destruct (classify a i s) as [a1|] eqn:Ec; [|discriminate].
    apply IH in H. destruct H as (-> & -> & ->).
    apply classify_specials in Ec. destruct Ec as (-> & -> & ->). auto.
Qed.

Lemma lastn_notin x l : forall i d, ~ In x l -> lastn x l i d = d.
Proof.
  induction l as [|s r IH]; intros i d H; [reflexivity|].
  cbn [lastn]. rewrite IH by (intros K; apply H; right; exact K).
  destruct (bstr_eqb_spec s x) as [-> |]; [|reflexivity]. exfalso. apply H. left. reflexivity.
Qed.

Lemma lastn_in x l : forall i d, In x l ->
  exists j, nth_error l j = Some x /\ lastn x l i d = N.of_nat (i + j)
            /\ forall k, nth_error l k = Some x -> (k <= j)%nat.
Proof.
  induction l as [|s r IH]; intros i d H; [destruct H|].
  destruct (in_dec bstr_eq_dec x r) as [Hr|Hr].
  - destruct (IH (S i) (if bstr_eqb s x then N.of_nat i else d) Hr) as (j & J1 & J2 & J3).
    exists (S j). cbn [nth_error lastn]. split; [exact J1|]. rewrite J2. split; [f_equal; lia|].
    intros [|k] Hk; [lia|]. apply J3 in Hk. lia.
  - destruct H as [-> |H]; [|contradiction]. exists 0%nat. cbn [nth_error lastn].
    rewrite lastn_notin by exact Hr. rewrite bstr_eqb_refl. split; [reflexivity|].
    split; [f_equal; lia|]. intros [|k] Hk; [lia|]. cbn [nth_error] in Hk.
    apply nth_error_In in Hk. contradiction.
Qed.

Lemma lastn_spec x l : last_number x l (lastn x l 0 65535).
Proof.
  destruct (in_dec bstr_eq_dec x l) as [H|H].
  - left. destruct (lastn_in x l 0 65535 H) as (j & J1 & J2 & J3).
    exists j. rewrite J2. auto.
  - right. split; [exact H|]. apply lastn_notin, H.
Qed.

Lemma last_number_fun x l n m : last_number x l n -> last_number x l m -> n = m.
Proof.
  intros [(i & I1 & -> & I2)|(I1 & ->)] [(j & J1 & -> & J2)|(J1 & ->)].
  - apply I2 in J1. apply J2 in I1. f_equal. lia.
  - exfalso. apply J1. eapply nth_error_In; eauto.
  - exfalso. apply I1. eapply nth_error_In; eauto.
  - reflexivity.
Qed.

Lemma alphabet_for_fun st a b : alphabet_for st a -> alphabet_for st b -> a = b.
Proof.
  intros (A1 & A2 & A3 & A4 & A5 & A6) (B1 & B2 & B3 & B4 & B5 & B6).
  destruct a, b. cbn in *. subst.
  rewrite (last_number_fun _ _ _ _ A3 B3), (last_number_fun _ _ _ _ A4 B4),
    (last_number_fun _ _ _ _ A5 B5). congruence.
Qed.

Lemma classify_all_for st a : classify_all alphabet0 0 st = Some a ->
  N.of_nat (length st) <= 65535 -> alphabet_for st (set_orig (set_table a st)).
Proof.
  intros H L. pose proof (classify_all_fd _ _ _ _ H) as (F & _).
  pose proof (classify_all_specials _ _ _ _ H) as (U & D & I).
  unfold alphabet_for. cbn [set_orig set_table a_table a_fd a_unknown a_default a_identity a_orig_count].
  rewrite U, D, I. cbn [alphabet0 a_unknown a_default a_identity].
  repeat split; try (apply lastn_spec).
  - exact F.
  - apply N.mod_small. lia.
Qed.

Lemma for_classify_all st a : alphabet_for st a ->
  exists a', classify_all alphabet0 0 st = Some a'.
Proof. intros (_ & F & _). eapply classify_all_Some. exact F. Qed.

Lemma alphabet_roundtrip st a rest :
  alphabet_for st a -> Forall nul_free st -> N.of_nat (length st) <= 65535 ->
  alphabet_read true (length st) (stream (alphabet_write a ++ rest)) = Ok (a, stream rest).
Proof.
  intros Ha Hn L. unfold alphabet_read, alphabet_write.
  rewrite (proj1 Ha). change (concat (map (fun s => s ++ [NUL]) st)) with (sym_bytes st).
  rewrite read_loop_ok by exact Hn.
  destruct (for_classify_all _ _ Ha) as [a' E]. rewrite E.
  assert (M : map (stored true) st = st).
  { rewrite <- (map_id st) at 2. apply map_ext. intros s. unfold stored. rewrite andb_false_r. reflexivity. }
  rewrite M. cbn [alphabet0 a_table app].
  rewrite (alphabet_for_fun st _ a (classify_all_for _ _ E L) Ha). reflexivity.
Qed.

(** Inversion of the reader: the stream starts with the symbols read. *)
Lemma getline_inv is s is' : getline is = Ok (s, is') ->
  nul_free s /\ is_eof is = false
  /\ ((is_bytes is = s ++ NUL :: is_bytes is' /\ is_eof is' = false)
      \/ (is_bytes is = s /\ s <> [] /\ is' = {| is_bytes := []; is_eof := true |})).
Proof.
  unfold getline. destruct is as [b e]. cbn [is_eof is_bytes]. destruct e; [discriminate|].
  destruct (split_nul b) as [s1 [r|]] eqn:E; apply split_nul_inv in E; destruct E as (F & ->).
  - destruct s1; intros H; injection H as <- <-; cbn; auto.
  - destruct s1 as [|c s1]; [discriminate|]. intros H. injection H as <- <-. cbn.
    rewrite app_nil_r. split; [exact F|]. split; [reflexivity|]. right.
    repeat split. discriminate.
Qed.

Lemma getline_cases is : (exists x, getline is = Ok x) \/ getline is = Throw.
Proof.
  unfold getline. destruct (is_eof is); auto.
  destruct (split_nul (is_bytes is)) as [[|c s] [r|]]; eauto.
Qed.

Lemma read_loop_cases p k : forall i a is,
  (exists x, alphabet_read_loop p k i a is = Ok x) \/ alphabet_read_loop p k i a is = Throw.
Proof.
  induction k as [|k IH]; intros i a is; cbn [alphabet_read_loop]; [eauto|].
  destruct (getline_cases is) as [[[s is'] ->]| ->]; cbn [rbind]; [|auto].
  destruct (classify a i s); [|auto]. apply IH.
Qed.

Lemma read_loop_inv k : forall i a is a' is',
  alphabet_read_loop true k i a is = Ok (a', is') ->
  exists l, length l = k /\ Forall nul_free l
    /\ (exists a2, classify_all a i l = Some a2
                   /\ a' = set_orig (set_table a2 (a_table a ++ l)))
    /\ ((is_eof is = false /\ is_bytes is = sym_bytes l ++ is_bytes is' /\ is_eof is' = false)
        \/ (k = 0%nat /\ is' = is)
        \/ (is_eof is = false /\ is_bytes is ++ [NUL] = sym_bytes l
            /\ is' = {| is_bytes := []; is_eof := true |} /\ last l [] <> [])).
Proof.
  induction k as [|k IH]; intros i a is a' is' H.
  - cbn [alphabet_read_loop] in H. injection H as <- <-. exists [].
    split; [reflexivity|]. split; [constructor|]. split; [exists a; split; [reflexivity|rewrite app_nil_r; destruct a; reflexivity]|].
    right. left. auto.
  - cbn [alphabet_read_loop] in H. apply rbind_Ok in H. destruct H as ([s i1] & E & H).
    destruct (classify a i s) as [a1|] eqn:Ec; [|discriminate].
    rewrite andb_false_r in H. apply getline_inv in E. destruct E as (Fs & Ee & E).
    rewrite c_str_free in H by exact Fs.
    apply IH in H. destruct H as (l & L1 & L2 & L3 & L4).
    destruct L3 as (a2 & L3 & L3').
    rewrite classify_all_set_table in L3. destruct (classify_all a1 (S i) l) as [a3|] eqn:E3; [|discriminate].
    injection L3 as <-. rewrite (classify_table _ _ _ _ Ec) in L3'.
    cbn [set_table a_table] in L3'.
    exists (s :: l). split; [cbn; congruence|]. split; [constructor; assumption|].
    split; [exists a3; cbn [classify_all]; rewrite Ec; split; [exact E3|];
            rewrite L3', set_table_twice, <- app_assoc; reflexivity|].
    unfold sym_bytes in *. cbn [map concat].
    destruct E as [(Eb & Ef)|(Eb & En & Ei)].
    + destruct L4 as [(M1 & M2 & M3)|[(M1 & M2)|(M1 & M2 & M3 & M4)]].
      * left. split; [exact Ee|]. split; [|exact M3]. rewrite Eb, M2, <- !app_assoc. reflexivity.
      * left. subst k. destruct l; [|discriminate]. subst i1. cbn [map concat app].
        split; [exact Ee|]. split; [|exact Ef]. rewrite Eb, app_nil_r, <- app_assoc. reflexivity.
      * right. right. split; [exact Ee|]. rewrite Eb, <- !app_assoc. cbn [app].
        split; [rewrite M2; reflexivity|]. split; [exact M3|].
        destruct l; [cbn in M4; congruence|exact M4].
    + destruct L4 as [(M1 & M2 & M3)|[(M1 & M2)|(M1 & M2 & M3 & M4)]].
      * subst i1. discriminate.
      * right. right. subst k. destruct l; [|discriminate]. split; [exact Ee|].
        rewrite Eb. cbn [map concat app]. rewrite app_nil_r. split; [reflexivity|].
        split; [congruence|exact En].
      * subst i1. discriminate.
Qed.

Lemma alphabet_read_inv k bs a is' :
  N.of_nat k <= 65535 -> alphabet_read true k (stream bs) = Ok (a, is') ->
  alphabet_for (a_table a) a /\ Forall nul_free (a_table a) /\ length (a_table a) = k
  /\ ((exists rest, bs = alphabet_write a ++ rest /\ is' = stream rest)
      \/ (bs ++ [NUL] = alphabet_write a /\ is' = {| is_bytes := []; is_eof := true |}
          /\ last (a_table a) [] <> [])).
Proof.
  intros Hk H. unfold alphabet_read in H. apply read_loop_inv in H.
  destruct H as (l & L1 & L2 & (a2 & L3 & ->) & L4).
  cbn [alphabet0 a_table app]. unfold alphabet_write.
  cbn [set_orig set_table a_table].
  split; [apply classify_all_for; [exact L3|rewrite L1; exact Hk]|]. split; [exact L2|]. split; [exact L1|].
  change (concat (map (fun s => s ++ [NUL]) l)) with (sym_bytes l).
  cbn [stream is_eof is_bytes] in L4.
  destruct L4 as [(_ & M2 & M3)|[(M1 & M2)|(_ & M2 & M3 & M4)]].
  - left. exists (is_bytes is'). split; [exact M2|]. destruct is'. cbn in M3. subst. reflexivity.
  - left. exists bs. subst k. destruct l; [|discriminate]. split; [reflexivity|exact M2].
  - right. auto.
Qed.

Lemma alphabet_read_cases p k is :
  (exists x, alphabet_read p k is = Ok x) \/ alphabet_read p k is = Throw.
Proof. apply read_loop_cases. Qed.

(** The last terminator may be missing. *)
Lemma sym_bytes_snoc l s : sym_bytes (l ++ [s]) = sym_bytes l ++ s ++ [NUL].
Proof. unfold sym_bytes. rewrite map_app, concat_app. cbn. rewrite app_nil_r. reflexivity. Qed.

Lemma classify_all_app l1 : forall l2 a i,
  classify_all a i (l1 ++ l2) =
  match classify_all a i l1 with
  | None => None | Some a' => classify_all a' (i + length l1) l2 end.
Proof.
  induction l1 as [|s r IH]; intros l2 a i; cbn [app classify_all length].
  - rewrite Nat.add_0_r. reflexivity.
  - destruct (classify a i s); [|reflexivity]. rewrite IH.
    destruct (classify_all _ _ r); [|reflexivity]. f_equal. lia.
Qed.

Lemma read_loop_ok_loop p l : forall k i a rest, Forall nul_free l ->
  alphabet_read_loop p (length l + k) i a (stream (sym_bytes l ++ rest)) =
  match classify_all a i l with
  | None => Throw
  | Some a' => alphabet_read_loop p k (i + length l)
                 (set_table a' (a_table a ++ map (stored p) l)) (stream rest)
  end.
Proof.
  induction l as [|s r IH]; intros k i a rest Hl.
  - cbn. rewrite app_nil_r, Nat.add_0_r. destruct a; reflexivity.
  - inversion Hl as [|x y Hs Hr]; subst. unfold sym_bytes in *. cbn [map concat length Nat.add].
    rewrite <- !app_assoc. cbn [app alphabet_read_loop classify_all].
    rewrite getline_app by exact Hs. cbn [rbind].
    destruct (classify a i s) as [a1|] eqn:Ec; [|reflexivity].
    cbv zeta. change (if is_diacritic s && negb p then [] else s) with (stored p s).
    assert (Hst : c_str (stored p s) = stored p s).
    { unfold stored. destruct (_ && _); [reflexivity|apply c_str_free, Hs]. }
    rewrite Hst, IH by exact Hr. rewrite classify_all_set_table.
    destruct (classify_all a1 (S i) r) as [a2|]; [|reflexivity].
    cbn [option_map]. rewrite (classify_table _ _ _ _ Ec), set_table_twice.
    cbn [set_table a_table]. rewrite <- app_assoc. cbn [app].
    replace (i + S (length r))%nat with (S i + length r)%nat by lia. reflexivity.
Qed.

Lemma alphabet_unterminated st s a :
  alphabet_for (st ++ [s]) a -> Forall nul_free (st ++ [s]) ->
  N.of_nat (length (st ++ [s])) <= 65535 -> s <> [] ->
  alphabet_read true (length (st ++ [s])) (stream (sym_bytes st ++ s))
  = Ok (a, {| is_bytes := []; is_eof := true |}).
Proof.
  intros Ha Hn L Hs. apply Forall_app in Hn. destruct Hn as (Hn & Hs'). inversion Hs'; subst.
  unfold alphabet_read. rewrite app_length. cbn [length].
  rewrite read_loop_ok_loop by exact Hn.
  destruct (for_classify_all _ _ Ha) as [a' E].
  pose proof (classify_all_for _ _ E L) as Ha'.
  rewrite (alphabet_for_fun _ _ _ Ha Ha').
  rewrite classify_all_app in E. destruct (classify_all alphabet0 0 st) as [a1|] eqn:E1; [|discriminate].
  cbn [alphabet_read_loop]. unfold getline. cbn [stream is_eof is_bytes].
  rewrite split_nul_None by assumption.
  destruct s as [|c s]; [congruence|]. cbn [rbind].
  rewrite classify_set_table. cbn [classify_all Nat.add] in E |- *.
  destruct (classify a1 (length st) (c :: s)) as [a2|]; [|discriminate]. injection E as ->.
  cbn [option_map]. rewrite andb_false_r. rewrite c_str_free by assumption.
  cbn [set_table a_table alphabet0 app].
  assert (M : map (stored true) st = st).
  { rewrite <- (map_id st) at 2. apply map_ext. intros x. unfold stored. rewrite andb_false_r. reflexivity. }
  rewrite M. reflexivity.
Qed.

(** * Tables *)
Lemma entries_concat {A} size (f : list ascii -> A) (w : A -> list ascii) (g : A -> A) l :
  (forall e, In e l -> length (w e) = size /\ f (w e) = g e) ->
  entries size f (length l) (concat (map w l)) = map g l
  /\ length (concat (map w l)) = (size * length l)%nat.
Proof.
  induction l as [|e r IH]; intros H.
  - cbn. split; [reflexivity|lia].
  - destruct (H e (or_introl eq_refl)) as (H1 & H2).
    destruct IH as (I1 & I2); [intros x Hx; apply H; right; exact Hx|].
    cbn [map concat length entries]. split.
    + rewrite firstn_app, <- H1, Nat.sub_diag, firstn_all, app_nil_r.
      rewrite skipn_app, Nat.sub_diag, skipn_all. cbn [app skipn]. rewrite H1, H2, I1. reflexivity.
    + rewrite app_length, I2, H1. lia.
Qed.

Lemma table_read_ok {A} size (f : list ascii -> A) (w : A -> list ascii) (g : A -> A) l rest :
  (forall e, In e l -> length (w e) = size /\ f (w e) = g e) ->
  table_read size f (length l) (stream (concat (map w l) ++ rest)) = Ok (map g l, stream rest).
Proof.
  intros H. destruct (entries_concat size f w g l H) as (H1 & H2).
  unfold table_read. rewrite rd_app by exact H2. cbn [rbind]. rewrite H1. reflexivity.
Qed.

Lemma firstn_le k n r : firstn k (le k n ++ r) = le k n.
Proof.
  rewrite firstn_app, le_length, Nat.sub_diag, firstn_O, app_nil_r.
  rewrite <- (le_length k n) at 1. apply firstn_all.
Qed.
Lemma skipn_le k n r : skipn k (le k n ++ r) = r.
Proof.
  rewrite skipn_app, le_length, Nat.sub_diag.
  rewrite <- (le_length k n) at 1. rewrite skipn_all. reflexivity.
Qed.

Lemma skipn_add {A} a b (l : list A) : skipn (a + b) l = skipn b (skipn a l).
Proof.
  revert l. induction a as [|a IH]; intros [|x l]; cbn; auto. destruct b; reflexivity.
Qed.

Definition norm_index (weighted : bool) (e : index_entry) : index_entry :=
  {| ie_input := ie_input e;
     ie_target := if negb weighted && index_final e then 1 else ie_target e |}.
Definition norm_trans (weighted : bool) (e : trans_entry) : trans_entry :=
  {| te_input := te_input e; te_output := te_output e; te_target := te_target e;
     te_weight := if weighted then te_weight e else 0 |}.

Lemma index_rw w e : index_fits e ->
  length (index_write w e) = index_bytes /\ index_of_bytes (index_write w e) = norm_index w e.
Proof.
  intros (H1 & H2). unfold index_write, index_of_bytes, norm_index, index_final.
  rewrite firstn_le, skipn_le, unle_le by exact H1.
  rewrite app_length, le_length. rewrite andb_assoc.
  destruct (negb w && (ie_input e =? NO_SYMBOL) && negb (ie_target e =? NO_TABLE_INDEX));
    rewrite le_length; split; try reflexivity; f_equal.
  rewrite <- (app_nil_r (le 4 _)), firstn_le. apply unle_le. exact H2.
Qed.

Lemma trans_rw c w e : trans_fits e -> (w = true -> c = true) ->
  length (trans_write c w e) = trans_bytes w
  /\ trans_of_bytes w (trans_write c w e) = norm_trans w e.
Proof.
  intros (H1 & H2 & H3 & H4) Hc. unfold trans_write, trans_of_bytes, norm_trans.
  assert (S4 : forall r, skipn 4 (le 2 (te_input e) ++ le 2 (te_output e) ++ r) = r).
  { intros r. change 4%nat with (2 + 2)%nat. rewrite skipn_add, !skipn_le. reflexivity. }
  assert (S8 : forall r, skipn 8 (le 2 (te_input e) ++ le 2 (te_output e) ++ le 4 (te_target e) ++ r) = r).
  { intros r. change 8%nat with (4 + 4)%nat. rewrite skipn_add, S4, skipn_le. reflexivity. }
  rewrite S4, S8, skipn_le, !firstn_le, !unle_le by assumption.
  rewrite !app_length, !le_length.
  destruct w.
  - rewrite (Hc eq_refl), le_length. split; [reflexivity|]. f_equal.
    rewrite <- (app_nil_r (le 4 (te_weight e))), firstn_le. apply unle_le. exact H4.
  - split; reflexivity.
Qed.

Lemma transducer_rw t rest : consistent t ->
  (h_weighted (tr_header t) = true -> t_wclass (tr_tables t) = true) ->
  exists bs, transducer_write t = Ok bs
  /\ transducer_read (stream (bs ++ rest)) =
     Ok ({| tr_header := tr_header t; tr_alphabet := tr_alphabet t;
            tr_tables :=
              {| t_wclass := h_weighted (tr_header t);
                 t_index := map (norm_index (h_weighted (tr_header t))) (t_index (tr_tables t));
                 t_trans := map (norm_trans (h_weighted (tr_header t))) (t_trans (tr_tables t)) |} |},
         stream rest).
Proof.
  intros [C1 C2 C3 C4 C5 C6 C7 C8] Hw.
  unfold transducer_write. rewrite C5, C6, !Nat2N.id, !firstn_all, !Nat.ltb_irrefl.
  cbn [orb]. eexists. split; [reflexivity|].
  unfold transducer_read. rewrite <- !app_assoc, header_roundtrip by exact C1. cbn [rbind].
  rewrite C4, Nat2N.id. rewrite alphabet_roundtrip; [|exact C2|exact C3|].
  2:{ destruct C1 as (_ & C1 & _). rewrite C4 in C1. change (2 ^ 16) with 65536 in C1. lia. }
  cbn [rbind]. unfold load_tables. rewrite C5, C6, !Nat2N.id.
  rewrite (table_read_ok _ _ (index_write (h_weighted (tr_header t))) (norm_index (h_weighted (tr_header t)))).
  2:{ intros e He. apply index_rw. exact (proj1 (Forall_forall _ _) C7 e He). }
  cbn [rbind].
  rewrite (table_read_ok _ _ (trans_write (t_wclass (tr_tables t)) (h_weighted (tr_header t)))
             (norm_trans (h_weighted (tr_header t)))).
  2:{ intros e He. apply trans_rw; [|exact Hw]. exact (proj1 (Forall_forall _ _) C8 e He). }
  reflexivity.
Qed.

Lemma map_norm_id t : canonical_tables t ->
  {| t_wclass := h_weighted (tr_header t);
     t_index := map (norm_index (h_weighted (tr_header t))) (t_index (tr_tables t));
     t_trans := map (norm_trans (h_weighted (tr_header t))) (t_trans (tr_tables t)) |}
  = tr_tables t.
Proof.
  intros (H1 & H2). destruct (tr_tables t) as [c ix tr]. cbn [t_wclass t_index t_trans] in *.
  subst c. f_equal.
  - rewrite <- (map_id ix) at 2. apply map_ext_in. intros [a b] He. unfold norm_index. cbn.
    f_equal. destruct (h_weighted (tr_header t)); [reflexivity|]. cbn [negb andb].
    destruct (index_final _) eqn:E; [|reflexivity].
    destruct (H2 eq_refl) as (H3 & _). rewrite Forall_forall in H3. symmetry.
    exact (H3 _ He E).
  - rewrite <- (map_id tr) at 2. apply map_ext_in. intros [a b c d] He. unfold norm_trans. cbn.
    f_equal. destruct (h_weighted (tr_header t)); [reflexivity|].
    destruct (H2 eq_refl) as (_ & H3). rewrite Forall_forall in H3. symmetry.
    exact (H3 _ He).
Qed.

(** What the reader accepts is what the writer writes. *)
Lemma entries_length {A} size (f : list ascii -> A) n p : length (entries size f n p) = n.
Proof. revert p; induction n; intros p; cbn; auto. Qed.

Lemma entries_inv {A} size (f : list ascii -> A) (w : A -> list ascii) n : forall p,
  (forall bs, length bs = size -> w (f bs) = bs) ->
  length p = (size * n)%nat -> concat (map w (entries size f n p)) = p.
Proof.
  induction n as [|n IH]; intros p Hw L.
  - cbn. destruct p; [reflexivity|]. cbn in L. lia.
  - cbn [entries map concat]. rewrite Hw by (apply firstn_length_le; lia).
    rewrite IH; [apply firstn_skipn|exact Hw|]. rewrite skipn_length. lia.
Qed.

Lemma table_read_inv {A} size (f : list ascii -> A) n is l is' :
  table_read size f n is = Ok (l, is') ->
  exists bs, length bs = (size * n)%nat /\ is = stream (bs ++ is_bytes is')
    /\ is' = stream (is_bytes is') /\ l = entries size f n bs.
Proof.
  unfold table_read. intros H. apply rbind_Ok in H. destruct H as ([bs i] & E & H).
  injection H as <- <-. apply rd_inv in E. destruct E as (E1 & E2 & E3).
  exists bs. auto.
Qed.

Lemma firstn_fits bs k : unle (firstn k bs) < 256 ^ N.of_nat k.
Proof.
  eapply N.lt_le_trans; [apply unle_lt|]. apply N.pow_le_mono_r; [lia|].
  pose proof (firstn_le_length k bs). lia.
Qed.

Lemma index_of_bytes_fits bs : index_fits (index_of_bytes bs).
Proof. split; apply firstn_fits. Qed.

Lemma trans_of_bytes_fits c bs : trans_fits (trans_of_bytes c bs).
Proof.
  repeat split; try apply firstn_fits.
  unfold trans_of_bytes. destruct c; cbn [te_weight]; [apply firstn_fits|vm_compute; reflexivity].
Qed.

Lemma le_firstn k bs : (k <= length bs)%nat -> le k (unle (firstn k bs)) = firstn k bs.
Proof. intros H. rewrite <- (firstn_length_le bs H) at 1. apply le_unle. Qed.

Lemma trans_wr w bs : length bs = trans_bytes w -> trans_write w w (trans_of_bytes w bs) = bs.
Proof.
  intros L. unfold trans_write, trans_of_bytes. cbn [te_input te_output te_target te_weight].
  assert (8 <= length bs)%nat by (destruct w; cbn in L; lia).
  rewrite !le_firstn by (rewrite ?skipn_length; lia).
  assert (E : forall a b (l : list ascii), firstn a l ++ firstn b (skipn a l) = firstn (a + b) l).
  { intros a b l. revert l. induction a as [|a IH]; intros [|x l]; cbn; auto.
    - destruct b; reflexivity.
    - f_equal. apply IH. }
  assert (W : (if w then if w then le 4 (if w then unle (firstn 4 (skipn 8 bs)) else 0) else B "0" else [])
              = skipn 8 bs).
  { destruct w.
    - rewrite le_firstn by (rewrite skipn_length; cbn in L; lia).
      apply firstn_all2. rewrite skipn_length. cbn in L. lia.
    - symmetry. apply skipn_all2. cbn in L. lia. }
  rewrite W.
  rewrite (app_assoc (firstn 2 bs)), E. cbn [Nat.add]. rewrite (app_assoc (firstn 4 bs)), E.
  cbn [Nat.add]. apply firstn_skipn.
Qed.

Lemma index_wr bs : length bs = index_bytes -> index_write true (index_of_bytes bs) = bs.
Proof.
  intros L. unfold index_write, index_of_bytes. cbn [ie_input ie_target negb andb].
  unfold index_bytes in L. rewrite !le_firstn by (rewrite ?skipn_length; lia).
  rewrite <- (firstn_skipn 2 bs) at 3. f_equal. apply firstn_all2. rewrite skipn_length. lia.
Qed.

Lemma entries_Forall {A} size (f : list ascii -> A) (P : A -> Prop) n :
  (forall bs, P (f bs)) -> forall p, Forall P (entries size f n p).
Proof. intros H. induction n; intros p; cbn; constructor; auto. Qed.

Lemma transducer_read_inv bs t is' : transducer_read (stream bs) = Ok (t, is') ->
  consistent t /\ t_wclass (tr_tables t) = h_weighted (tr_header t)
  /\ (h_weighted (tr_header t) = true ->
      exists rest bs', is' = stream rest /\ transducer_write t = Ok bs' /\ bs = bs' ++ rest).
Proof.
  unfold transducer_read. intros H.
  apply rbind_Ok in H. destruct H as ([h i1] & E1 & H).
  apply rbind_Ok in H. destruct H as ([a i2] & E2 & H).
  apply rbind_Ok in H. destruct H as ([tb i3] & E3 & H). injection H as <- <-.
  apply header_read_inv in E1. destruct E1 as (F1 & E1 & E1').
  rewrite E1' in E2. apply alphabet_read_inv in E2.
  2:{ destruct F1 as (_ & F1 & _). change (2 ^ 16) with 65536 in F1. rewrite N2Nat.id. lia. }
  destruct E2 as (A1 & A2 & A3 & A4).
  unfold load_tables in E3. apply rbind_Ok in E3. destruct E3 as ([ix i4] & E3 & E4).
  apply rbind_Ok in E4. destruct E4 as ([tr i5] & E4 & E5). injection E5 as <- <-.
  apply table_read_inv in E3. destruct E3 as (bi & L1 & -> & T1 & ->).
  rewrite T1 in E4. apply table_read_inv in E4. destruct E4 as (bt & L2 & T2 & T3 & ->).
  cbn [tr_header tr_alphabet tr_tables t_wclass t_index t_trans].
  split; [constructor; cbn [tr_header tr_alphabet tr_tables t_wclass t_index t_trans]|].
  - exact F1.
  - exact A1.
  - exact A2.
  - rewrite A3. symmetry. apply N2Nat.id.
  - rewrite entries_length. symmetry. apply N2Nat.id.
  - rewrite entries_length. symmetry. apply N2Nat.id.
  - apply entries_Forall. apply index_of_bytes_fits.
  - apply entries_Forall. apply trans_of_bytes_fits.
  - split; [reflexivity|]. intros W.
    exists (is_bytes i5). eexists. split; [exact T3|].
    unfold transducer_write. cbn [tr_header tr_alphabet tr_tables t_wclass t_index t_trans].
    rewrite !entries_length, !Nat.ltb_irrefl. cbn [orb]. split; [reflexivity|].
    apply stream_inj in E1. apply stream_inj in T2. rewrite E1, <- !app_assoc. f_equal.
    destruct A4 as [(rest & R1 & R2)|(R1 & R2 & _)].
    2:{ discriminate R2. }
    apply stream_inj in R2. rewrite R1, <- R2. f_equal.
    rewrite !firstn_all2 by (rewrite entries_length; lia).
    rewrite W in *.
    rewrite (entries_inv _ _ _ _ bi index_wr L1).
    rewrite (entries_inv _ _ _ _ bt (trans_wr true) L2). rewrite T2. reflexivity.
Qed.
