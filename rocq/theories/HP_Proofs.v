(** The circular buffer and the stream of tokens. *)
From Verif Require Import Base HP_Model HP_Spec.
From Coq Require Import Lia.

Lemma mod_at z q r n : n = z * q + r -> r < z -> n mod z = r.
Proof. intros -> H. symmetry. apply Nat.mod_unique with q; lia. Qed.

(** * Positions *)
(** The position of the cursor when [n] tokens have been read. *)
Definition rep (z n : nat) : nat := match n with 0 => 0 | S m => S (m mod z) end.
Lemma rep_le z n : 0 < z -> rep z n <= z.
Proof. intros H. destruct n; simpl; [lia|]. pose proof (Nat.mod_upper_bound n z). lia. Qed.
Lemma rep_next z n : 0 < z -> (if rep z n =? z then 0 else rep z n) = n mod z.
Proof.
  intros H. destruct n as [|m]; cbn [rep].
  - rewrite Nat.mod_small by lia. destruct (0 =? z) eqn:E; reflexivity.
  - pose proof (Nat.div_mod_eq m z). pose proof (Nat.mod_upper_bound m z ltac:(lia)).
    destruct (Nat.eqb_spec (S (m mod z)) z) as [E|E].
    + symmetry. apply mod_at with (S (m / z)); nia.
    + symmetry. apply mod_at with (m / z); lia.
Qed.
Lemma rep_inj z p l : 0 < z -> p <= l -> l < p + z -> (p = 0 -> l = 0) -> rep z p = rep z l -> p = l.
Proof.
  intros H A Bd P0 E. destruct p as [|p]; [rewrite P0; auto|]. destruct l as [|l]; [lia|]. cbn [rep] in E.
  pose proof (Nat.div_mod_eq p z). pose proof (Nat.div_mod_eq l z).
  assert (p mod z = l mod z) as R by lia.
  destruct (lt_eq_lt_dec (p / z) (l / z)) as [[C|C]|C]; [|nia|]; nia.
Qed.
Lemma rep_back z p k : 0 < z -> k < p -> k < z ->
  (if k <? rep z p then rep z p - k else z - (k - rep z p)) = rep z (p - k) /\ k - rep z p <= z.
Proof.
  intros H K Z. destruct p as [|p]; [lia|]. replace (S p - k) with (S (p - k)) by lia. cbn [rep].
  pose proof (Nat.div_mod_eq p z). pose proof (Nat.mod_upper_bound p z ltac:(lia)).
  split; [|lia]. destruct (Nat.ltb_spec k (S (p mod z))) as [C|C].
  - replace ((p - k) mod z) with (p mod z - k); [lia|]. symmetry. apply mod_at with (p / z); lia.
  - replace ((p - k) mod z) with (p mod z + z - k); [lia|]. symmetry.
    assert (1 <= p / z) by (destruct (p / z); nia).
    apply mod_at with (p / z - 1); [|lia]. nia.
Qed.
Lemma rep_diff z p i : 0 < z -> i < p -> p - i <= z ->
  (if rep z (S i) <=? rep z p then rep z p - rep z (S i) else rep z p + z - rep z (S i)) = p - S i.
Proof.
  intros H I D. destruct p as [|p]; [lia|]. cbn [rep].
  pose proof (Nat.div_mod_eq p z). pose proof (Nat.mod_upper_bound p z ltac:(lia)).
  pose proof (Nat.div_mod_eq i z). pose proof (Nat.mod_upper_bound i z ltac:(lia)).
  assert (p / z = i / z \/ p / z = i / z + 1) as [C|C].
  { destruct (lt_eq_lt_dec (p / z) (i / z)) as [[C|C]|C]; [nia|auto|].
    destruct (Nat.eq_dec (p / z) (i / z + 1)); [auto|]. assert (i / z + 2 <= p / z) by lia. nia. }
  - destruct (Nat.leb_spec (S (i mod z)) (S (p mod z))); nia.
  - destruct (Nat.leb_spec (S (i mod z)) (S (p mod z))); nia.
Qed.

(** * The buffer *)
Lemma length_update {A} i (v : A) l : length (update i v l) = length l.
Proof. revert i. induction l; intros [|i]; simpl; auto. Qed.
Lemma nth_update {A} i (v : A) l j : i < length l ->
  nth_error (update i v l) j = if j =? i then Some v else nth_error l j.
Proof. revert i j. induction l as [|x l IH]; intros [|i] [|j] L; simpl in *; try lia; try reflexivity. apply IH. lia. Qed.

(** The buffer of size [z] after the first [l] of the tokens [ts] have been read, with the
    cursor after [p] of them. *)
Record ring (z : nat) (ts : list token) (b : buffer) (p l : nat) : Prop := {
  r_size : size b = z; r_cells : length (cells b) = z; r_pos : 1 < z;
  r_cur : currentpos b = rep z p; r_last : lastpos b = rep z l;
  r_le : p <= l; r_win : l < p + z; r_zero : p = 0 -> l = 0; r_len : l <= length ts;
  r_cell : forall i, i < l -> l <= i + z -> nth_error (cells b) (i mod z) = nth_error ts i }.

Lemma ring_new z ts : 1 < z -> ring z ts (new_buffer z) 0 0.
Proof. intros H. constructor; simpl; auto; try lia. apply repeat_length. Qed.
Lemma ring_empty z ts b p l : ring z ts b p l -> b_empty b = (p =? l).
Proof.
  intros [? ? ? C La ? ? ? ? ?]. unfold b_empty. rewrite C, La.
  destruct (Nat.eqb_spec p l) as [->|N]; [apply Nat.eqb_refl|]. apply Nat.eqb_neq. intros E. apply N.
  apply (rep_inj z); auto; lia.
Qed.
Lemma ring_add z ts b l t : ring z ts b l l -> nth_error ts l = Some t -> ring z ts (b_add b t) (S l) (S l).
Proof.
  intros [Sz Ce Po C La Le W Z Ln Cell] E. unfold b_add. rewrite La, Sz, rep_next by lia.
  assert (l < length ts) by (apply nth_error_Some; congruence).
  assert (l mod z < z) by (apply Nat.mod_upper_bound; lia).
  constructor; simpl; rewrite ?length_update; auto; try lia.
  intros i I1 I2. rewrite nth_update by lia. destruct (Nat.eqb_spec (i mod z) (l mod z)) as [M|M].
  - assert (i = l) as ->; [|auto]. pose proof (rep_inj z (S i) (S l)) as R. cbn [rep] in R. specialize (R ltac:(lia) ltac:(lia) ltac:(lia) ltac:(lia) ltac:(lia)). lia.
  - apply Cell; [|lia]. destruct (Nat.eq_dec i l); [congruence|lia].
Qed.
Lemma ring_next z ts b p l : ring z ts b p l -> p < l ->
  exists t b', nth_error ts p = Some t /\ b_next b = Ok (t, b') /\ ring z ts b' (S p) l.
Proof.
  intros R L. pose proof (ring_empty _ _ _ _ _ R) as Em. destruct R as [Sz Ce Po C La Le W Z Ln Cell].
  destruct (nth_error ts p) as [t|] eqn:E; [|apply nth_error_None in E; lia].
  unfold b_next. unfold b_empty in Em. rewrite Em. replace (p =? l) with false by (symmetry; apply Nat.eqb_neq; lia).
  rewrite C, Sz, rep_next by lia. unfold b_get. rewrite Cell, E by lia. cbn [rmap rbind].
  eexists t, _. split; [reflexivity|]. split; [reflexivity|]. constructor; simpl; auto; lia.
Qed.
Lemma ring_back z ts b p l k : ring z ts b p l -> k < p -> l < p - k + z ->
  exists b', b_back b k = Ok b' /\ ring z ts b' (p - k) l.
Proof.
  intros [Sz Ce Po C La Le W Z Ln Cell] K Wn. unfold b_back. rewrite C, Sz.
  destruct (rep_back z p k ltac:(lia) K ltac:(lia)) as [E Lz].
  destruct (k <? rep z p).
  - eexists. split; [reflexivity|]. constructor; simpl; auto; lia.
  - replace (z <? k - rep z p) with false by (symmetry; apply Nat.ltb_ge; lia).
    eexists. split; [reflexivity|]. constructor; simpl; auto; lia.
Qed.
Lemma ring_get z ts b p l i : ring z ts b p l -> i < l -> l <= i + z -> exists t, nth_error ts i = Some t /\ b_get b (i mod z) = Ok t.
Proof.
  intros [Sz Ce Po C La Le W Z Ln Cell] I1 I2. destruct (nth_error ts i) as [t|] eqn:E; [|apply nth_error_None in E; lia].
  exists t. split; auto. unfold b_get. rewrite Cell, E by lia. reflexivity.
Qed.
Lemma ring_pos z ts b p l : ring z ts b (S p) l -> currentpos b - 1 = p mod z.
Proof. intros R. rewrite (r_cur _ _ _ _ _ R). cbn [rep]. lia. Qed.
Lemma ring_diff z ts b p l i : ring z ts b p l -> i < p -> p - i <= z -> b_diff_prev b (i mod z + 1) = p - S i.
Proof.
  intros [Sz Ce Po C La Le W Z Ln Cell] I D. unfold b_diff_prev. rewrite C, Sz.
  rewrite <- (rep_diff z p i) by lia. cbn [rep]. replace (i mod z + 1) with (S (i mod z)) by lia. reflexivity.
Qed.

(** * The stream *)
Lemma skipn_nth {A} (l : list A) i x : nth_error l i = Some x -> skipn i l = x :: skipn (S i) l.
Proof. revert i. induction l as [|y l IH]; intros [|i] E; simpl in *; try discriminate; [congruence|]. apply IH, E. Qed.
Lemma reads_none g is ts rest : reads g is ts rest -> ~ In TNone ts.
Proof. induction 1 as [|? t ? ? ? ? N R IH]; simpl; [tauto|]. intros [E|E]; auto. Qed.
Section Stream.
  Variables (g : config) (z : nat) (ts : list token) (rest : bstr).
  Hypothesis no_none : ~ In TNone ts.
  Definition stream_at (x : io) (p l : nat) : Prop := ring z ts (tb x) p l /\ reads g (input x) (skipn l ts) rest.
  Lemma get_token_some x p l : stream_at x p l -> p < length ts ->
    exists t x', nth_error ts p = Some t /\ t <> TNone /\ get_token g x = Ok (t, x') /\ stream_at x' (S p) (max l (S p)) /\ out x' = out x.
  Proof using no_none.
    intros [R Rd] P. unfold get_token. rewrite (ring_empty _ _ _ _ _ R).
    pose proof (r_le _ _ _ _ _ R). destruct (Nat.eqb_spec p l) as [->|N].
    - destruct (nth_error ts l) as [t|] eqn:E; [|apply nth_error_None in E; lia].
      rewrite (skipn_nth _ _ _ E) in Rd. inversion Rd as [|? ? is' ? ? Rt Nn Rd']; subst. rewrite Rt. cbn [rbind].
      eexists t, _. split; [reflexivity|]. split; [exact Nn|]. split; [reflexivity|].
      rewrite Nat.max_r by lia. split; [|simpl; apply app_nil_r].
      split; simpl; [|exact Rd']. destruct t; try congruence; apply ring_add; auto.
    - destruct (ring_next _ _ _ _ _ R ltac:(lia)) as (t & b' & E & Nx & R'). rewrite Nx. cbn [rmap rbind].
      eexists t, _. split; [exact E|]. split.
      + intros ->. apply no_none. eapply nth_error_In, E.
      + split; [reflexivity|]. rewrite Nat.max_l by lia. split; [|reflexivity]. split; simpl; auto.
  Qed.
  Lemma get_token_none x l : stream_at x (length ts) l -> exists x', get_token g x = Ok (TNone, x') /\ out x' = out x.
  Proof using.
    intros [R Rd]. unfold get_token. rewrite (ring_empty _ _ _ _ _ R).
    pose proof (r_le _ _ _ _ _ R). pose proof (r_len _ _ _ _ _ R). replace l with (length ts) in * by lia.
    rewrite Nat.eqb_refl. rewrite skipn_all in Rd. inversion Rd as [? is' Rt|]; subst. rewrite Rt. cbn [rbind].
    eexists. split; [reflexivity|]. simpl. apply app_nil_r.
  Qed.
  Lemma move_back_at x p l k : stream_at x p l -> k < p -> l < p - k + z ->
    exists x', move_back x k = Ok x' /\ stream_at x' (p - k) l /\ out x' = out x.
  Proof using.
    intros [R Rd] K W. unfold move_back. destruct (ring_back _ _ _ _ _ _ R K W) as (b' & E & R'). rewrite E. cbn [rmap].
    eexists. split; [reflexivity|]. split; [|reflexivity]. split; auto.
  Qed.
  Lemma put_at x p l s : stream_at x p l -> stream_at (put s x) p l.
  Proof using. intros [R Rd]. split; auto. Qed.
End Stream.
