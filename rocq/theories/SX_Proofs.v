From Verif Require Import Base BT_Model BT_Spec BT_Proofs Str_Model Str_Spec Str_Proofs ATT_Model ATT_Spec ATT_Proofs IN_Spec IN_Model IN_Proofs SX_Spec SX_Model.
From Coq Require Import Lia NArith ZArith.
Close Scope Z_scope.

(** * Numbers in names *)
Lemma digits_decimal s : Forall is_digit s -> s <> [] -> decimal s (value s 0).
Proof.
  induction s as [|c s IH] using rev_ind; intros F N; [congruence|].
  apply Forall_app in F. destruct F as [F D]. inversion D as [|? ? [d E] _]; subst.
  assert (DI : digit_is c d).
  { unfold digit_value in E. destruct ((48 <=? N_of_ascii c) && (N_of_ascii c <=? 57))%N%bool eqn:R; [|discriminate E].
    apply andb_prop in R. destruct R as [R1 R2]. apply N.leb_le in R1, R2. injection E as <-. split; lia. }
  rewrite value_app by exact F. cbn [value]. rewrite E. destruct s as [|b s].
  - cbn [app value]. replace (10 * 0 + d)%N with d by lia. apply dec_one, DI.
  - apply dec_more; [apply IH; [exact F|discriminate]|exact DI].
Qed.
Lemma digits_last f : forall n, (n < 2 ^ N.of_nat f)%N -> n <> 0%N -> exists l c, digits f n = l ++ [c] /\ c <> "0"%char.
Proof.
  induction f as [|f IH]; intros n H N; [cbn in H; lia|]. cbn [digits]. destruct (N.eqb_spec n 0) as [|_]; [contradiction|].
  destruct (N.eq_dec (n / 10) 0) as [Z|Z].
  - exists [], (digit (n mod 10)). rewrite Z. split; [destruct f; reflexivity|].
    assert (L : (n < 10)%N) by (pose proof (N.div_mod n 10); pose proof (N.mod_lt n 10); lia). rewrite N.mod_small by exact L.
    intros E. assert (K : digit_value (digit n) = Some 0%N) by (rewrite E; reflexivity). rewrite digit_value_digit in K by exact L. congruence.
  - destruct (IH (n / 10)%N) as (l & c & E & C); [|exact Z|].
    + rewrite Nat2N.inj_succ, N.pow_succ_r' in H. apply N.div_lt_upper_bound; lia.
    + exists (digit (n mod 10) :: l), c. rewrite E. auto.
Qed.
Lemma print_nat_numbered prefix ext n : n <> 0 -> numbered prefix ext n (out_name prefix ext (N.of_nat n)).
Proof.
  intros H. exists (print_nat (N.of_nat n)). split; [|split; [|reflexivity]].
  - rewrite <- (print_nat_value (N.of_nat n)) at 2. apply digits_decimal; [apply print_nat_digits|apply print_nat_nonnil].
  - unfold print_nat. destruct (N.eqb_spec (N.of_nat n) 0) as [E|E]; [lia|].
    destruct (digits_last _ _ (size_bound (N.of_nat n)) E) as (l & c & -> & C). rewrite rev_app_distr. cbn. congruence.
Qed.
Lemma out_name_inj prefix ext n m : out_name prefix ext n = out_name prefix ext m -> n = m.
Proof.
  unfold out_name. intros H. apply app_inv_head in H. apply app_inv_tail in H. rewrite <- (print_nat_value n), <- (print_nat_value m), H. reflexivity.
Qed.

(** * hfst-split *)
Section Split.
  Context {T : Type} (prefix ext : bstr).
  Lemma split_other l : forall (k : nat) (fs : @files T) name, (forall i, k < i <= k + length l -> name <> out_name prefix ext (N.of_nat i)) ->
    split_from prefix ext (N.of_nat k) l fs name = fs name.
  Proof.
    induction l as [|t l IH]; intros k fs name H; cbn [split_from]; [reflexivity|].
    replace (N.of_nat k + 1)%N with (N.of_nat (S k)) by lia. rewrite IH.
    - unfold write. destruct (bstr_eqb_spec name (out_name prefix ext (N.of_nat (S k)))) as [E|_]; [|reflexivity].
      exfalso. apply (H (S k)); [cbn [length]; lia|exact E].
    - intros i I. apply H. cbn [length]. lia.
  Qed.
  Lemma split_nth l : forall (k : nat) (fs : @files T) i t, nth_error l i = Some t ->
    split_from prefix ext (N.of_nat k) l fs (out_name prefix ext (N.of_nat (k + i + 1))) = Some [t].
  Proof.
    induction l as [|u l IH]; intros k fs i t H; [destruct i; discriminate H|]. cbn [split_from].
    replace (N.of_nat k + 1)%N with (N.of_nat (S k)) by lia. destruct i as [|i]; cbn [nth_error] in H.
    - injection H as ->. replace (k + 0 + 1) with (S k) by lia. rewrite split_other.
      + unfold write. rewrite bstr_eqb_refl. reflexivity.
      + intros i I E. apply out_name_inj in E. lia.
    - replace (k + S i + 1) with (S k + i + 1) by lia. apply IH, H.
  Qed.
End Split.

(** * hfst-multiply *)
Section Multiply.
  Context {T : Type}.
  Lemma duplicate_small n (t : T) : (n < 2 ^ 32)%Z -> forall k i out, (0 <= i)%Z -> (i + Z.of_nat k = n)%Z ->
    (duplicate n t i out <-> out = repeat t k).
  Proof.
    intros B. induction k as [|k IH]; intros i out P E.
    - assert (L : (i <? n)%Z = false) by (apply Z.ltb_ge; lia). split.
      + intros H. inversion H as [? L'|? ? L' _]; subst; [reflexivity|congruence].
      + intros ->. constructor. exact L.
    - assert (L : (i <? n)%Z = true) by (apply Z.ltb_lt; lia).
      assert (M : ((i + 1) mod 2 ^ 32 = i + 1)%Z) by (apply Z.mod_small; lia). split.
      + intros H. inversion H as [? L'|? o L' H']; subst; [congruence|]. rewrite M in H'. apply IH in H'; [|lia|lia]. subst o. reflexivity.
      + intros ->. cbn [repeat]. constructor; [exact L|]. rewrite M. apply IH; [lia|lia|reflexivity].
  Qed.
  Lemma duplicate_large n (t : T) i out : duplicate n t i out -> (2 ^ 32 <= n)%Z -> (0 <= i < 2 ^ 32)%Z -> False.
  Proof.
    induction 1 as [i L|i out L H IH]; intros B I.
    - apply Z.ltb_ge in L. lia.
    - apply IH; [exact B|]. apply Z.mod_pos_bound. reflexivity.
  Qed.
  Lemma repeat_each (t : T) k p : length p = k /\ Forall (eq t) p <-> p = repeat t k.
  Proof.
    split.
    - intros [L F]. subst k. induction F as [|u p E F IH]; [reflexivity|]. subst u. cbn [length repeat]. rewrite <- IH. reflexivity.
    - intros ->. split; [apply repeat_length|]. induction k; constructor; auto.
  Qed.
  Lemma multiply_small k (l : list T) : (Z.of_nat k < 2 ^ 32)%Z -> forall out, multiply (Z.of_nat k) l out <-> each_repeated k l out.
  Proof.
    intros B. induction l as [|t l IH]; intros out.
    - split.
      + intros H. inversion H; subst. exists []. split; constructor.
      + intros (ps & F & ->). inversion F; subst. constructor.
    - split.
      + intros H. inversion H as [|? ? o r D M]; subst. apply (duplicate_small (Z.of_nat k) t B k 0 o) in D; [|lia|lia].
        apply IH in M. destruct M as (ps & F & ->). exists (o :: ps). split; [|reflexivity]. constructor; [apply repeat_each, D|exact F].
      + intros (ps & F & ->). inversion F as [|? p ? ps' P F']; subst. cbn [concat]. constructor.
        * apply (duplicate_small (Z.of_nat k) t B k 0 p); [lia|lia|]. apply repeat_each, P.
        * apply IH. exists ps'. auto.
  Qed.
End Multiply.
