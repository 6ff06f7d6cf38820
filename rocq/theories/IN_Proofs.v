From Verif Require Import Base BT_Model BT_Spec BT_Proofs Str_Model Str_Spec Str_Proofs ATT_Model ATT_Spec ATT_Proofs IN_Spec IN_Model.
From Coq Require Import Lia NArith ZArith.

Lemma digit_is_value c d : digit_is c d -> digit_value c = Some d.
Proof.
  intros [H E]. unfold digit_value. rewrite E.
  replace ((48 <=? 48 + d) && (48 + d <=? 57))%N%bool with true by (symmetry; apply andb_true_intro; split; apply N.leb_le; lia).
  f_equal. lia.
Qed.
Lemma decimal_value s n : decimal s n -> Forall is_digit s /\ value s 0 = n /\ s <> [].
Proof.
  induction 1 as [c d H|s n c d H IH D].
  - apply digit_is_value in H. split; [constructor; [exists d; exact H|constructor]|]. split; [|discriminate]. cbn. rewrite H. destruct d; reflexivity.
  - destruct IH as (F & V & N). apply digit_is_value in D. split; [|split].
    + apply Forall_app. split; [exact F|]. constructor; [exists d; exact D|constructor].
    + rewrite value_app by exact F. cbn [value]. rewrite D, V. reflexivity.
    + intros E. apply app_eq_nil in E. destruct E as [_ E]. discriminate E.
Qed.
Lemma sign_digit c r : is_digit c -> read_sign (skip_white (c :: r)) = (false, c :: r).
Proof.
  intros H. cbn [skip_white]. rewrite (digit_not_white c H). unfold read_sign.
  destruct H as [d H]. destruct c as [[] [] [] [] [] [] [] []]; try reflexivity; vm_compute in H; discriminate H.
Qed.
(** strtoul reads a number in decimal digits. *)
Lemma strtoul_decimal s n rest : decimal s n -> (n < 2 ^ 64)%N ->
  match rest with [] => True | c :: _ => digit_value c = None end -> strtoul (s ++ rest) = (Z.of_N n, rest).
Proof.
  intros D B R. apply decimal_value in D. destruct D as (F & V & N). unfold strtoul.
  destruct s as [|c s]; [congruence|]. assert (C : is_digit c) by (inversion F; assumption).
  cbn [app]. rewrite (sign_digit c _ C). destruct C as [d C]. rewrite C.
  change (c :: s ++ rest) with ((c :: s) ++ rest). rewrite read_digits_app by assumption. rewrite V.
  assert (K : (Z.of_N n < 2 ^ 64)%Z) by (change (2 ^ 64)%Z with (Z.of_N (2 ^ 64)); lia).
  destruct (Z.leb_spec (2 ^ 64) (Z.of_N n)) as [L|L]; [lia|reflexivity].
Qed.
Lemma long_ok z : (- 2 ^ 63 <= z < 2 ^ 63)%Z -> long z = Ok z.
Proof.
  intros [A C]. unfold long. destruct (Z.leb_spec (- 2 ^ 63) z) as [_|L]; [|lia].
  destruct (Z.ltb_spec z (2 ^ 63)) as [_|L]; [reflexivity|lia].
Qed.
Lemma to_long_small z : (z < 2 ^ 63)%Z -> to_long z = z.
Proof. intros H. unfold to_long. destruct (Z.ltb_spec z (2 ^ 63)); [reflexivity|lia]. Qed.

(** The text of a version is parsed to its number. *)
Lemma parse_version s v : version_text s v -> usual v -> parse_version_string s = Ok (long_version v).
Proof.
  intros T U. unfold usual in U. unfold long_version.
  destruct T as [a x A|a b x y A D|a b c x y z A D C]; cbn [major minor patch] in *; destruct U as (X & Y & Z');
    unfold parse_version_string, times_10000, plus.
  - rewrite <- (app_nil_r a). rewrite (strtoul_decimal a x []) by (try assumption; try exact I; change (2 ^ 64)%N with 18446744073709551616%N; lia).
    rewrite to_long_small by lia. rewrite long_ok by lia. cbn [rbind]. rewrite long_ok by lia. f_equal. lia.
  - rewrite (strtoul_decimal a x) by (try assumption; try reflexivity; change (2 ^ 64)%N with 18446744073709551616%N; lia).
    change (Ascii.eqb "." ".") with true. cbv iota.
    rewrite <- (app_nil_r b). rewrite (strtoul_decimal b y []) by (try assumption; try exact I; change (2 ^ 64)%N with 18446744073709551616%N; lia).
    rewrite !to_long_small by lia. rewrite (long_ok (Z.of_N x * 10000)) by lia. cbn [rbind]. rewrite !long_ok by lia. cbn [rbind]. rewrite long_ok by lia. f_equal. lia.
  - rewrite (strtoul_decimal a x) by (try assumption; try reflexivity; change (2 ^ 64)%N with 18446744073709551616%N; lia).
    change (Ascii.eqb "." ".") with true. cbv iota.
    rewrite (strtoul_decimal b y) by (try assumption; try reflexivity; change (2 ^ 64)%N with 18446744073709551616%N; lia).
    change (Ascii.eqb "." ".") with true. cbv iota.
    rewrite <- (app_nil_r c). rewrite (strtoul_decimal c z []) by (try assumption; try exact I; change (2 ^ 64)%N with 18446744073709551616%N; lia).
    rewrite !to_long_small by lia. rewrite (long_ok (Z.of_N x * 10000)) by lia. cbn [rbind]. rewrite !long_ok by lia. cbn [rbind]. rewrite !long_ok by lia. cbn [rbind]. rewrite long_ok by lia. f_equal. lia.
Qed.

(** The order of versions is the order of their numbers. *)
Lemma order v w : usual v -> usual w -> not_newer v w <-> (long_version v <= long_version w)%Z.
Proof. unfold usual, not_newer, long_version. intros (_ & A & C) (_ & D & E). lia. Qed.
Lemma same v w : usual v -> usual w -> v = w <-> long_version v = long_version w.
Proof.
  unfold usual, long_version. intros (_ & A & C) (_ & D & E). split; [intros ->; reflexivity|]. intros H.
  destruct v as [a b c], w as [x y z]; cbn [major minor patch] in *. assert (a = x) by lia. assert (b = y) by lia. assert (c = z) by lia. subst. reflexivity.
Qed.
Lemma long_version_pos v : (0 <= long_version v)%Z.
Proof. unfold long_version. lia. Qed.

Lemma parse_features fs : forall st, parse_options st (map Feature fs) =
  Ok {| min_version := min_version st; exact_version := exact_version st; max_version := max_version st; required_features := required_features st ++ fs |}.
Proof.
  induction fs as [|f fs IH]; intros st; cbn [map parse_options parse_option rbind].
  - rewrite app_nil_r. destruct st; reflexivity.
  - rewrite IH. cbn. rewrite <- app_assoc. reflexivity.
Qed.
Lemma parse_options_app a : forall st b, parse_options st (a ++ b) = rbind (parse_options st a) (fun st' => parse_options st' b).
Proof.
  induction a as [|o a IH]; intros st b; cbn [app parse_options rbind]; [reflexivity|].
  destruct (parse_option st o); cbn [rbind]; [apply IH|reflexivity..].
Qed.
Lemma check_all c fs : check_features c fs = Ok tt <-> forall f, In f fs -> check_feature c f = Ok tt.
Proof.
  induction fs as [|f fs IH]; cbn [check_features In]; [split; [intros _ f []|reflexivity]|].
  destruct (check_feature c f) as [[]| | |] eqn:E; cbn [rbind].
  - rewrite IH. split; [intros H g [<-|G]; [exact E|exact (H g G)]|auto].
  - split; [discriminate|]. intros H. rewrite <- E. apply H. now left.
  - split; [discriminate|]. intros H. rewrite <- E. apply H. now left.
  - split; [discriminate|]. intros H. rewrite <- E. apply H. now left.
Qed.
Lemma check_ok_or_throw c fs : check_features c fs = Ok tt \/ check_features c fs = Throw.
Proof.
  induction fs as [|f fs IH]; cbn [check_features]; [now left|].
  assert (H : check_feature c f = Ok tt \/ check_feature c f = Throw).
  { unfold check_feature. repeat match goal with |- context[if ?b then _ else _] => destruct b end; auto. }
  destruct H as [-> | ->]; cbn [rbind]; auto.
Qed.
