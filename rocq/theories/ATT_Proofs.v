From Verif Require Import Base BT_Model BT_Spec BT_Proofs Str_Model Str_Spec Str_Proofs ATT_Model ATT_Spec.
From Coq Require Import Lia NArith ZArith.

(** * Numbers *)
Lemma digit_value_digit n : (n < 10)%N -> digit_value (digit n) = Some n.
Proof.
  intros H. unfold digit_value, digit. rewrite N_ascii_embedding by lia.
  replace ((48 <=? 48 + n) && (48 + n <=? 57))%N%bool with true by (symmetry; apply andb_true_intro; split; apply N.leb_le; lia).
  f_equal. lia.
Qed.
Definition is_digit (c : ascii) : Prop := exists d, digit_value c = Some d.
Lemma digit_is_digit n : (n < 10)%N -> is_digit (digit n).
Proof. exists n. now apply digit_value_digit. Qed.

Fixpoint value (s : bstr) (acc : N) : N :=
  match s with [] => acc | c :: r => match digit_value c with Some d => value r (10 * acc + d)%N | None => acc end end.
Lemma value_app s : forall t acc, Forall is_digit s -> value (s ++ t) acc = value t (value s acc).
Proof.
  induction s as [|c s IH]; intros t acc H; simpl; auto.
  inversion H as [|? ? [d E] H2]; subst. rewrite E. now apply IH.
Qed.
Lemma read_digits_app s : forall rest acc, Forall is_digit s ->
  match rest with [] => True | c :: _ => digit_value c = None end ->
  read_digits (s ++ rest) acc = (value s acc, rest).
Proof.
  induction s as [|c s IH]; intros rest acc H Hr; simpl.
  - destruct rest as [|c r]; simpl; auto. now rewrite Hr.
  - inversion H as [|? ? [d E] H2]; subst. rewrite E. now apply IH.
Qed.
Lemma digits_digit f : forall n, Forall is_digit (digits f n).
Proof.
  induction f; intros n; simpl; auto. destruct (N.eqb_spec n 0); auto.
  constructor; auto. apply digit_is_digit. apply N.mod_lt. lia.
Qed.
Lemma digits_value f : forall n, (n < 2 ^ N.of_nat f)%N -> value (rev (digits f n)) 0 = n.
Proof.
  induction f as [|f IH]; intros n H.
  - simpl in *. lia.
  - cbn [digits]. destruct (N.eqb_spec n 0) as [->|Hn]; auto.
    cbn [rev]. rewrite value_app by (apply Forall_rev, digits_digit).
    rewrite IH.
    + cbn [value]. rewrite digit_value_digit by (apply N.mod_lt; lia).
      pose proof (N.div_mod n 10). lia.
    + rewrite Nat2N.inj_succ, N.pow_succ_r' in H.
      apply N.div_lt_upper_bound; lia.
Qed.

Lemma size_bound n : (n < 2 ^ N.of_nat (N.size_nat n))%N.
Proof.
  destruct n as [|p]; [simpl; lia|]. simpl.
  induction p as [p IH|p IH|]; cbn [Pos.size_nat]; try (rewrite Nat2N.inj_succ, N.pow_succ_r'; lia).
Qed.
Lemma print_nat_value n : value (print_nat n) 0 = n.
Proof.
  unfold print_nat. destruct (N.eqb_spec n 0) as [->|H]; [reflexivity|].
  apply digits_value, size_bound.
Qed.
Lemma print_nat_digits n : Forall is_digit (print_nat n).
Proof.
  unfold print_nat. destruct (N.eqb_spec n 0) as [->|H].
  - constructor; auto. exists 0%N. reflexivity.
  - apply Forall_rev, digits_digit.
Qed.
Lemma print_nat_nonnil n : print_nat n <> [].
Proof.
  unfold print_nat. destruct (N.eqb_spec n 0) as [->|H]; [discriminate|].
  destruct n as [|p]; [lia|]. destruct p; simpl; intros E; try discriminate; apply app_eq_nil in E; destruct E; discriminate.
Qed.

Lemma digit_not_white c : is_digit c -> is_white c = false.
Proof.
  intros [d H]. unfold digit_value in H.
  destruct ((48 <=? N_of_ascii c) && (N_of_ascii c <=? 57))%N%bool eqn:E; [|discriminate].
  apply andb_prop in E. destruct E as [E1 E2]. apply N.leb_le in E1. apply N.leb_le in E2.
  unfold is_white. simpl. rewrite !orb_false_iff.
  repeat split; try (apply Ascii.eqb_neq; intros ->; vm_compute in E1, E2; congruence).
Qed.
Lemma digit_is c (P : ascii -> bool) : (forall n, (n < 10)%N -> P (ascii_of_N (48 + n)) = true) -> is_digit c -> P c = true.
Proof.
  intros H [d E]. unfold digit_value in E.
  destruct ((48 <=? N_of_ascii c) && (N_of_ascii c <=? 57))%N%bool eqn:E1; [|discriminate].
  apply andb_prop in E1. destruct E1 as [E1 E2]. apply N.leb_le in E1. apply N.leb_le in E2.
  rewrite <- (ascii_N_embedding c). replace (N_of_ascii c) with (48 + (N_of_ascii c - 48))%N by lia.
  apply H. lia.
Qed.
Lemma digit_neq c x : digit_value x = None -> is_digit c -> c <> x.
Proof. intros H [d E] ->. congruence. Qed.

Lemma atoi_print n : (n < 2 ^ 31)%N -> atoi (print_int n) = Ok (Z.of_N n).
Proof.
  intros H. unfold print_int. apply N.ltb_lt in H as H'. rewrite H'. clear H'.
  unfold atoi. pose proof (print_nat_digits n) as D. pose proof (print_nat_value n) as V. pose proof (print_nat_nonnil n) as NN.
  destruct (print_nat n) as [|c r]; [easy|].
  assert (Dc : is_digit c) by now inversion D.
  cbn [skip_white]. rewrite (digit_not_white _ Dc).
  assert (S : read_sign (c :: r) = (false, c :: r)).
  { pose proof (digit_neq _ "-"%char eq_refl Dc). pose proof (digit_neq _ "+"%char eq_refl Dc).
    unfold read_sign. destruct c as [[] [] [] [] [] [] [] []]; try reflexivity; congruence. }
  rewrite S. pose proof (read_digits_app (c :: r) [] 0 D I) as R. rewrite app_nil_r in R. rewrite R, V.
  cbn [fst]. 
  replace ((- 2 ^ 31 <=? Z.of_N n) && (Z.of_N n <? 2 ^ 31))%Z%bool with true; auto.
  symmetry. apply andb_true_intro. split; [apply Z.leb_le|apply Z.ltb_lt]; lia.
Qed.
Lemma state_of_int_nat n : (N.of_nat n < 2 ^ 31)%N -> state_of_int (Z.of_N (N.of_nat n)) = n.
Proof.
  intros H. unfold state_of_int. rewrite Z.mod_small by lia. lia.
Qed.

Lemma value_acc s : forall acc, Forall is_digit s -> value s acc = (acc * 10 ^ N.of_nat (length s) + value s 0)%N.
Proof.
  induction s as [|c s IH]; intros acc H; cbn [value length].
  - simpl. lia.
  - inversion H as [|? ? [d E] H2]; subst. rewrite E. rewrite (IH (10 * acc + d)%N), (IH (10 * 0 + d)%N) by auto.
    rewrite Nat2N.inj_succ, N.pow_succ_r'. lia.
Qed.
Lemma read_fraction_value s : forall k, Forall is_digit s -> length s = k ->
  read_fraction k (10 ^ N.of_nat (k - 1)) s = value s 0.
Proof.
  induction s as [|c s IH]; intros [|k] H L; simpl in L; try lia; cbn [read_fraction value]; auto.
  inversion H as [|? ? [d E] H2]; subst. rewrite E.
  assert (L' : length s = k) by lia.
  rewrite (value_acc s (10 * 0 + d)%N) by auto. rewrite L'.
  replace (S k - 1) with k by lia.
  destruct k as [|k].
  - destruct s; [|discriminate]. simpl. lia.
  - rewrite <- (IH (S k) H2 L'). replace (S k - 1) with k by lia.
    replace (10 ^ N.of_nat (S k) / 10)%N with (10 ^ N.of_nat k)%N.
    + lia.
    + rewrite Nat2N.inj_succ, N.pow_succ_r', N.mul_comm, N.div_mul; lia.
Qed.
Lemma digits_length f : forall n k, (n < 10 ^ N.of_nat k)%N -> length (digits f n) <= k.
Proof.
  induction f as [|f IH]; intros n k H; cbn [digits]; simpl; try lia.
  destruct (N.eqb_spec n 0); simpl; try lia.
  destruct k as [|k]; [simpl in H; lia|].
  apply le_n_S, IH. rewrite Nat2N.inj_succ, N.pow_succ_r' in H. apply N.div_lt_upper_bound; lia.
Qed.
Lemma print_nat_length n k : (n < 10 ^ N.of_nat k)%N -> 1 <= k -> length (print_nat n) <= k.
Proof.
  intros H Hk. unfold print_nat. destruct (N.eqb_spec n 0); [simpl; lia|].
  rewrite rev_length. now apply digits_length.
Qed.
Lemma zero_is_digit : is_digit "0"%char. Proof. exists 0%N. reflexivity. Qed.
Lemma repeat_zero_digits k : Forall is_digit (repeat "0"%char k).
Proof. induction k; simpl; constructor; auto using zero_is_digit. Qed.
Lemma value_zeros k s : value (repeat "0"%char k ++ s) 0 = value s 0.
Proof. induction k; simpl; auto. Qed.

Definition fraction (a : N) : bstr := repeat "0"%char (6 - length (print_nat (a mod 1000000))) ++ print_nat (a mod 1000000).
Lemma fraction_length a : length (fraction a) = 6.
Proof.
  unfold fraction. rewrite app_length, repeat_length.
  assert (length (print_nat (a mod 1000000)) <= 6).
  { apply print_nat_length; [|lia]. apply N.mod_lt. discriminate. }
  lia.
Qed.
Lemma fraction_digits a : Forall is_digit (fraction a).
Proof. apply Forall_app. split; [apply repeat_zero_digits|apply print_nat_digits]. Qed.
Lemma fraction_value a : value (fraction a) 0 = (a mod 1000000)%N.
Proof. unfold fraction. rewrite value_zeros. apply print_nat_value. Qed.

Lemma atof_print w : atof (print_float w) = w.
Proof.
  unfold print_float. set (a := Z.to_N (Z.abs w)). fold (fraction a).
  change (let f := print_nat (a mod 1000000) in repeat "0"%char (6 - length f) ++ f) with (fraction a).
  assert (A : read_digits (print_nat (a / 1000000) ++ B "." ++ fraction a) 0 = ((a / 1000000)%N, B "." ++ fraction a)).
  { rewrite read_digits_app; [now rewrite print_nat_value|apply print_nat_digits|reflexivity]. }
  pose proof (print_nat_digits (a / 1000000)) as D. pose proof (print_nat_nonnil (a / 1000000)) as NN.
  assert (F : read_fraction 6 100000 (fraction a) = (a mod 1000000)%N).
  { rewrite <- fraction_value. apply (read_fraction_value (fraction a) 6); [apply fraction_digits|apply fraction_length]. }
  assert (V : (1000000 * (a / 1000000) + a mod 1000000)%N = a) by (symmetry; apply N.div_mod; discriminate).
  destruct (print_nat (a / 1000000)) as [|c r] eqn:E; [easy|].
  assert (Dc : is_digit c) by now inversion D.
  unfold atof. destruct (Z.ltb_spec w 0).
  - change ((B "-" ++ (c :: r) ++ B "." ++ fraction a)) with ("-"%char :: (c :: r) ++ B "." ++ fraction a).
    cbn [skip_white]. change (is_white "-"%char) with false. cbn match. cbn [read_sign].
    rewrite A. cbn match. change (B "." ++ fraction a) with ("."%char :: fraction a). cbn match.
    rewrite F, V. unfold a. lia.
  - cbn [app skip_white]. rewrite (digit_not_white _ Dc). cbn match.
    assert (S : forall t, read_sign (c :: t) = (false, c :: t)).
    { intros t. pose proof (digit_neq _ "-"%char eq_refl Dc). pose proof (digit_neq _ "+"%char eq_refl Dc).
      unfold read_sign. destruct c as [[] [] [] [] [] [] [] []]; try reflexivity; congruence. }
    rewrite S. cbn match. change (c :: r ++ B "." ++ fraction a) with ((c :: r) ++ B "." ++ fraction a). rewrite A.
    change (B "." ++ fraction a) with ("."%char :: fraction a). cbn match.
    rewrite F, V. unfold a. lia.
Qed.

(** * Fields and lines *)
Lemma is_white_iff c : is_white c = true <-> white c.
Proof.
  unfold is_white, white. rewrite existsb_exists. split.
  - intros (x & I & E). apply Ascii.eqb_eq in E. now subst.
  - intros I. exists c. split; auto. apply Ascii.eqb_refl.
Qed.
Definition word (x : bstr) : Prop := x <> [] /\ Forall (fun c => is_white c = false) x.
Lemma split_white_word x : forall rest, word x ->
  match rest with [] => True | c :: _ => is_white c = true end -> split_white (x ++ rest) = x :: split_white rest.
Proof.
  induction x as [|c x IH]; intros rest [NN W] Hr; [easy|].
  inversion W as [|? ? Wc Wx]; subst. cbn [app split_white]. rewrite Wc.
  destruct x as [|d x].
  - cbn [app]. destruct rest as [|e r]; auto. now rewrite Hr.
  - cbn [app]. assert (is_white d = false) by now inversion Wx. rewrite H.
    assert (Wd : word (d :: x)) by (split; [discriminate|exact Wx]).
    specialize (IH rest Wd Hr). cbn [app] in IH. now rewrite IH.
Qed.
Definition seps (sep : bstr) : Prop := sep <> [] /\ Forall (fun c => is_white c = true) sep.
Lemma split_white_blank c r : is_white c = true -> split_white (c :: r) = split_white r.
Proof. intros H. cbn [split_white]. now rewrite H. Qed.
(** Words joined by tabs and closed by a newline. *)
Fixpoint tabbed (ws : list bstr) : bstr :=
  match ws with [] => [nl] | [w] => w ++ [nl] | w :: r => w ++ [tab] ++ tabbed r end.
Lemma split_tabbed ws : Forall word ws -> split_white (tabbed ws) = ws.
Proof.
  induction ws as [|w ws IH]; intros H; [reflexivity|].
  inversion H as [|? ? Hw Hr]; subst. destruct ws as [|v ws].
  - cbn [tabbed]. rewrite split_white_word; auto. 
  - change (tabbed (w :: v :: ws)) with (w ++ [tab] ++ tabbed (v :: ws)).
    rewrite split_white_word; auto; [|reflexivity]. f_equal. cbn [app].
    rewrite split_white_blank by reflexivity. now apply IH.
Qed.
Lemma c_str_id s : no_nul s -> c_str s = s.
Proof.
  unfold no_nul. induction s as [|c s IH]; intros H; auto. cbn [c_str].
  destruct (Ascii.eqb_spec c "000"%char) as [->|]; [exfalso; apply H; now left|].
  f_equal. apply IH. intros I. apply H. now right.
Qed.
Lemma take_line_line l : forall k rest, ~ In nl l -> length l < k -> take_line k (l ++ nl :: rest) = (l ++ [nl], rest, false).
Proof.
  induction l as [|c l IH]; intros [|k] rest H L; simpl in L; try lia; cbn [app take_line].
  - now rewrite Ascii.eqb_refl.
  - destruct (Ascii.eqb_spec c nl) as [->|]; [exfalso; apply H; now left|].
    rewrite IH; auto; [|lia]. intros I. apply H. now right.
Qed.

Lemma Forall_replaced (P : ascii -> Prop) n r h x : Forall P h -> Forall P r -> replaced n r h x -> Forall P x.
Proof.
  intros Hh Hr R. induction R; auto.
  - apply Forall_app in Hh. apply Forall_app. tauto.
  - inversion Hh; subst. constructor; auto.
Qed.
Lemma replaced_nonnil n r h x : n <> [] -> r <> [] -> h <> [] -> replaced n r h x -> x <> [].
Proof.
  intros Hn Hr Hh R. destruct R; auto.
  - intros E. apply app_eq_nil in E. tauto.
  - discriminate.
Qed.
Lemma att_escape_ind (P : bstr -> Prop) s e :
  (forall n r h x, n <> [] -> In r [B "@_SPACE_@"; B "@0@"; B "@_TAB_@"] -> P h -> replaced n r h x -> P x) ->
  P s -> att_escape s = Ok e -> P e.
Proof.
  intros H Hs E. unfold att_escape in E. cbn [replaces] in E.
  destruct (replace_all_replaced s (B " ") (B "@_SPACE_@")) as (x1 & E1 & R1); [discriminate|].
  rewrite E1 in E. cbn [rbind] in E.
  destruct (replace_all_replaced x1 (B "@_EPSILON_SYMBOL_@") (B "@0@")) as (x2 & E2 & R2); [discriminate|].
  rewrite E2 in E. cbn [rbind] in E.
  destruct (replace_all_replaced x2 [tab] (B "@_TAB_@")) as (x3 & E3 & R3); [discriminate|].
  rewrite E3 in E. cbn [rbind] in E. injection E as <-.
  assert (P x1) by (eapply H; [| |exact Hs|exact R1]; [discriminate|left; reflexivity]).
  assert (P x2) by (eapply H; [| |exact H0|exact R2]; [discriminate|right; left; reflexivity]).
  eapply H; [| |exact H1|exact R3]; [discriminate|right; right; left; reflexivity].
Qed.
Lemma att_escape_word eps s e : att_plain eps s -> att_escape s = Ok e -> word e /\ no_nul e.
Proof.
  intros (NN & AR & NU & WB & _) E.
  destruct (att_escape_total s) as (e' & E' & NB). rewrite E in E'. injection E' as <-.
  split; [split|].
  - apply (att_escape_ind (fun x => x <> []) s e); auto. intros n r h x Hn Hr Hh R.
    apply (replaced_nonnil n r h x); auto. destruct Hr as [<-|[<-|[<-|[]]]]; discriminate.
  - assert (F : Forall (fun c => white c -> blank c) e).
    { apply (att_escape_ind (Forall (fun c => white c -> blank c)) s e); auto.
      - intros n r h x Hn Hr Hh R. apply (Forall_replaced _ n r h x); auto.
        assert (K : Forall (fun c => is_white c = false) r)
          by (destruct Hr as [<-|[<-|[<-|[]]]]; repeat constructor).
        eapply Forall_impl; [|exact K]. intros c Hc Hw. apply is_white_iff in Hw. congruence.
      - apply Forall_forall. auto. }
    rewrite Forall_forall in *. intros c Hc. destruct (is_white c) eqn:Ew; auto.
    apply is_white_iff in Ew. exfalso. apply (NB c Hc). now apply F.
  - unfold no_nul. intros I. clear NB. revert e E I.
    assert (F : forall e, att_escape s = Ok e -> Forall (fun c => c <> "000"%char) e).
    { intros e E. apply (att_escape_ind (Forall (fun c => c <> "000"%char)) s e); auto.
      - intros n r h x Hn Hr Hh R. apply (Forall_replaced _ n r h x); auto.
        destruct Hr as [<-|[<-|[<-|[]]]]; repeat constructor; discriminate.
      - apply Forall_forall. intros c Hc ->. now apply NU. }
    intros e E I. apply F in E. rewrite Forall_forall in E. exact (E _ I eq_refl).
Qed.
Lemma word_print_nat n : word (print_nat n).
Proof.
  split; [apply print_nat_nonnil|]. eapply Forall_impl; [|apply print_nat_digits]. intros c. apply digit_not_white.
Qed.
Lemma no_nul_digits s : Forall is_digit s -> no_nul s.
Proof. intros H I. rewrite Forall_forall in H. destruct (H _ I) as [d E]. discriminate. Qed.
Lemma no_nul_app a b : no_nul a -> no_nul b -> no_nul (a ++ b).
Proof. unfold no_nul. rewrite in_app_iff. tauto. Qed.
Lemma print_float_eq w : print_float w =
  (if (w <? 0)%Z then B "-" else []) ++ print_nat (Z.to_N (Z.abs w) / 1000000) ++ B "." ++ fraction (Z.to_N (Z.abs w)).
Proof. reflexivity. Qed.
Lemma word_print_float w : word (print_float w) /\ no_nul (print_float w).
Proof.
  rewrite print_float_eq. set (a := Z.to_N (Z.abs w)).
  assert (S : Forall (fun c => is_white c = false) (if (w <? 0)%Z then B "-" else []) /\ no_nul (if (w <? 0)%Z then B "-" else [])).
  { destruct (w <? 0)%Z; split; try (repeat constructor). - intros [E|[]]; discriminate. - intros []. }
  pose proof (fraction_digits a) as FD. set (fr := fraction a) in *. clearbody fr.
  split; [split|].
  - intros E. apply app_eq_nil in E. destruct E as [_ E]. apply app_eq_nil in E. now apply (print_nat_nonnil _ (proj1 E)).
  - rewrite !Forall_app. repeat split; try tauto.
    + apply word_print_nat.
    + repeat constructor.
    + eapply Forall_impl; [|exact FD]. intros c. apply digit_not_white.
  - apply no_nul_app; [tauto|]. apply no_nul_app; [apply no_nul_digits, print_nat_digits|].
    apply no_nul_app; [intros [E|[]]; discriminate|]. now apply no_nul_digits.
Qed.
