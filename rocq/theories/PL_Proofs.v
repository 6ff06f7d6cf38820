From Verif Require Import Base BT_Model BT_Spec BT_Proofs Str_Model Str_Spec Str_Proofs ATT_Model ATT_Spec ATT_Proofs ATT_Proofs2 PL_Model PL_Spec.
From Coq Require Import Lia NArith ZArith.

(** * sscanf *)
Lemma scanf_lit l : forall f s, scanf (lit l ++ f) (l ++ s) = scanf f s.
Proof. induction l as [|c l IH]; intros f s; [reflexivity|]. cbn. rewrite Ascii.eqb_refl. apply IH. Qed.
Lemma span_all p x : forall s, Forall (fun c => p c = true) x -> match s with c :: _ => p c = false | [] => True end ->
  span p (x ++ s) = (x, s).
Proof.
  induction x as [|c x IH]; intros s F H; cbn.
  - destruct s as [|c s]; [reflexivity|]. cbn. now rewrite H.
  - inversion F as [|? ? Hc Hx]; subst. rewrite Hc, IH; auto.
Qed.
Definition stops (stop : list ascii) (s : bstr) : Prop := match s with c :: _ => In c stop | [] => True end.
Lemma existsb_eqb c l : existsb (Ascii.eqb c) l = true <-> In c l.
Proof.
  rewrite existsb_exists. split.
  - intros (d & I & E). apply Ascii.eqb_eq in E. now subst.
  - intros I. exists c. split; auto. apply Ascii.eqb_refl.
Qed.
Lemma scanf_not stop f x s : x <> [] -> (forall c, In c x -> ~ In c stop) -> length x <= 99 -> stops stop s ->
  scanf (Not stop :: f) (x ++ s) = rmap (cons x) (scanf f s).
Proof.
  intros N F L S. cbn [scanf]. rewrite span_all.
  - destruct x; [easy|]. destruct (Nat.leb_spec 100 (length (a :: x))); [lia|reflexivity].
  - apply Forall_forall. intros c I. apply negb_true_iff, not_true_is_false. intros E. apply existsb_eqb in E. exact (F c I E).
  - destruct s as [|c s]; auto. apply negb_false_iff, existsb_eqb. exact S.
Qed.
Lemma skip_white_no c s : is_white c = false -> skip_white (c :: s) = c :: s.
Proof. intros E. simpl. now rewrite E. Qed.
Lemma scanf_sep f c s : is_white c = false -> scanf (Lit comma :: Blank :: f) (B ", " ++ c :: s) = scanf f (c :: s).
Proof. intros E. change (B ", " ++ c :: s) with (comma :: " "%char :: c :: s). cbn [scanf Ascii.eqb]. simpl (Ascii.eqb _ _).
  cbn iota. change (skip_white (" "%char :: c :: s)) with (skip_white (c :: s)). now rewrite skip_white_no. Qed.
Lemma scanf_word f x s : x <> [] -> Forall (fun c => is_white c = false) x -> length x <= 99 ->
  match s with c :: _ => is_white c = true | [] => True end -> scanf (Word :: f) (x ++ s) = rmap (cons x) (scanf f s).
Proof.
  intros N F L S. cbn [scanf].
  assert (E : skip_white (x ++ s) = x ++ s).
  { destruct x as [|c x]; [easy|]. inversion F; subst. apply skip_white_no; auto. }
  rewrite E, span_all.
  - destruct x; [easy|]. destruct (Nat.leb_spec 100 (length (a :: x))); [lia|reflexivity].
  - eapply Forall_impl; [|exact F]. intros c ->. reflexivity.
  - destruct s as [|c s]; auto. now rewrite S.
Qed.

(** * Stripping *)
Lemma strip_ending_ok x : x <> [] -> strip_ending (x ++ B ").") = Some x.
Proof.
  intros N. unfold strip_ending. rewrite app_length.
  destruct (Nat.ltb_spec (length x + length (B ").")) 3) as [L|_].
  - destruct x; [easy|]. simpl in L. lia.
  - rewrite rev_app_distr. simpl. now rewrite rev_involutive.
Qed.
Lemma strip_quotes_ok x : x <> [] -> strip_quotes ([dq] ++ x ++ [dq]) = Some x.
Proof.
  intros N. unfold strip_quotes. rewrite !app_length.
  destruct (Nat.ltb_spec (length [dq] + (length x + length [dq])) 3) as [L|_].
  - destruct x; [easy|]. simpl in L. lia.
  - cbn [app]. rewrite rev_app_distr. simpl. now rewrite rev_involutive.
Qed.

(** * The last occurrence of a byte *)
Lemma last_index_none c s : ~ In c s -> last_index c s = None.
Proof.
  induction s as [|d s IH]; intros H; simpl; auto. rewrite IH by (intros I; apply H; now right).
  destruct (Ascii.eqb_spec c d) as [->|]; auto. destruct H. now left.
Qed.
Lemma last_index_last c a b : ~ In c b -> last_index c (a ++ c :: b) = Some (length a).
Proof.
  intros H. induction a as [|d a IH]; simpl.
  - rewrite last_index_none by auto. now rewrite Ascii.eqb_refl.
  - now rewrite IH.
Qed.
Lemma last_index_lt c s i : last_index c s = Some i -> i < length s.
Proof.
  revert i. induction s as [|d s IH]; intros i; simpl; [discriminate|].
  destruct (last_index c s) as [j|]; [intros E; injection E as <-; specialize (IH j eq_refl); lia|].
  destruct (Ascii.eqb c d); intros E; [injection E as <-; lia|discriminate].
Qed.
Lemma last_index_snoc c d a : c <> d -> last_index c (a ++ [d]) = last_index c a.
Proof.
  intros N. induction a as [|x a IH]; simpl.
  - destruct (Ascii.eqb_spec c d); congruence.
  - now rewrite IH.
Qed.

Lemma read_float_print w : read_float (print_float w) = Some w.
Proof.
  unfold read_float. rewrite atof_print.
  assert (H : exists c r, snd (read_sign (skip_white (print_float w))) = c :: r /\ is_digit c).
  { rewrite print_float_eq. destruct (first_digit (Z.to_N (Z.abs w) / 1000000)%N (B "." ++ fraction (Z.to_N (Z.abs w)))) as (c & r & E & D).
    exists c, r. split; auto. destruct (w <? 0)%Z; cbn [app].
    - change (B "-" ++ ?x) with ("-"%char :: x). cbn [skip_white is_white existsb]. rewrite <- E. reflexivity.
    - cbn [app]. rewrite E. rewrite skip_white_no by (apply digit_not_white; auto).
      assert (c <> "-"%char) by (apply digit_neq; auto). assert (c <> "+"%char) by (apply digit_neq; auto).
      destruct c as [[|] [|] [|] [|] [|] [|] [|] [|]]; try reflexivity; congruence. }
  destruct H as (c & r & E & D). rewrite E. destruct D as (n & D). now rewrite D.
Qed.

(** * The symbols of a line *)
Lemma pq_size x : length (flat_map pq x) = length x + length (filter (fun c => Ascii.eqb c "034" || Ascii.eqb c "\") x).
Proof.
  induction x as [|c x IH]; auto. simpl. rewrite app_length, IH. unfold pq. fold dq. fold bsl.
  destruct (Ascii.eqb_spec c bsl) as [->|]; simpl; [lia|]. destruct (Ascii.eqb_spec c dq) as [->|]; simpl; lia.
Qed.
Lemma prologize_written x e : prologize_symbol x = Ok e -> length e <= written_size x /\
  (x <> [] -> e <> []) /\
  (forall c, In c e -> In c x \/ In c [bsl; dq; "%"; "0"; "?"]%char).
Proof.
  unfold prologize_symbol, written_size. intros H.
  destruct (bstr_eqb_spec x (B "0")) as [->|_]; [injection H as <-; split; [simpl; lia|split; [discriminate|intros c I; right; simpl in *; tauto]]|].
  destruct (bstr_eqb_spec x (B "?")) as [->|_]; [injection H as <-; split; [simpl; lia|split; [discriminate|intros c I; right; simpl in *; tauto]]|].
  destruct (bstr_eqb_spec x (B "@_EPSILON_SYMBOL_@")) as [->|_]; [injection H as <-; split; [simpl; lia|split; [discriminate|intros c I; right; simpl in *; tauto]]|].
  destruct (bstr_eqb_spec x (B "@_UNKNOWN_SYMBOL_@")) as [->|_]; [injection H as <-; split; [simpl; lia|split; [discriminate|intros c I; right; simpl in *; tauto]]|].
  destruct (bstr_eqb_spec x (B "@_IDENTITY_SYMBOL_@")) as [->|_]; [injection H as <-; split; [simpl; lia|split; [discriminate|intros c I; right; simpl in *; tauto]]|].
  rewrite prolog_quote in H. injection H as <-. split; [rewrite pq_size; lia|]. split.
  - destruct x as [|c x]; [easy|]. intros _. simpl. unfold pq. destruct (Ascii.eqb c bsl); [discriminate|].
    destruct (Ascii.eqb c dq); discriminate.
  - intros c I. apply in_flat_map in I. destruct I as (d & I & J). unfold pq in J.
    destruct (Ascii.eqb_spec d bsl) as [->|]; [simpl in J; right; simpl; tauto|].
    destruct (Ascii.eqb_spec d dq) as [->|]; [simpl in J; right; simpl; tauto|].
    destruct J as [->|[]]. now left.
Qed.
Definition printable_in (x : bstr) : Prop := no_nul x /\ ~ In tab x /\ ~ In nl x.
Lemma arc_symbols_text i o e : print_prolog_arc_symbols i o = Ok e -> printable_in i -> printable_in o ->
  exists m, e = [dq] ++ m ++ [dq] /\ printable_in e /\ length e <= written_size i + written_size o + 5.
Proof.
  intros H (I1 & I2 & I3) (O1 & O2 & O3). unfold print_prolog_arc_symbols in H.
  destruct (prologize_spec i) as (si & Ei & _). destruct (prologize_spec o) as (so & Eo & _).
  destruct (prologize_written _ _ Ei) as (Li & _ & Ci). destruct (prologize_written _ _ Eo) as (Lo & _ & Co).
  rewrite Ei, Eo in H. cbn [rbind rmap] in H.
  assert (Hin : forall c, In c e -> In c i \/ In c o \/ In c [bsl; dq; "%"; "0"; "?"; ":"]%char).
  { intros c I. destruct (_ || _); assert (H' := f_equal (fun r => match r with Ok x => x | _ => [] end) H); cbn beta iota in H';
      rewrite <- H' in I; simpl in I.
    - destruct I as [E|I]; [subst; right; right; simpl; tauto|]. apply in_app_iff in I.
      destruct I as [I|I]; [apply Ci in I; simpl in *; tauto|]. simpl in I.
      destruct I as [E|[E|[E|I]]]; subst; try (right; right; simpl; tauto). apply in_app_iff in I.
      destruct I as [I|I]; [apply Co in I; simpl in *; tauto|]. simpl in I. right; right; simpl; tauto.
    - destruct I as [E|I]; [subst; right; right; simpl; tauto|]. apply in_app_iff in I.
      destruct I as [I|I]; [apply Ci in I; simpl in *; tauto|]. simpl in I. right; right; simpl; tauto. }
  assert (P : printable_in e).
  { repeat split; intros I; apply Hin in I; destruct I as [I|[I|I]]; auto;
      simpl in I; decompose [or] I; try discriminate; auto. }
  destruct (_ || _); injection H as <-.
  - exists (si ++ [dq] ++ B ":" ++ [dq] ++ so). split; [cbn [app]; rewrite <- !app_assoc; reflexivity|]. split; auto.
    cbn [length]. rewrite !app_length. simpl. rewrite !app_length. simpl. unfold written_size, bstr in *. lia.
  - exists si. split; [reflexivity|]. split; auto. cbn [length]. rewrite !app_length. simpl. unfold written_size in *. lia.
Qed.

Lemma firstn_app_exact {A} (a b : list A) : firstn (length a) (a ++ b) = a.
Proof. rewrite firstn_app, firstn_all, Nat.sub_diag. simpl. apply app_nil_r. Qed.
Lemma skipn_app_exact {A} (a b : list A) : skipn (length a) (a ++ b) = b.
Proof. rewrite skipn_app, skipn_all, Nat.sub_diag. reflexivity. Qed.

Lemma float_no c w : is_white c = true \/ c = dq \/ c = comma \/ c = ")"%char -> ~ In c (print_float w).
Proof.
  intros H I. rewrite print_float_eq in I. rewrite !in_app_iff in I.
  assert (D : is_digit c -> False).
  { intros D. destruct H as [H|[->|[->| ->]]].
    - rewrite (digit_not_white c D) in H. discriminate.
    - destruct D as (n & D). discriminate D.
    - destruct D as (n & D). discriminate D.
    - destruct D as (n & D). discriminate D. }
  destruct I as [I|[I|[I|I]]].
  - destruct (w <? 0)%Z; [|destruct I]. destruct I as [<-|[]]. decompose [or] H; discriminate.
  - pose proof (print_nat_digits (Z.to_N (Z.abs w) / 1000000)) as F. rewrite Forall_forall in F. auto.
  - destruct I as [<-|[]]. decompose [or] H; discriminate.
  - pose proof (fraction_digits (Z.to_N (Z.abs w))) as F. rewrite Forall_forall in F. auto.
Qed.
Lemma float_nonnil w : print_float w <> [].
Proof. apply (proj1 (word_print_float w)). Qed.

(** extract_weight finds the symbols and the weight. *)
Lemma extract_written (weights : bool) m w : let e := [dq] ++ m ++ [dq] in
  extract_weight (e ++ (if weights then B ", " ++ print_float w else [])) = Some (e, keep_weight weights w).
Proof.
  cbn zeta. set (e := [dq] ++ m ++ [dq]). assert (Ee : e = ([dq] ++ m) ++ [dq]) by (unfold e; now rewrite <- app_assoc).
  unfold extract_weight. destruct weights.
  - assert (E1 : last_index dq (e ++ B ", " ++ print_float w) = Some (S (length m))).
    { rewrite Ee, <- app_assoc. change ([dq] ++ B ", " ++ print_float w) with (dq :: B ", " ++ print_float w).
      rewrite last_index_last; [reflexivity|]. intros I. apply in_app_iff in I. destruct I as [I|I].
      - simpl in I. decompose [or] I; try discriminate; auto.
      - revert I. apply float_no. auto. }
    assert (E2 : last_index " " (e ++ B ", " ++ print_float w) = Some (length e + 1)).
    { change (B ", " ++ print_float w) with ([comma] ++ " "%char :: print_float w). rewrite app_assoc.
      rewrite last_index_last; [now rewrite app_length|]. apply float_no. auto. }
    rewrite E1, E2.
    assert (Le : length e = S (S (length m))) by (unfold e; rewrite !app_length; simpl; lia).
    destruct (Nat.ltb_spec (length e + 1) (S (length m))); [lia|].
    replace (S (length m) + 2 =? length e + 1) with true by (symmetry; apply Nat.eqb_eq; lia).
    assert (Lf : 0 < length (print_float w)) by (pose proof (float_nonnil w); destruct (print_float w); [easy|simpl; lia]).
    assert (LL : length (e ++ B ", " ++ print_float w) = length e + (2 + length (print_float w))) by (rewrite !app_length; reflexivity).
    rewrite LL. destruct (Nat.ltb_spec (length e + 1) (length e + (2 + length (print_float w)) - 1)); [|lia]. cbn [andb].
    replace (skipn (length e + 1 + 1) (e ++ B ", " ++ print_float w)) with (print_float w).
    + rewrite read_float_print. cbn [keep_weight]. do 2 f_equal.
      replace (length e + 1 - 1) with (length e) by lia. apply firstn_app_exact.
    + rewrite app_assoc. replace (length e + 1 + 1) with (length (e ++ B ", ")) by (rewrite app_length; simpl; lia).
      now rewrite skipn_app_exact.
  - rewrite app_nil_r.
    assert (E1 : last_index dq e = Some (S (length m))) by (rewrite Ee; apply last_index_last; auto).
    rewrite E1. destruct (last_index " " e) as [b|] eqn:E2; [|reflexivity].
    rewrite Ee, last_index_snoc in E2 by discriminate. apply last_index_lt in E2. rewrite app_length in E2. simpl in E2.
    destruct (Nat.ltb_spec b (S (length m))); [reflexivity|lia].
Qed.
