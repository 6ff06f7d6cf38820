From Verif Require Import Base BT_Model BT_Spec BT_Proofs Str_Model Str_Spec Str_Proofs ATT_Model ATT_Spec ATT_Proofs ATT_Proofs2 PL_Model PL_Spec PL_Proofs.
From Coq Require Import Lia NArith ZArith.

(** * Lines that read as an update of the graph *)
Definition reads_as (name line : bstr) (u : graph -> graph) : Prop :=
  exists c l, line = (c :: l ++ B ").") ++ [nl] /\ ~ In nl (c :: l) /\ no_nul (c :: l) /\ length l <= 250 /\
  forall junk g, parse_line junk name (c :: l ++ B ").") g = Ok (Some (u g)).

Lemma digits_length_int n : (n < 2 ^ 31)%N -> length (print_int n) <= 10.
Proof.
  intros H. rewrite print_int_small by auto. apply print_nat_length; [|lia].
  eapply N.lt_trans; [exact H|]. reflexivity.
Qed.
Lemma int_word n : (n < 2 ^ 31)%N -> print_int n <> [] /\ (forall c, In c (print_int n) -> is_digit c).
Proof.
  intros H. rewrite print_int_small by auto. split; [apply print_nat_nonnil|].
  pose proof (print_nat_digits n) as F. now rewrite Forall_forall in F.
Qed.
Lemma int_first n t : (n < 2 ^ 31)%N -> exists c r, print_int n ++ t = c :: r /\ is_white c = false.
Proof.
  intros H. rewrite print_int_small by auto. destruct (first_digit n t) as (c & r & E & D). exists c, r.
  split; auto. now apply digit_not_white.
Qed.
Lemma float_first w t : exists c r, print_float w ++ t = c :: r /\ is_white c = false.
Proof.
  destruct (word_print_float w) as [[N W] _]. destruct (print_float w) as [|c r]; [easy|].
  exists c, (r ++ t). split; auto. now inversion W.
Qed.
Lemma digit_not c x : is_digit c -> digit_value x = None -> c <> x.
Proof. intros D E. now apply digit_neq. Qed.

Section Name.
  Variable name : bstr.
  Hypothesis HN : prolog_name name.
  Lemma name_c_str : c_str name = name.
  Proof using HN. apply c_str_id, HN. Qed.
  Lemma name_no c : In c name -> ~ In c [comma].
  Proof using HN. intros I [E|[]]. destruct HN as (_ & _ & H & _). destruct (H c I). auto. Qed.
  Lemma scanf_name f c s : is_white c = false ->
    scanf (Not [comma] :: Lit comma :: Blank :: f) (name ++ B ", " ++ c :: s) = rmap (cons name) (scanf f (c :: s)).
  Proof using HN.
    intros W. rewrite scanf_not.
    - now rewrite scanf_sep.
    - apply HN.
    - apply name_no.
    - destruct HN as (_ & _ & _ & H). lia.
    - simpl. auto.
  Qed.
  Lemma scanf_int f n c s : (n < 2 ^ 31)%N -> is_white c = false ->
    scanf (Not [comma] :: Lit comma :: Blank :: f) (print_int n ++ B ", " ++ c :: s) = rmap (cons (print_int n)) (scanf f (c :: s)).
  Proof using.
    intros H W. destruct (int_word n H) as [N D]. rewrite scanf_not.
    - now rewrite scanf_sep.
    - exact N.
    - intros d I [E|[]]. apply D in I. subst d. destruct I as (k & I). discriminate I.
    - pose proof (digits_length_int n H). lia.
    - simpl. auto.
  Qed.
  Lemma name_not_nl : ~ In nl name.
  Proof using HN. intros I. destruct HN as (_ & _ & H & _). destruct (H _ I) as [W _]. apply W. apply is_white_iff. reflexivity. Qed.
  Lemma no_nl_int n : (n < 2 ^ 31)%N -> ~ In nl (print_int n).
  Proof using. intros H I. apply (proj2 (int_word n H)) in I. destruct I as (k & I). discriminate I. Qed.
  Lemma no_nul_int n : (n < 2 ^ 31)%N -> no_nul (print_int n).
  Proof using. intros H I. apply (proj2 (int_word n H)) in I. destruct I as (k & I). discriminate I. Qed.

  (** A transition. *)
  Lemma arc_line_reads weights s a line :
    (N.of_nat s < 2 ^ 31)%N -> (N.of_nat (tgt a) < 2 ^ 31)%N -> prolog_symbol (isy a) -> prolog_symbol (osy a) ->
    (isy a = B "@_IDENTITY_SYMBOL_@" <-> osy a = B "@_IDENTITY_SYMBOL_@") ->
    written_size (isy a) + written_size (osy a) + weight_size weights (wt a) <= 90 ->
    prolog_arc_line weights name s a = Ok line ->
    reads_as name line (fun g => add_transition g s (keep_arc weights a) true).
  Proof using HN.
    intros Hs Ht (I1 & I2 & I3 & I4 & I5 & I6) (O1 & O2 & O3 & O4 & O5 & O6) Hid Hsize E.
    destruct (prolog_arc_roundtrip (isy a) (osy a)) as (e & Pe & Ge); try (split; assumption); auto.
    unfold prolog_arc_line in E. rewrite Pe in E. cbn [rmap rbind] in E. injection E as E. rewrite name_c_str in E.
    destruct (arc_symbols_text _ _ _ Pe) as (m & Em & (P1 & P2 & P3) & Le); try (repeat split; assumption).
    set (W := if weights then B ", " ++ print_float (wt a) else []) in *.
    assert (HW : length e + length W <= 97 /\ ~ In tab W /\ ~ In nl W /\ no_nul W).
    { unfold W, weight_size in *. destruct weights.
      - rewrite app_length. change (length (B ", ")) with 2. split; [unfold bstr in *; lia|].
        repeat split; intros I; apply in_app_iff in I; destruct I as [I|I];
          try (simpl in I; decompose [or] I; try discriminate; auto; fail); revert I; try (apply float_no; left; reflexivity).
        apply (proj2 (word_print_float (wt a))).
      - simpl. repeat split; auto; try lia. intros []. }
    destruct HW as (LW & TW & NW & UW).
    set (body := name ++ B ", " ++ print_int (N.of_nat s) ++ B ", " ++ print_int (N.of_nat (tgt a)) ++ B ", " ++ e ++ W).
    exists "a"%char, (B "rc(" ++ body). split; [|split; [|split; [|split]]].
    - rewrite <- E. unfold body. change ("a"%char :: (B "rc(" ++ ?x) ++ ?y) with (B "arc(" ++ x ++ y). now rewrite <- !app_assoc.
    - unfold body. intros I. change ("a"%char :: B "rc(" ++ ?x) with (B "arc(" ++ x) in I. rewrite !in_app_iff in I.
      decompose [or] I; try (revert H; apply no_nl_int; assumption); try (revert H0; apply no_nl_int; assumption).
      all: match goal with H : In nl ?x |- _ => revert H end.
      all: try (apply no_nl_int; assumption). all: try apply name_not_nl. all: try exact P3. all: try exact NW.
      all: intros H; simpl in H; decompose [or] H; try discriminate; auto.
    - unfold body. change ("a"%char :: B "rc(" ++ ?x) with (B "arc(" ++ x).
      repeat apply no_nul_app; auto using no_nul_int; try apply HN.
      all: intros H; simpl in H; decompose [or] H; try discriminate; auto.
    - unfold body. rewrite !app_length. pose proof (digits_length_int _ Hs). pose proof (digits_length_int _ Ht).
      destruct HN as (_ & _ & _ & LN). simpl length. unfold bstr in *. lia.
    - intros junk g. unfold parse_line, parse_arc. change ("a"%char :: (B "rc(" ++ body) ++ B ").") with (B "arc(" ++ body ++ B ").").
      rewrite scanf_lit. unfold body. rewrite <- !app_assoc.
      destruct (int_first (N.of_nat s) (B ", " ++ print_int (N.of_nat (tgt a)) ++ B ", " ++ e ++ W ++ B ").") Hs) as (c & r & E1 & E2).
      rewrite E1, scanf_name by auto. rewrite <- E1. clear c r E1 E2.
      destruct (int_first (N.of_nat (tgt a)) (B ", " ++ e ++ W ++ B ").") Ht) as (c & r & E1 & E2).
      rewrite E1, scanf_int by auto. rewrite <- E1. clear c r E1 E2.
      assert (exists c r, e ++ W ++ B ")." = c :: r /\ is_white c = false) as (c & r & E1 & E2) by (subst e; eexists; eexists; split; reflexivity).
      rewrite E1, scanf_int by auto. rewrite <- E1. clear c r E1 E2.
      rewrite <- (app_nil_r (e ++ W ++ B ").")), scanf_not.
      + cbn [scanf rmap rbind nth]. rewrite app_assoc, strip_ending_ok by (subst e; discriminate).
        cbn [rmap rbind]. rewrite (proj2 (bstr_eqb_eq name name) eq_refl). cbn [negb].
        rewrite !atoi_print by auto. cbn [rbind]. subst e. unfold W. rewrite extract_written.
        rewrite Ge. cbn [rmap rbind]. rewrite !state_of_int_nat by auto. reflexivity.
      + subst e. discriminate.
      + intros d I. rewrite !in_app_iff in I. intros J. simpl in J. destruct J as [<-|[<-|[]]].
        * destruct I as [I|[I|I]]; auto. simpl in I. decompose [or] I; try discriminate; auto.
        * destruct I as [I|[I|I]]; auto. simpl in I. decompose [or] I; try discriminate; auto.
      + rewrite !app_length. simpl length. unfold bstr in *. lia.
      + exact I.
  Qed.

  Lemma arc_none junk line g c r : line = c :: r -> c <> "a"%char -> parse_arc junk name line g = Ok None.
  Proof using.
    intros -> N. unfold parse_arc. change (lit (B "arc(") ++ ?x) with (Lit "a" :: lit (B "rc(") ++ x). cbn [scanf].
    destruct (Ascii.eqb_spec "a" c); [congruence|]. cbn [rbind nth]. destruct (strip_ending junk); reflexivity.
  Qed.
  Lemma final_none line g c r : line = c :: r -> c <> "f"%char -> parse_final name line g = Ok None.
  Proof using.
    intros -> N. unfold parse_final. change (lit (B "final(") ++ ?x) with (Lit "f" :: lit (B "inal(") ++ x). cbn [scanf].
    destruct (Ascii.eqb_spec "f" c); [congruence|]. cbn [rbind].
    destruct (length _) as [|[|[|]]]; reflexivity.
  Qed.

  Lemma filter_none c x : ~ In c x -> filter (Ascii.eqb c) x = [].
  Proof using.
    induction x as [|d x IH]; intros H; auto. simpl. destruct (Ascii.eqb_spec c d) as [->|]; [destruct H; now left|].
    apply IH. intros I. apply H. now right.
  Qed.
  Lemma no_comma_name : ~ In comma name.
  Proof using HN. intros I. apply (name_no _ I). now left. Qed.
  Lemma no_comma_int n : (n < 2 ^ 31)%N -> ~ In comma (print_int n).
  Proof using. intros H I. apply (proj2 (int_word n H)) in I. destruct I as (k & I). discriminate I. Qed.
  (** A final state. *)
  Lemma final_line_reads weights s w : (N.of_nat s < 2 ^ 31)%N -> weight_size weights w <= 99 ->
    reads_as name (prolog_final_line weights name s w) (fun g => set_final_weight g s (keep_weight weights w)).
  Proof using HN.
    intros Hs Hw. unfold prolog_final_line. rewrite name_c_str.
    set (W := if weights then B ", " ++ print_float w else []).
    assert (HW : length W <= 101 /\ ~ In nl W /\ no_nul W).
    { unfold W, weight_size in *. destruct weights.
      - rewrite app_length. change (length (B ", ")) with 2. split; [unfold bstr in *; lia|].
        repeat split; intros I; apply in_app_iff in I; destruct I as [I|I];
          try (simpl in I; decompose [or] I; try discriminate; auto; fail); revert I; try (apply float_no; left; reflexivity).
        apply (proj2 (word_print_float w)).
      - simpl. repeat split; auto; try lia. intros []. }
    destruct HW as (LW & NW & UW).
    set (body := name ++ B ", " ++ print_int (N.of_nat s) ++ W).
    exists "f"%char, (B "inal(" ++ body). split; [|split; [|split; [|split]]].
    - unfold body. change ("f"%char :: (B "inal(" ++ ?x) ++ ?y) with (B "final(" ++ x ++ y). now rewrite <- !app_assoc.
    - unfold body. intros I. change ("f"%char :: B "inal(" ++ ?x) with (B "final(" ++ x) in I. rewrite !in_app_iff in I.
      decompose [or] I.
      all: match goal with H : In nl ?x |- _ => revert H end.
      all: try (apply no_nl_int; assumption). all: try apply name_not_nl. all: try exact NW.
      all: intros H'; simpl in H'; decompose [or] H'; try discriminate; auto.
    - unfold body. change ("f"%char :: B "inal(" ++ ?x) with (B "final(" ++ x).
      repeat apply no_nul_app; auto using no_nul_int; try apply HN.
      all: intros H; simpl in H; decompose [or] H; try discriminate; auto.
    - unfold body. rewrite !app_length. pose proof (digits_length_int _ Hs).
      destruct HN as (_ & _ & _ & LN). simpl length. unfold bstr in *. lia.
    - intros junk g. unfold parse_line. rewrite (arc_none junk _ g "f" _ eq_refl) by discriminate. cbn [rbind].
      change ("f"%char :: (B "inal(" ++ body) ++ B ").") with (B "final(" ++ body ++ B ")."). unfold parse_final.
      assert (FC : length (filter (Ascii.eqb comma) (B "final(" ++ body ++ B ").")) = if weights then 2 else 1).
      { unfold body, W. rewrite !filter_app, !app_length.
        rewrite (filter_none comma name) by apply no_comma_name. rewrite (filter_none comma (print_int _)) by (apply no_comma_int; auto).
        destruct weights; [|reflexivity]. rewrite filter_app, app_length, (filter_none comma (print_float w)) by (apply float_no; auto).
        reflexivity. }
      rewrite FC. unfold body, W. clear FC. destruct weights; rewrite scanf_lit; rewrite <- !app_assoc.
      + destruct (int_first (N.of_nat s) (B ", " ++ print_float w ++ B ").") Hs) as (c & r & E1 & E2).
        cbn [app]. change (B ", " ++ print_float w ++ B ").") with ([","; " "]%char ++ print_float w ++ B ").") in *.
        rewrite E1. rewrite scanf_name by auto. rewrite <- E1. clear c r E1 E2.
        destruct (float_first w (B ").")) as (c & r & E1 & E2). change [","; " "]%char with (B ", ").
        rewrite E1, scanf_int by auto. rewrite <- E1. clear c r E1 E2.
        rewrite scanf_not.
        * rewrite <- (app_nil_r (lit _)), <- (app_nil_r (B ").")), scanf_lit. cbn [scanf rmap rbind].
          rewrite read_float_print, (proj2 (bstr_eqb_eq name name) eq_refl). cbn [negb]. rewrite atoi_print by auto. cbn [rmap rbind].
          rewrite state_of_int_nat by auto. reflexivity.
        * apply float_nonnil.
        * intros d I [E|[]]. subst d. revert I. apply float_no. auto.
        * exact Hw.
        * simpl. auto.
      + cbn [app]. change (print_int (N.of_nat s) ++ [] ++ B ").") with (print_int (N.of_nat s) ++ B ").").
        destruct (int_first (N.of_nat s) (B ").") Hs) as (c & r & E1 & E2).
        rewrite E1. rewrite scanf_name by auto. rewrite <- E1. clear c r E1 E2.
        rewrite scanf_not.
        * rewrite <- (app_nil_r (lit _)), <- (app_nil_r (B ").")), scanf_lit. cbn [scanf rmap rbind].
          rewrite (proj2 (bstr_eqb_eq name name) eq_refl). cbn [negb]. rewrite atoi_print by auto. cbn [rmap rbind].
          rewrite state_of_int_nat by auto. reflexivity.
        * apply (int_word _ Hs).
        * intros d I [E|[]]. subst d. apply (proj2 (int_word _ Hs)) in I. destruct I as (k & I). discriminate I.
        * pose proof (digits_length_int _ Hs). lia.
        * simpl. auto.
  Qed.

  (** A symbol that no transition uses. *)
  Lemma symbol_line_reads x line : prolog_unused x -> written_size x <= 95 -> ~ special x ->
    prolog_symbol_line name x = Ok line -> reads_as name line (fun g => add_symbol g x).
  Proof using HN.
    intros (X1 & X2 & X3 & X4 & X5) HX HS E. unfold prolog_symbol_line in E.
    destruct (prologize_spec x) as (e & Pe & _ & De). rewrite Pe in E. cbn [rmap rbind] in E. injection E as E.
    rewrite name_c_str in E. destruct (prologize_written _ _ Pe) as (Le & Ne & Ce).
    specialize (De (conj X4 X5)).
    assert (We : forall c, In c e -> is_white c = false /\ c <> "000"%char).
    { intros c I. apply Ce in I. destruct I as [I|I].
      - split; [apply not_white_false, X3, I|]. intros ->. exact (X2 I).
      - simpl in I. decompose [or] I; subst; try (split; [reflexivity|discriminate]). contradiction. }
    set (body := name ++ B ", " ++ [dq] ++ e ++ [dq]).
    exists "s"%char, (B "ymbol(" ++ body). split; [|split; [|split; [|split]]].
    - rewrite <- E. unfold body. change ("s"%char :: (B "ymbol(" ++ ?x) ++ ?y) with (B "symbol(" ++ x ++ y). now rewrite <- !app_assoc.
    - unfold body. intros I. change ("s"%char :: B "ymbol(" ++ ?x) with (B "symbol(" ++ x) in I. rewrite !in_app_iff in I.
      decompose [or] I.
      all: match goal with H : In nl ?x |- _ => revert H end.
      all: try apply name_not_nl.
      all: intros H'; try (apply We in H'; destruct H' as [H' _]; discriminate H').
      all: simpl in H'; decompose [or] H'; try discriminate; auto.
    - unfold body. change ("s"%char :: B "ymbol(" ++ ?x) with (B "symbol(" ++ x).
      repeat apply no_nul_app; try apply HN.
      all: intros H'; try (apply We in H'; destruct H' as [_ H']; congruence).
      all: simpl in H'; decompose [or] H'; try discriminate; auto.
    - unfold body. rewrite !app_length. destruct HN as (_ & _ & _ & LN). simpl length. unfold bstr in *. lia.
    - intros junk g. unfold parse_line. rewrite (arc_none junk _ g "s" _ eq_refl) by discriminate. cbn [rbind].
      rewrite (final_none _ g "s" _ eq_refl) by discriminate. cbn [rbind].
      change ("s"%char :: (B "ymbol(" ++ body) ++ B ").") with (B "symbol(" ++ body ++ B ")."). unfold parse_symbol.
      rewrite scanf_lit. unfold body. rewrite <- !app_assoc.
      change ([dq] ++ e ++ [dq] ++ B ").") with (dq :: e ++ [dq] ++ B ").").
      rewrite scanf_name by reflexivity. change (dq :: e ++ [dq] ++ B ").") with ([dq] ++ e ++ [dq] ++ B ").").
      rewrite <- (app_nil_r ([dq] ++ e ++ [dq] ++ B ").")), scanf_word.
      + cbn [scanf rmap rbind]. rewrite (proj2 (bstr_eqb_eq name name) eq_refl). cbn [negb].
        replace ([dq] ++ e ++ [dq] ++ B ").") with (([dq] ++ e ++ [dq]) ++ B ").") by now rewrite <- !app_assoc.
        rewrite strip_ending_ok by discriminate. rewrite strip_quotes_ok by auto. rewrite De. cbn [rmap rbind].
        destruct (bstr_eqb_spec x (B "@_IDENTITY_SYMBOL_@")) as [->|_]; [|reflexivity].
        destruct HS. unfold special. auto.
      + discriminate.
      + apply Forall_forall. intros c I. rewrite !in_app_iff in I. destruct I as [I|[I|[I|I]]];
          [|apply We, I| |]; simpl in I; decompose [or] I; subst; try reflexivity; contradiction.
      + rewrite !app_length. simpl length. unfold bstr in *. lia.
      + exact I.
  Qed.
End Name.
