(** Proofs about lookup in the optimized-lookup format, part 1: tokenization. *)
From Coq Require Import NArith.
From Verif Require Import Base Flags_Model Flags_Spec BT_Model BT_Spec An_Spec LK_Model OLF_Model OLF_Proofs OLC_Model OLL_Model OLC_Spec OLL_Spec.
From Verif Require Import Tok_Model Tok_Spec Tok_Proofs.

Lemma nbyte_char_length b : nbyte_utf8 b = char_length b.
Proof. destruct b as [[] [] [] [] [] [] [] []]; reflexivity. Qed.

Lemma latest_nodup regs w : NoDup (map fst regs) -> forall n, latest regs w = Some n <-> In (w, n) regs.
Proof.
  induction regs as [|[s k] r IH]; intros N n; simpl; [split; [discriminate|tauto]|].
  inversion N as [|? ? N1 N2]; subst. specialize (IH N2). destruct (latest r w) as [m|] eqn:E.
  - split; [intros H; right; apply IH, H|]. intros [H|H]; [|apply IH, H].
    injection H as -> ->. exfalso. apply N1. apply (in_map fst r (w, m)). apply IH. reflexivity.
  - destruct (bstr_eqb_spec s w) as [-> |D].
    + split; [intros H; left; congruence|]. intros [H|H]; [congruence|]. apply IH in H. discriminate.
    + split; [discriminate|]. intros [H|H]; [congruence|apply IH in H; discriminate].
Qed.
Lemma register_app r1 : forall r2 e, register (r1 ++ r2) e = rbind (register r1 e) (register r2).
Proof.
  induction r1 as [|[s k] r IH]; intros r2 e; simpl; [reflexivity|].
  destruct (read_input_symbol s k e); simpl; auto.
Qed.

Lemma prefix_refl w r : prefix_of w (w ++ r).
Proof. exists r. reflexivity. Qed.
Lemma prefix_le w1 w2 s : prefix_of w1 s -> prefix_of w2 s -> length w1 <= length w2 -> prefix_of w1 w2.
Proof.
  intros (r1 & ->) (r2 & E) L. exists (skipn (length w1) w2).
  assert (X : firstn (length w1) (w1 ++ r1) = firstn (length w1) (w2 ++ r2)) by (rewrite E; reflexivity).
  rewrite firstn_app, firstn_app, Nat.sub_diag, firstn_O, app_nil_r, firstn_all in X.
  replace (length w1 - length w2) with 0 in X by lia. rewrite firstn_O, app_nil_r in X.
  rewrite X at 1. symmetry. apply firstn_skipn.
Qed.
Lemma prefix_eq w1 w2 s : prefix_of w1 s -> prefix_of w2 s -> length w1 = length w2 -> w1 = w2.
Proof.
  intros H1 H2 L. destruct (prefix_le w1 w2 s H1 H2 ltac:(lia)) as (r & ->). rewrite app_length in L.
  destruct r; [rewrite app_nil_r; reflexivity|simpl in L; lia].
Qed.
Lemma prefix_trans w1 w2 s : prefix_of w1 w2 -> prefix_of w2 s -> prefix_of w1 s.
Proof. intros (r & ->) (r' & ->). exists (r ++ r'). apply app_assoc_reverse. Qed.

Section Tokens.
  Variables (dec : N -> Z) (tr : transducer) (g : graph) (addr : nat -> N).
  Hypothesis R : represents dec tr g addr.
  Let names := a_table (tr_alphabet tr).
  Let inputs := N.to_nat (h_input_symbols (tr_header tr)).
  Let S (x : bstr) : Prop := input_symbol g x \/ x = EPSILON.
  Hypothesis Hsym : forall x, In x names -> x <> [] /\ no_nul x.
  Hypothesis Hin : inputs <= length names.
  Hypothesis Hpos : 0 < inputs.

  Lemma S_spec x : S x <-> exists k, k < inputs /\ nth_error names k = Some x.
  Proof.
    unfold S, input_symbol. rewrite <- (rep_inputs _ _ _ _ R x). split.
    - intros [(k & E & L & Z)| ->]; [exists k; split; [unfold inputs; lia|exact E]|].
      exists 0. split; [exact Hpos|apply (rep_epsilon _ _ _ _ R)].
    - intros (k & L & E). destruct k as [|k].
      + right. pose proof (rep_epsilon _ _ _ _ R) as X. unfold names in E. rewrite X in E. injection E as <-. reflexivity.
      + left. exists (Datatypes.S k). split; [exact E|]. split; [unfold inputs in L; lia|discriminate].
  Qed.

  (** What lookups have added to the alphabet and the encoder. *)
  Definition base_regs : list (bstr * N) := combine (firstn inputs names) (map N.of_nat (seq 0 inputs)).
  Definition extra_regs (extra : list bstr) : list (bstr * N) :=
    combine extra (map N.of_nat (seq (length names) (length extra))).
  Record grown (al : alphabet) (en : encoder) (extra : list bstr) : Prop := {
    gr_al : al = set_table (tr_alphabet tr) (names ++ extra);
    gr_en : register (base_regs ++ extra_regs extra) encoder_new = Ok en;
    gr_char : forall x, In x extra -> one_char x /\ no_nul x /\ no_prefix S x;
    gr_nodup : NoDup extra;
    gr_small : (N.of_nat (length names + length extra) <= 65535)%N
  }.

  Lemma combine_fst {A B} (l : list A) (m : list B) : length l = length m -> map fst (combine l m) = l.
  Proof. revert m. induction l as [|x l IH]; intros [|y m] L; simpl in *; try lia; [reflexivity|]. rewrite IH by lia. reflexivity. Qed.
  Lemma In_numbered (l : list bstr) n a w k : In (w, k) (combine l (map N.of_nat (seq a n))) -> length l = n ->
    exists j, k = N.of_nat (a + j) /\ j < n /\ nth_error l j = Some w.
  Proof.
    revert n a. induction l as [|x l IH]; intros n a H L; simpl in *; [tauto|]. destruct n as [|n]; [discriminate|].
    simpl in H. destruct H as [H|H].
    - injection H as <- <-. exists 0. rewrite Nat.add_0_r. repeat split; lia || auto.
    - destruct (IH n (Datatypes.S a) H ltac:(lia)) as (j & -> & Lj & E). exists (Datatypes.S j). split; [f_equal; lia|]. split; [lia|exact E].
  Qed.
  Lemma numbered_In (l : list bstr) n a w j : length l = n -> nth_error l j = Some w -> In (w, N.of_nat (a + j)) (combine l (map N.of_nat (seq a n))).
  Proof.
    revert n a j. induction l as [|x l IH]; intros n a j L E; [destruct j; discriminate|]. destruct n as [|n]; [discriminate|].
    simpl. destruct j as [|j]; simpl in E.
    - injection E as ->. left. rewrite Nat.add_0_r. reflexivity.
    - right. replace (a + Datatypes.S j) with (Datatypes.S a + j) by lia. apply IH; [simpl in L; lia|exact E].
  Qed.
  Lemma firstn_length_in : length (firstn inputs names) = inputs.
  Proof. rewrite firstn_length. lia. Qed.
  Lemma regs_fst extra : map fst (base_regs ++ extra_regs extra) = firstn inputs names ++ extra.
  Proof.
    rewrite map_app. unfold base_regs, extra_regs. rewrite !combine_fst; [reflexivity| |]; rewrite map_length, seq_length; [reflexivity|apply firstn_length_in].
  Qed.
  Lemma In_first x : In x (firstn inputs names) <-> S x.
  Proof.
    rewrite S_spec. split.
    - intros H. apply In_nth_error in H. destruct H as (k & E). assert (L : k < length (firstn inputs names)) by (apply nth_error_Some; congruence).
      rewrite firstn_length_in in L. exists k. split; [exact L|]. rewrite <- (firstn_skipn inputs names), nth_error_app1 by (rewrite firstn_length_in; exact L). exact E.
    - intros (k & L & E). rewrite <- (firstn_skipn inputs names), nth_error_app1 in E by (rewrite firstn_length_in; exact L). apply nth_error_In in E. exact E.
  Qed.
  Lemma NoDup_app_in {A} (l m : list A) : NoDup l -> NoDup m -> (forall x, In x l -> ~ In x m) -> NoDup (l ++ m).
  Proof.
    induction l as [|x l IH]; intros N1 N2 D; simpl; [exact N2|]. inversion N1; subst. constructor.
    - rewrite in_app_iff. intros [H|H]; [auto|]. apply (D x (or_introl eq_refl) H).
    - apply IH; auto. intros y Hy. apply D. right. exact Hy.
  Qed.
  Lemma NoDup_first {A} n (l : list A) : NoDup l -> NoDup (firstn n l).
  Proof.
    revert n. induction l as [|x l IH]; intros [|n] H; simpl; try constructor; inversion H; subst; auto.
    intros C. apply H2. rewrite <- (firstn_skipn n l). apply in_or_app. left. exact C.
  Qed.
  Lemma extra_not_S extra x : (forall x, In x extra -> one_char x /\ no_nul x /\ no_prefix S x) -> In x extra -> ~ S x.
  Proof. intros H Hx HS. destruct (H x Hx) as (_ & _ & P). apply (P x HS). rewrite <- (app_nil_r x) at 2. apply prefix_refl. Qed.
  Lemma regs_nodup al en extra : grown al en extra -> NoDup (map fst (base_regs ++ extra_regs extra)).
  Proof.
    intros G. rewrite regs_fst. apply NoDup_app_in; [apply NoDup_first, (rep_names _ _ _ _ R)|apply (gr_nodup _ _ _ G)|].
    intros x Hx Hy. apply In_first in Hx. exact (extra_not_S extra x (gr_char _ _ _ G) Hy Hx).
  Qed.
  Lemma regs_ok al en extra : grown al en extra ->
    Forall (fun '(w, k) => w <> [] /\ no_nul w /\ (k < 65535)%N) (base_regs ++ extra_regs extra).
  Proof.
    intros G. apply Forall_forall. intros (w, k) H. pose proof (gr_small _ _ _ G) as L. apply in_app_or in H. destruct H as [H|H].
    - apply In_numbered in H; [|apply firstn_length_in]. destruct H as (j & -> & Lj & E). apply nth_error_In in E.
      rewrite <- (firstn_skipn inputs names) in Hsym. destruct (Hsym w) as (H1 & H2); [apply in_or_app; left; exact E|].
      split; [exact H1|]. split; [exact H2|]. lia.
    - apply In_numbered in H; [|reflexivity]. destruct H as (j & -> & Lj & E). apply nth_error_In in E.
      destruct (gr_char _ _ _ G w E) as (O & N & _). split; [destruct w; [destruct O|discriminate]|]. split; [exact N|]. lia.
  Qed.
  Lemma latest_spec al en extra w : grown al en extra -> latest (base_regs ++ extra_regs extra) w <> None <-> S w \/ In w extra.
  Proof.
    intros G. pose proof (regs_nodup _ _ _ G) as N. rewrite <- In_first, <- in_app_iff, <- regs_fst. split.
    - destruct (latest _ w) as [n|] eqn:E; [|congruence]. intros _. apply latest_nodup in E; [|exact N]. apply (in_map fst) in E. exact E.
    - intros H. apply in_map_iff in H. destruct H as ((w', n) & E & H). simpl in E. subst w'. apply latest_nodup in H; [congruence|exact N].
  Qed.

  (** Number [k] stands for the token [x]. *)
  Definition token (al : alphabet) (k : N) (x : bstr) : Prop :=
    nth_error (a_table al) (N.to_nat k) = Some x
    /\ (S x /\ N.to_nat k < inputs \/ ~ S x /\ length names <= N.to_nat k).
  Lemma latest_token al en extra w n : grown al en extra -> latest (base_regs ++ extra_regs extra) w = Some n -> token al n w.
  Proof.
    intros G E. apply latest_nodup in E; [|exact (regs_nodup _ _ _ G)]. rewrite (gr_al _ _ _ G). unfold token. cbn [set_table a_table].
    apply in_app_or in E. destruct E as [E|E].
    - apply In_numbered in E; [|apply firstn_length_in]. destruct E as (j & -> & Lj & E). rewrite Nat2N.id. simpl.
      assert (E2 : nth_error names j = Some w) by (rewrite <- (firstn_skipn inputs names), nth_error_app1 by (rewrite firstn_length_in; lia); exact E).
      split; [rewrite nth_error_app1 by lia; exact E2|]. left. split; [apply S_spec; eauto|exact Lj].
    - apply In_numbered in E; [|reflexivity]. destruct E as (j & -> & Lj & E). rewrite Nat2N.id.
      split; [rewrite nth_error_app2 by lia; replace (length names + j - length names) with j by lia; exact E|].
      right. split; [|lia]. apply nth_error_In in E. exact (extra_not_S extra w (gr_char _ _ _ G) E).
  Qed.
  Lemma token_more al k x y : token al k x -> token (set_table al (a_table al ++ [y])) k x.
  Proof.
    intros (E & H). split; [|exact H]. cbn [set_table a_table]. rewrite nth_error_app1; [exact E|]. apply nth_error_Some. congruence.
  Qed.

  Lemma combine_app_eq {A B} (l1 l2 : list A) (m1 m2 : list B) : length l1 = length m1 ->
    combine (l1 ++ l2) (m1 ++ m2) = combine l1 m1 ++ combine l2 m2.
  Proof. revert m1. induction l1 as [|x l IH]; intros [|y m1] L; simpl in *; try lia; [reflexivity|]. rewrite IH by lia. reflexivity. Qed.

  Lemma grown_more al en extra c e2 : grown al en extra -> one_char c -> no_nul c -> no_prefix S c -> ~ In c extra ->
    (N.of_nat (Datatypes.S (length (a_table al))) <= 65535)%N ->
    read_input_symbol c (N.of_nat (length (a_table al))) en = Ok e2 ->
    grown (set_table al (a_table al ++ [c])) e2 (extra ++ [c]).
  Proof.
    intros G O N P F L E. rewrite (gr_al _ _ _ G) in *. cbn [set_table a_table] in *. rewrite app_length in *.
    constructor.
    - cbn [set_table a_table]. rewrite app_assoc. reflexivity.
    - unfold extra_regs. rewrite app_length, seq_app, map_app. cbn [length seq map].
      rewrite combine_app_eq by (rewrite map_length, seq_length; reflexivity). cbn [combine].
      rewrite app_assoc, register_app. fold (extra_regs extra). rewrite (gr_en _ _ _ G). cbn [rbind register]. rewrite E. reflexivity.
    - intros x Hx. apply in_app_or in Hx. destruct Hx as [Hx|[<- |[]]]; [apply (gr_char _ _ _ G), Hx|auto].
    - apply NoDup_app_in; [apply (gr_nodup _ _ _ G)|constructor; [intros []|constructor]|]. intros x Hx [<- |[]]. exact (F Hx).
    - rewrite app_length. cbn [length]. lia.
  Qed.

  Lemma one_char_prefix c1 c2 s : one_char c1 -> one_char c2 -> prefix_of c1 s -> prefix_of c2 s -> c1 = c2.
  Proof.
    intros O1 O2 P1 P2. apply (prefix_eq c1 c2 s P1 P2). destruct c1 as [|b1 c1], c2 as [|b2 c2]; try (destruct O1; fail); try (destruct O2; fail).
    destruct P1 as (r1 & ->), P2 as (r2 & E). injection E as <- _. unfold one_char in *. lia.
  Qed.
  Lemma one_char_nonempty c : one_char c -> 0 < length c.
  Proof. destruct c; simpl; [tauto|lia]. Qed.
  Lemma skipn_prefix (w r : bstr) : skipn (length w) (w ++ r) = r.
  Proof. rewrite skipn_app, skipn_all, Nat.sub_diag. reflexivity. Qed.
  Lemma tokens_sym w r ts : longest_prefix S (w ++ r) w -> w <> [] -> tokens g (w ++ r) ts -> exists ts', ts = w :: ts' /\ tokens g r ts'.
  Proof.
    intros (HS & HP & HL) Hne H. remember (w ++ r) as s eqn:Es. destruct H as [|w' r' ts' (HS' & HP' & HL') H|c r' ts' NP OC H].
    - destruct w; [congruence|discriminate].
    - assert (E : w' = w).
      { apply (prefix_eq w' w (w' ++ r') HP' HP). specialize (HL w' HS' HP'). specialize (HL' w HS HP). lia. }
      subst w'. apply app_inv_head in Es. subst r'. eauto.
    - exfalso. exact (NP w HS HP).
  Qed.
  Lemma tokens_char c r ts : no_prefix S (c ++ r) -> one_char c -> tokens g (c ++ r) ts -> exists ts', ts = c :: ts' /\ tokens g r ts'.
  Proof.
    intros NP OC H. remember (c ++ r) as s eqn:Es. destruct H as [|w' r' ts' (HS' & HP' & HL') H|c' r' ts' NP' OC' H].
    - destruct c; [destruct OC|discriminate].
    - exfalso. exact (NP w' HS' HP').
    - assert (E : c' = c) by (apply (one_char_prefix c' c (c' ++ r') OC' OC); [apply prefix_refl|rewrite Es; apply prefix_refl]).
      subst c'. apply app_inv_head in Es. subst r'. eauto.
  Qed.
  Lemma no_nul_app a b : no_nul (a ++ b) -> no_nul a /\ no_nul b.
  Proof. unfold no_nul. rewrite in_app_iff. tauto. Qed.

  (** The tokenizer follows [tokens] exactly. *)
  Lemma initialize_spec fuel : forall s al en extra, length s <= fuel -> grown al en extra -> no_nul s ->
    (N.of_nat (length (a_table al) + length s) <= 65535)%N ->
    match initialize_input fuel s al en with
    | Ok (o, al', en') =>
        (exists extra', grown al' en' extra' /\ length extra <= length extra')
        /\ (forall k x, token al k x -> token al' k x)
        /\ match o with
           | Some ks => exists ts, tokens g s ts /\ Forall2 (token al') ks ts
           | None => forall ts, ~ tokens g s ts
           end
    | Ub => forall ts, ~ tokens g s ts
    | _ => False
    end.
  Proof.
    induction fuel as [|fuel IH]; intros s al en extra Lf G Ns L.
    - destruct s as [|c s]; [|simpl in Lf; lia]. simpl. split; [eauto|]. split; [auto|]. exists []. split; constructor.
    - destruct s as [|b0 s0]; [simpl; split; [eauto|]; split; [auto|]; exists []; split; constructor|].
      set (s := b0 :: s0) in *.
      assert (Es : initialize_input (Datatypes.S fuel) s al en =
        rbind (encoder_find_key en s) (fun '(k, n) =>
          if (k =? OLF_Model.NO_SYMBOL)%N then
            match nbyte_utf8 b0 with
            | O => Ok (None, al, en)
            | n =>
                if (length s <? n)%nat then Ub
                else
                  let x := firstn n s in
                  let k := N.of_nat (length (a_table al)) in
                  rbind (read_input_symbol x k en) (fun en =>
                  rbind (initialize_input fuel (skipn n s) (set_table al (a_table al ++ [x])) en) (fun '(o, al, en) =>
                  Ok (option_map (cons k) o, al, en)))
            end
          else
            rbind (initialize_input fuel (skipn n s) al en) (fun '(o, al, en) =>
            Ok (option_map (cons k) o, al, en)))) by reflexivity.
      rewrite Es. clear Es.
      destruct (encoder_spec _ s (regs_ok _ _ _ G) ltac:(discriminate)) as (e' & n & k & Ee & Ef & H).
      assert (e' = en) by (pose proof (gr_en _ _ _ G); congruence). subst e'. rewrite Ef. cbn [rbind].
      destruct H as [(w & (HS & HP & HL) & HN & Hn & ->)|(NP & ->)].
      + (* a registered symbol *)
        change OLF_Model.NO_SYMBOL with 65535%N. rewrite (proj2 (N.eqb_neq n 65535) Hn).
        destruct HP as (r & Er). rewrite Er. rewrite skipn_prefix.
        assert (Wn : 0 < length w).
        { apply latest_bound in HN; [|exact (regs_ok _ _ _ G)]. destruct w; [destruct HN; congruence|simpl; lia]. }
        assert (Lr : length s = length w + length r) by (rewrite Er, app_length; reflexivity).
        assert (Tk : forall ts', tokens g r ts' -> tokens g (w ++ r) (w :: ts')).
        { intros ts' T. apply (latest_spec al en extra w G) in HS. rewrite Er in HL. destruct HS as [HS|HS].
          - apply seg_sym; [|exact T]. split; [exact HS|]. split; [apply prefix_refl|]. intros w' HS' HP'. apply HL; [|exact HP']. apply (latest_spec al en extra w' G). left. exact HS'.
          - destruct (gr_char _ _ _ G w HS) as (O & _ & P). apply seg_chr; [|exact O|exact T].
            intros w' HS' HP'. apply (P w' HS'). apply (prefix_le w' w (w ++ r) HP' (prefix_refl _ _)). apply HL; [|exact HP']. apply (latest_spec al en extra w' G). left. exact HS'. }
        assert (Tk2 : forall ts, tokens g (w ++ r) ts -> exists ts', ts = w :: ts' /\ tokens g r ts').
        { intros ts T. apply (latest_spec al en extra w G) in HS. rewrite Er in HL. destruct HS as [HS|HS].
          - apply tokens_sym; [|destruct w; [simpl in Wn; lia|discriminate]|exact T]. split; [exact HS|]. split; [apply prefix_refl|]. intros w' HS' HP'. apply HL; [|exact HP']. apply (latest_spec al en extra w' G). left. exact HS'.
          - destruct (gr_char _ _ _ G w HS) as (O & _ & P). apply tokens_char; [|exact O|exact T].
            intros w' HS' HP'. apply (P w' HS'). apply (prefix_le w' w (w ++ r) HP' (prefix_refl _ _)). apply HL; [|exact HP']. apply (latest_spec al en extra w' G). left. exact HS'. }
        rewrite Er in Ns. destruct (no_nul_app _ _ Ns) as (_ & Nr).
        specialize (IH r al en extra ltac:(lia) G Nr ltac:(lia)).
        destruct (initialize_input fuel r al en) as [((o, al'), en')| | |]; cbn [rbind]; [|destruct IH| |destruct IH].
        * destruct IH as (G' & T' & H'). split; [exact G'|]. split; [exact T'|]. destruct o as [ks|]; cbn [option_map].
          -- destruct H' as (ts & H1 & H2). exists (w :: ts). split; [apply Tk, H1|]. constructor; [|exact H2].
             apply T'. exact (latest_token al en extra w n G HN).
          -- intros ts T. destruct (Tk2 ts T) as (ts' & -> & T2). exact (H' ts' T2).
        * intros ts T. destruct (Tk2 ts T) as (ts' & -> & T2). exact (IH ts' T2).
      + (* no registered symbol *)
        change (NO_SYMBOL =? OLF_Model.NO_SYMBOL)%N with true. cbv iota.
        assert (NS : no_prefix S s) by (intros w HS; apply NP, (latest_spec al en extra w G); left; exact HS).
        rewrite nbyte_char_length. destruct (char_length b0) as [|m] eqn:Eb.
        * split; [eauto|]. split; [auto|]. intros ts T. unfold s in T. inversion T as [|w r ts' (HS & HP & _) _ E|c r ts' _ OC _ E]; subst.
          -- apply (NS w HS). unfold s. rewrite <- E. exact HP.
          -- destruct c as [|b c]; [destruct OC|]. injection E as -> _. unfold one_char in OC. rewrite Eb in OC. discriminate.
        * set (m' := Datatypes.S m) in *. destruct (Nat.ltb_spec (length s) m') as [Lt|Ge].
          { intros ts T. unfold s in T. inversion T as [|w r ts' (HS & HP & _) _ E|c r ts' _ OC _ E]; subst.
            - apply (NS w HS). unfold s. rewrite <- E. exact HP.
            - destruct c as [|b c]; [destruct OC|]. injection E as -> E. unfold one_char in OC. rewrite Eb in OC.
              assert (X : length s = length (b0 :: c) + length r) by (unfold s; rewrite <- E; cbn [length]; rewrite app_length; lia). lia. }
          cbv zeta. set (c := firstn m' s). set (r := skipn m' s).
          assert (Er : s = c ++ r) by (symmetry; apply firstn_skipn).
          assert (Lc : length c = m') by (unfold c; rewrite firstn_length; lia).
          assert (Oc : one_char c) by (unfold one_char; assert (X : c = b0 :: firstn m s0) by reflexivity; rewrite X in Lc |- *; rewrite Eb; exact Lc).
          assert (Lr : length s = m' + length r) by (rewrite Er, app_length, Lc; reflexivity).
          destruct (no_nul_app c r ltac:(rewrite <- Er; exact Ns)) as (Nc & Nr).
          assert (Pc : no_prefix S c) by (intros w HS HP; apply (NS w HS); apply (prefix_trans w c s HP); rewrite Er; apply prefix_refl).
          assert (Fc : ~ In c extra).
          { intros C. apply (NP c); [apply (latest_spec al en extra c G); right; exact C|]. rewrite Er. apply prefix_refl. }
          assert (exists en2, read_input_symbol c (N.of_nat (length (a_table al))) en = Ok en2) as (en2 & E2).
          { destruct (encoder_spec ((base_regs ++ extra_regs extra) ++ [(c, N.of_nat (length (a_table al)))]) s) as (e3 & _ & _ & E3 & _); [|discriminate|].
            - apply Forall_app. split; [exact (regs_ok _ _ _ G)|]. constructor; [|constructor]. split; [destruct c; [destruct Oc|discriminate]|]. split; [exact Nc|].
              change Tok_Model.NO_SYMBOL with 65535%N. unfold m' in *. lia.
            - rewrite register_app, (gr_en _ _ _ G) in E3. cbn [rbind register] in E3. destruct (read_input_symbol c _ en); [eauto|discriminate..]. }
          rewrite E2. cbn [rbind].
          assert (G2 : grown (set_table al (a_table al ++ [c])) en2 (extra ++ [c])) by (apply (grown_more al en extra c en2 G Oc Nc Pc Fc); [unfold m' in *; lia|exact E2]).
          specialize (IH r _ _ _ ltac:(unfold m' in *; lia) G2 Nr).
          cbn [set_table a_table] in IH. rewrite app_length in IH. cbn [length] in IH. specialize (IH ltac:(unfold m' in *; lia)).
          assert (Tk2 : forall ts, tokens g s ts -> exists ts', ts = c :: ts' /\ tokens g r ts').
          { intros ts T. apply tokens_char; [rewrite <- Er; exact NS|exact Oc|rewrite <- Er; exact T]. }
          destruct (initialize_input fuel r _ en2) as [((o, al'), en')| | |]; cbn [rbind]; [|destruct IH| |destruct IH].
          -- destruct IH as ((ex' & G' & Lx) & T' & H'). split; [exists ex'; split; [exact G'|rewrite app_length in Lx; lia]|].
             split; [intros j x Hj; apply T', token_more, Hj|]. destruct o as [ks|]; cbn [option_map].
             ++ destruct H' as (ts & H1 & H2). exists (c :: ts). split; [rewrite Er; apply seg_chr; [rewrite <- Er; exact NS|exact Oc|exact H1]|].
                constructor; [|exact H2]. apply T'. split.
                ** rewrite Nat2N.id. cbn [set_table a_table]. rewrite nth_error_app2, Nat.sub_diag by lia. reflexivity.
                ** right. rewrite Nat2N.id. split; [intros C; apply (Pc c C); rewrite <- (app_nil_r c) at 2; apply prefix_refl|].
                   rewrite (gr_al _ _ _ G). cbn [set_table a_table]. rewrite app_length. lia.
             ++ intros ts T. destruct (Tk2 ts T) as (ts' & -> & T2). exact (H' ts' T2).
          -- intros ts T. destruct (Tk2 ts T) as (ts' & -> & T2). exact (IH ts' T2).
  Qed.
End Tokens.
