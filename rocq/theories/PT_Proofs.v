(** Proofs about hfst-pair-test. *)
From Verif Require Import Base BT_Model BT_Spec BT_Proofs Tok_Model S2_Spec S2_Model S2_Proofs S2_Props PT_Spec PT_Model.

(** ** One step. *)
Lemma target_among_spec i o u l d :
  match target_among i o u l d with
  | Some t => (exists a, In a l /\ isy a = i /\ osy a = o /\ tgt a = t) \/
      (i = o /\ u = true /\ (d = Some t \/ exists a, In a l /\ isy a = IDN /\ osy a = IDN /\ tgt a = t))
  | None => (forall a, In a l -> ~ (isy a = i /\ osy a = o)) /\
      (i = o -> u = true -> d = None /\ forall a, In a l -> ~ (isy a = IDN /\ osy a = IDN))
  end.
Proof.
  revert d. induction l as [|a l IH]; intros d; cbn [target_among].
  - destruct (bstr_eqb i o) eqn:E; cbn [andb].
    + apply bstr_eqb_eq in E. destruct u; [destruct d as [t|]|].
      * right. auto.
      * split; [intros a []|]. intros _ _. split; [reflexivity|intros a []].
      * split; [intros a []|]. discriminate.
    + apply bstr_eqb_neq in E. split; [intros a []|]. intros Q. destruct (E Q).
  - destruct (bstr_eqb (isy a) i && bstr_eqb (osy a) o) eqn:E.
    + apply andb_true_iff in E. destruct E as (E1 & E2). apply bstr_eqb_eq in E1, E2. left. exists a. simpl. auto.
    + assert (N : ~ (isy a = i /\ osy a = o)).
      { intros (E1 & E2). rewrite <- E1, <- E2, !bstr_eqb_refl in E. discriminate E. }
      destruct (bstr_eqb (isy a) IDN && bstr_eqb (osy a) IDN) eqn:D.
      * apply andb_true_iff in D. destruct D as (D1 & D2). apply bstr_eqb_eq in D1, D2.
        specialize (IH (Some (tgt a))). destruct (target_among i o u l (Some (tgt a))) as [t|].
        -- destruct IH as [(b & H1 & H2)|(H1 & H2 & [H3|(b & H3 & H4)])].
           ++ left. exists b. simpl. auto.
           ++ right. split; [exact H1|]. split; [exact H2|]. right. exists a. injection H3 as <-. simpl. auto.
           ++ right. split; [exact H1|]. split; [exact H2|]. right. exists b. simpl. auto.
        -- destruct IH as (H1 & H2). split.
           ++ intros b [<-|Hb]; auto.
           ++ intros Q1 Q2. destruct (H2 Q1 Q2) as (W & _). discriminate W.
      * assert (M : ~ (isy a = IDN /\ osy a = IDN)).
        { intros (E1 & E2). rewrite E1, E2, !bstr_eqb_refl in D. discriminate D. }
        specialize (IH d). destruct (target_among i o u l d) as [t|].
        -- destruct IH as [(b & H1 & H2)|(H1 & H2 & [H3|(b & H3 & H4)])].
           ++ left. exists b. simpl. auto.
           ++ right. auto.
           ++ right. split; [exact H1|]. split; [exact H2|]. right. exists b. simpl. auto.
        -- destruct IH as (H1 & H2). split.
           ++ intros b [<-|Hb]; auto.
           ++ intros Q1 Q2. destruct (H2 Q1 Q2) as (W1 & W2). split; [exact W1|]. intros b [<-|Hb]; auto.
Qed.

Section Rule.
  Variable known : list bstr.
  Variable g : graph.
  Hypothesis K : forall x, In x known <-> used g x.
  Hypothesis D : deterministic g.
  Lemma unknown_spec x : negb (smem bcmp x known) = true <-> ~ used g x.
  Proof. rewrite negb_true_iff, <- not_true_iff_false, (smem_In bcmp bcmp_eq), K. reflexivity. Qed.
  Lemma get_target_step p s t : get_target known g p s = Some t <-> exists a, In a (arcs g s) /\ matches (used g) (isy a, osy a) p /\ tgt a = t.
  Proof.
    unfold get_target. destruct p as (i & o). cbn [fst snd].
    pose proof (target_among_spec i o (negb (smem bcmp i known)) (arcs g s) None) as H.
    assert (U : forall a, In a (arcs g s) -> used g (isy a) /\ used g (osy a)).
    { intros a Ha. split; exists s, a; auto. }
    destruct (target_among i o (negb (smem bcmp i known)) (arcs g s) None) as [t'|].
    - assert (X : exists a, In a (arcs g s) /\ matches (used g) (isy a, osy a) (i, o) /\ tgt a = t').
      { destruct H as [(a & Ha & <- & <- & E)|(<- & H2 & [H3|(a & Ha & E1 & E2 & E)])].
        - exists a. split; [exact Ha|]. split; [constructor|exact E].
        - discriminate H3.
        - exists a. split; [exact Ha|]. split; [|exact E]. rewrite E1, E2. apply m_identity. apply unknown_spec. exact H2. }
      split; [intros Q; injection Q as <-; exact X|]. intros (a & Ha & M & <-). destruct X as (b & Hb & M' & <-). f_equal.
      inversion M; subst; inversion M'; subst.
      + apply (D s); auto; congruence.
      + exfalso. match goal with W : ~ used g _ |- _ => apply W end. apply U. exact Ha.
      + exfalso. match goal with W : ~ used g _ |- _ => apply W end. apply U. exact Hb.
      + apply (D s); auto; congruence.
    - destruct H as (H1 & H2). split; [discriminate|]. intros (a & Ha & M & _). exfalso. inversion M; subst.
      + apply (H1 a Ha). auto.
      + destruct (H2 eq_refl) as (_ & W); [apply unknown_spec; assumption|]. apply (W a Ha). split; symmetry; assumption.
  Qed.
  Definition accepted_from (s : nat) (ps : list (bstr * bstr)) : Prop :=
    exists m v t f, run g s m v t /\ mget Nat.compare t (fin g) = Some f /\ Forall2 (matches (used g)) m ps.
  Lemma test_from_spec positive ps s : (test_from known g positive ps s = (if positive then 0 else 1) /\ accepted_from s ps) \/
    (test_from known g positive ps s = (if positive then 1 else 0) /\ ~ accepted_from s ps).
  Proof.
    revert s. induction ps as [|p ps IH]; intros s; cbn [test_from].
    - unfold is_final_state, finw. destruct (mget Nat.compare s (fin g)) as [f|] eqn:E.
      + left. split; [destruct positive; reflexivity|]. exists [], 0%Z, s, f. repeat split; [constructor|exact E|constructor].
      + right. split; [destruct positive; reflexivity|]. intros (m & v & t & f & R & F & M). inversion M; subst. inversion R; subst. rewrite E in F. discriminate F.
    - destruct (get_target known g p s) as [t|] eqn:E.
      + destruct (IH t) as [(H & A)|(H & A)]; [left|right]; (split; [exact H|]).
        * apply get_target_step in E. destruct E as (a & Ha & M & <-). destruct A as (m & v & q & f & R & F & M').
          exists ((isy a, osy a) :: m), (wt a + v)%Z, q, f. repeat split; [constructor; assumption|exact F|constructor; assumption].
        * intros (m & v & q & f & R & F & M). inversion M; subst. inversion R; subst. apply A.
          match goal with Ha : In ?b (nth s (sts g) []), M1 : matches _ _ p |- _ =>
            assert (Q : get_target known g p s = Some (tgt b)) by (apply get_target_step; exists b; split; [exact Ha|]; split; [exact M1|reflexivity]) end.
          rewrite E in Q. injection Q as ->. eexists _, _, _, _. repeat split; eassumption.
      + right. split; [destruct positive; reflexivity|]. intros (m & v & q & f & R & F & M). inversion M; subst. inversion R; subst.
        match goal with Ha : In ?b (nth s (sts g) []), M1 : matches _ _ p |- _ =>
          assert (Q : get_target known g p s = Some (tgt b)) by (apply get_target_step; exists b; split; [exact Ha|]; split; [exact M1|reflexivity]) end.
        rewrite E in Q. discriminate Q.
  Qed.
  Lemma test_rule positive ps : (test_from known g positive ps 0 = (if positive then 0 else 1) /\ accepted_by g ps) \/
    (test_from known g positive ps 0 = (if positive then 1 else 0) /\ ~ accepted_by g ps).
  Proof.
    destruct (test_from_spec positive ps 0) as [(H & A)|(H & A)]; [left|right]; (split; [exact H|]).
    - destruct A as (m & v & t & f & R & F & M). exists m, (v + f)%Z. split; [|exact M]. exists t, v, f. auto.
    - intros (m & w & (t & v & f & R & F & _) & M). apply A. exists m, v, t, f. auto.
  Qed.
End Rule.

Definition agree (known : list bstr) (grammar : list graph) : Prop :=
  forall g, In g grammar -> deterministic g /\ forall x, In x known <-> used g x.
(** What the test of a line says. *)
Definition passes (positive : bool) (grammar : list graph) (ps : list (bstr * bstr)) : Prop :=
  if positive then forall g, In g grammar -> accepted_by g ps else exists g, In g grammar /\ ~ accepted_by g ps.

Lemma test_grammar_spec known grammar positive ps : agree known grammar ->
  (test_grammar known grammar positive ps = 0 /\ passes positive grammar ps) \/ (test_grammar known grammar positive ps = 1 /\ ~ passes positive grammar ps).
Proof.
  intros A. unfold test_grammar, passes. destruct positive.
  - assert (S1 : forall gs, fold_left (fun c g => if c =? 0 then test_from known g true ps 0 else c) gs 1 = 1).
    { induction gs as [|g gs IH]; [reflexivity|exact IH]. }
    induction grammar as [|g gs IH]; cbn [fold_left].
    + left. split; [reflexivity|]. intros g [].
    + destruct (A g (or_introl eq_refl)) as (D & K). change (0 =? 0) with true. cbv iota.
      destruct (test_rule known g K D true ps) as [(H & B)|(H & B)]; rewrite H.
      * destruct IH as [(H' & B')|(H' & B')]; [intros g' Hg'; apply A; right; exact Hg'| |]; rewrite H'; [left|right]; (split; [reflexivity|]).
        -- intros g' [<-|Hg']; auto.
        -- intros W. apply B'. intros g' Hg'. apply W. right. exact Hg'.
      * right. split; [apply S1|]. intros W. apply B, W. left. reflexivity.
  - assert (S1 : forall gs, fold_left (fun c g => if c =? 1 then test_from known g false ps 0 else c) gs 0 = 0).
    { induction gs as [|g gs IH]; [reflexivity|exact IH]. }
    induction grammar as [|g gs IH]; cbn [fold_left].
    + right. split; [reflexivity|]. intros (g & [] & _).
    + destruct (A g (or_introl eq_refl)) as (D & K). change (1 =? 1) with true. cbv iota.
      destruct (test_rule known g K D false ps) as [(H & B)|(H & B)]; rewrite H.
      * destruct IH as [(H' & B')|(H' & B')]; [intros g' Hg'; apply A; right; exact Hg'| |]; rewrite H'; [left|right]; (split; [reflexivity|]).
        -- destruct B' as (g' & Hg' & N). exists g'. split; [right; exact Hg'|exact N].
        -- intros (g' & [<-|Hg'] & N); [exact (N B)|]. apply B'. exists g'. auto.
      * left. split; [apply S1|]. exists g. split; [left; reflexivity|exact B].
Qed.

(** ** The lines. *)
Lemma skipped_spec s : is_empty_or_comment s = true <-> skipped s.
Proof.
  induction s as [|c s IH]; cbn [is_empty_or_comment].
  - split; [|reflexivity]. intros _. exists [], []. split; [reflexivity|]. split; [intros c []|left; reflexivity].
  - destruct (Ascii.eqb c " " || Ascii.eqb c "009") eqn:E.
    + assert (C : c = " "%char \/ c = "009"%char).
      { apply orb_true_iff in E. destruct E as [E|E]; apply Ascii.eqb_eq in E; auto. }
      rewrite IH. split.
      * intros (b & r & -> & H1 & H2). exists (c :: b), r. split; [reflexivity|]. split; [|exact H2]. intros d [<-|Hd]; auto.
      * intros (b & r & Q & H1 & H2). destruct b as [|d b]; cbn [app] in Q.
        -- destruct H2 as [->|(r' & ->)]; [discriminate Q|]. injection Q as -> _. destruct C as [C|C]; discriminate C.
        -- injection Q as <- ->. exists b, r. split; [reflexivity|]. split; [|exact H2]. intros e He. apply H1. right. exact He.
    + split.
      * intros Q. apply Ascii.eqb_eq in Q. subst c. exists [], ("!"%char :: s). split; [reflexivity|]. split; [intros c []|]. right. exists s. reflexivity.
      * intros (b & r & Q & H1 & H2). destruct b as [|d b]; cbn [app] in Q.
        -- destruct H2 as [->|(r' & ->)]; [discriminate Q|]. injection Q as -> _. reflexivity.
        -- injection Q as <- _. destruct (H1 c (or_introl eq_refl)) as [->| ->]; discriminate E.
Qed.
Lemma line_of_spec s e : ~ In "010"%char s -> e = [] \/ (exists e', e = "010"%char :: e') -> line_of (s ++ e) = s.
Proof.
  intros N E. unfold line_of. induction s as [|c s IH]; cbn [app until].
  - destruct E as [->|(e' & ->)]; reflexivity.
  - destruct (Ascii.eqb "010" c) eqn:Q; [apply Ascii.eqb_eq in Q; destruct N; left; congruence|]. f_equal. apply IH. intros W. apply N. right. exact W.
Qed.
Lemma no_space_words w : In w (words [] (B "0")) -> ~ In " "%char w.
Proof. intros H. cbn in H. decompose [or] H; subst; try contradiction; vm_compute; intuition discriminate. Qed.

Section Stream.
  Variable gr : bstr -> nat.
  Variable valid : bstr -> bool.
  Variable one : bstr -> Prop.
  Hypothesis I : icu gr valid one.
  Hypothesis O : orderly one [] (B "0").
  Lemma test_lines_spec known grammar positive t lines os c : new_tokenizer gr valid [] (B "0") = Ok t -> agree known grammar -> Forall2 (line_says one) lines os -> c = 0 \/ c = 1 ->
    exists c', test_lines gr valid known grammar positive t lines c = Ok c' /\ (c' = 0 \/ c' = 1) /\
      (c' = 0 <-> c = 0 /\ forall ps, In (Some ps) os -> passes positive grammar (bounded ps)).
  Proof.
    intros T A L. revert c. induction L as [|line o lines os H L IH]; intros c C; cbn [test_lines].
    - exists c. split; [reflexivity|]. split; [exact C|]. split; [|tauto]. intros W. split; [exact W|]. intros ps [].
    - destruct H as [s e N E H|s e ps N E H P]; rewrite (line_of_spec s e N E).
      + rewrite (proj2 (skipped_spec s) H). destruct (IH c C) as (c' & R & V & W). exists c'. split; [exact R|]. split; [exact V|]. rewrite W.
        split; intros (W1 & W2); (split; [exact W1|]); intros ps Hps; [destruct Hps as [Q|Hps]; [discriminate Q|]|]; apply W2; [|right]; exact Hps.
      + destruct (is_empty_or_comment s) eqn:K; [destruct (H (proj1 (skipped_spec s) K))|].
        pose proof (C145_pair_string_partial gr valid one [] (B "0") ps s I O no_space_words P) as X. rewrite T in X. cbn [rbind] in X. rewrite X. cbn [rbind]. cbv zeta.
        change ((B "@#@", EPSILON_SYMBOL) :: ps ++ [(B "@#@", EPSILON_SYMBOL)]) with (bounded ps).
        destruct (test_grammar_spec known grammar positive (bounded ps) A) as [(G & Y)|(G & Y)]; rewrite G.
        * destruct (IH (if c =? 0 then 0 else c)) as (c' & R & V & W); [destruct C as [->| ->]; simpl; auto|].
          exists c'. split; [exact R|]. split; [exact V|]. rewrite W. replace (if c =? 0 then 0 else c) with c by (destruct C as [->| ->]; reflexivity).
          split; intros (W1 & W2); (split; [exact W1|]); intros qs Hqs.
          -- destruct Hqs as [Q|Hqs]; [injection Q as ->; exact Y|]. apply W2. exact Hqs.
          -- apply W2. right. exact Hqs.
        * destruct (IH (if c =? 0 then 1 else c)) as (c' & R & V & W); [destruct C as [->| ->]; simpl; auto|].
          exists c'. split; [exact R|]. split; [exact V|]. rewrite W. replace (if c =? 0 then 1 else c) with 1 by (destruct C as [->| ->]; reflexivity).
          split; [intros (W1 & _); discriminate W1|]. intros (_ & W2). destruct Y. apply W2. left. reflexivity.
  Qed.
  Lemma tokenizer_made : exists t, new_tokenizer gr valid [] (B "0") = Ok t.
  Proof.
    pose proof (C145_pair_string_partial gr valid one [] (B "0") [] [] I O no_space_words (spp_nil _ _)) as X.
    destruct (new_tokenizer gr valid [] (B "0")) as [t| | |]; try discriminate X. exists t. reflexivity.
  Qed.
  Lemma pair_test_spec grammar positive lines os :
    (forall g, In g grammar -> deterministic g) -> (forall g h x, In g grammar -> In h grammar -> used g x -> used h x) -> Forall2 (line_says one) lines os ->
    exists c, pair_test gr valid grammar positive lines = Ok c /\ (c = 0 \/ c = 1) /\
      (c = 0 <-> forall ps, In (Some ps) os -> passes positive grammar (bounded ps)).
  Proof.
    intros D S L. unfold pair_test. destruct tokenizer_made as (t & T). rewrite T. cbn [rbind].
    destruct (test_lines_spec (match grammar with [] => [] | g :: _ => symbols_used g end) grammar positive t lines os 0 T) as (c & R & V & W); [|exact L|left; reflexivity|].
    - intros g Hg. split; [apply D; exact Hg|]. intros x. destruct grammar as [|g0 gs]; [destruct Hg|].
      rewrite symbols_used_In. change (exists s a, In a (arcs g0 s) /\ (x = isy a \/ x = osy a)) with (used g0 x).
      split; apply S; simpl; auto.
    - exists c. split; [exact R|]. split; [exact V|]. rewrite W. tauto.
  Qed.
End Stream.
