(** Proofs: flags on both sides of a transition. *)
From Verif Require Import Base Flags_Model Flags_Spec Flags_Proofs BT_Model BT_Spec BT_Proofs Harm_Model Harm_Spec Co_Spec FH_Spec FH_Model FH_Proofs FH_Proofs2.

Definition whole (a : arc) : Prop := extra_transition_needed a = false.
Definition parted (a : arc) : Prop := extra_transition_needed a = true.
(** Transitions of one state: the arcs of the copy and the new states numbered from [n]. *)
Lemma ts_arcs_spec l : forall n own new, ts_arcs n l = (own, new) ->
  (forall a, In a l -> whole a -> In a own) /\
  (forall a, In a l -> parted a -> exists i, i < length new /\ In (first_half (n + i) a) own /\ nth i new [] = [second_half a]) /\
  (forall b, In b own -> exists a, In a l /\ (whole a /\ b = a \/ parted a /\ exists i, i < length new /\ b = first_half (n + i) a /\ nth i new [] = [second_half a])) /\
  (forall i, i < length new -> exists a, In a l /\ parted a /\ nth i new [] = [second_half a]).
Proof.
  induction l as [|a l IH]; intros n own new E; cbn [ts_arcs] in E.
  - injection E as <- <-. split; [intros a []|]. split; [intros a []|]. split; [intros b []|]. cbn [length]. lia.
  - destruct (extra_transition_needed a) eqn:X.
    + destruct (ts_arcs (S n) l) as [own' new'] eqn:E'. injection E as <- <-. destruct (IH _ _ _ E') as (I1 & I2 & I3 & I4). split; [|split; [|split]].
      * intros b [<-|Hb] W; [unfold whole in W; congruence|right; auto].
      * intros b [<-|Hb] P.
        -- exists 0. rewrite Nat.add_0_r. cbn [length nth]. split; [lia|]. split; [left; reflexivity|reflexivity].
        -- destruct (I2 b Hb P) as (i & L & H & N). exists (S i). cbn [length nth]. split; [lia|]. split; [right|exact N]. replace (n + S i) with (S n + i) by lia. exact H.
      * intros b [<-|Hb].
        -- exists a. split; [left; reflexivity|]. right. split; [exact X|]. exists 0. rewrite Nat.add_0_r. cbn [length nth]. split; [lia|auto].
        -- destruct (I3 b Hb) as (c & Hc & [[W ->]|(P & i & L & -> & N)]); exists c; (split; [right; exact Hc|]); [auto|]. right. split; [exact P|]. exists (S i). cbn [length nth].
           split; [lia|]. split; [|exact N]. f_equal. lia.
      * intros [|i] L; cbn [length nth] in *; [exists a; split; [left; reflexivity|auto]|]. destruct (I4 i) as (c & Hc & P & N); [lia|]. exists c. split; [right; exact Hc|auto].
    + destruct (ts_arcs n l) as [own' new'] eqn:E'. injection E as <- <-. destruct (IH _ _ _ E') as (I1 & I2 & I3 & I4). split; [|split; [|split]].
      * intros b [<-|Hb] W; [left; reflexivity|right; auto].
      * intros b [<-|Hb] P; [unfold parted in P; congruence|]. destruct (I2 b Hb P) as (i & L & H & N). exists i. split; [exact L|]. split; [right; exact H|exact N].
      * intros b [<-|Hb]; [exists a; split; [left; reflexivity|left; auto]|]. destruct (I3 b Hb) as (c & Hc & Q). exists c. split; [right; exact Hc|exact Q].
      * intros i L. destruct (I4 i L) as (c & Hc & Q). exists c. split; [right; exact Hc|exact Q].
Qed.
Lemma ts_states_spec ls : forall n old new, ts_states n ls = (old, new) -> length old = length ls /\
  (forall s a, In a (nth s ls []) -> whole a -> In a (nth s old [])) /\
  (forall s a, In a (nth s ls []) -> parted a -> exists i, i < length new /\ In (first_half (n + i) a) (nth s old []) /\ nth i new [] = [second_half a]) /\
  (forall s b, In b (nth s old []) -> exists a, In a (nth s ls []) /\ (whole a /\ b = a \/ parted a /\ exists i, i < length new /\ b = first_half (n + i) a /\ nth i new [] = [second_half a])) /\
  (forall i, i < length new -> exists s a, In a (nth s ls []) /\ parted a /\ nth i new [] = [second_half a]).
Proof.
  induction ls as [|l ls IH]; intros n old new E; cbn [ts_states] in E.
  - injection E as <- <-. split; [reflexivity|]. split; [intros [|s] a []|]. split; [intros [|s] a []|]. split; [intros [|s] b []|]. cbn [length]. lia.
  - destruct (ts_arcs n l) as [own nw] eqn:E1. destruct (ts_states (n + length nw) ls) as [rest more] eqn:E2. injection E as <- <-.
    destruct (ts_arcs_spec _ _ _ _ E1) as (A1 & A2 & A3 & A4). destruct (IH _ _ _ E2) as (L & B1 & B2 & B3 & B4). rewrite app_length. split; [cbn [length]; congruence|]. split; [|split; [|split]].
    + intros [|s] a Ha W; cbn [nth] in *; eauto.
    + intros [|s] a Ha P; cbn [nth] in *.
      * destruct (A2 a Ha P) as (i & Li & H & N). exists i. split; [lia|]. split; [exact H|]. rewrite app_nth1 by exact Li. exact N.
      * destruct (B2 s a Ha P) as (i & Li & H & N). exists (length nw + i). split; [lia|]. split; [rewrite Nat.add_assoc; exact H|]. rewrite app_nth2 by lia.
        replace (length nw + i - length nw) with i by lia. exact N.
    + intros [|s] b Hb; cbn [nth] in *.
      * destruct (A3 b Hb) as (a & Ha & [W|(P & i & Li & Eb & N)]); exists a; (split; [exact Ha|]); [auto|]. right. split; [exact P|]. exists i. split; [lia|]. split; [exact Eb|].
        rewrite app_nth1 by exact Li. exact N.
      * destruct (B3 s b Hb) as (a & Ha & [W|(P & i & Li & Eb & N)]); exists a; (split; [exact Ha|]); [auto|]. right. split; [exact P|]. exists (length nw + i). split; [lia|].
        split; [rewrite Nat.add_assoc; exact Eb|]. rewrite app_nth2 by lia. replace (length nw + i - length nw) with i by lia. exact N.
    + intros i Li. destruct (Nat.lt_ge_cases i (length nw)) as [K|K].
      * destruct (A4 i K) as (a & Ha & P & N). exists 0, a. cbn [nth]. split; [exact Ha|]. split; [exact P|]. rewrite app_nth1 by exact K. exact N.
      * destruct (B4 (i - length nw)) as (s & a & Ha & P & N); [lia|]. exists (S s), a. cbn [nth]. split; [exact Ha|]. split; [exact P|]. rewrite app_nth2 by exact K. exact N.
Qed.
(** What takes the place of a transition. *)
Definition split_pair (p : bstr * bstr) : list (bstr * bstr) :=
  if (is_diacritic (fst p) || is_diacritic (snd p)) && negb (bstr_eqb (fst p) (snd p))
  then [(fst p, if is_diacritic (fst p) then fst p else EPS); (if is_diacritic (snd p) then snd p else EPS, snd p)]
  else [p].
Lemma split_two_sided p q : two_sided p q <-> q = split_pair p.
Proof.
  destruct p as [i o]. unfold split_pair. cbn [fst snd]. destruct (is_diacritic i) eqn:Di; destruct (is_diacritic o) eqn:Do; destruct (bstr_eqb i o) eqn:Eq; cbn [orb andb negb];
    try (apply bstr_eqb_eq in Eq; subst); try congruence.
  - split; [|intros ->; apply two_same]. inversion 1; subst; try reflexivity; exfalso; rewrite <- ?flag_iff in *; congruence.
  - assert (N : i <> o) by (intros ->; rewrite bstr_eqb_refl in Eq; discriminate). split; [|intros ->; apply two_flags; [apply flag_iff..|]; assumption].
    inversion 1; subst; try reflexivity; try congruence; exfalso; rewrite <- ?flag_iff in *; congruence.
  - split; [|intros ->; apply two_input; [apply flag_iff|apply not_flag_iff]; assumption]. inversion 1; subst; try reflexivity; exfalso; rewrite <- ?flag_iff in *; congruence.
  - split; [|intros ->; apply two_output; [apply not_flag_iff|apply flag_iff]; assumption]. inversion 1; subst; try reflexivity; exfalso; rewrite <- ?flag_iff in *; congruence.
  - split; [|intros ->; apply two_same]. inversion 1; subst; try reflexivity; exfalso; rewrite <- ?flag_iff in *; congruence.
  - split; [|intros ->; apply two_none; apply not_flag_iff; assumption]. inversion 1; subst; try reflexivity; exfalso; rewrite <- ?flag_iff in *; congruence.
Qed.
Lemma split_whole a : whole a -> split_pair (isy a, osy a) = [(isy a, osy a)].
Proof. unfold whole, extra_transition_needed, split_pair. cbn [fst snd]. intros ->. reflexivity. Qed.
Lemma split_parted a n : parted a -> split_pair (isy a, osy a) = [(isy (first_half n a), osy (first_half n a)); (isy (second_half a), osy (second_half a))].
Proof. unfold parted, extra_transition_needed, split_pair. cbn [fst snd]. intros ->. reflexivity. Qed.
Lemma two_sided_concat k l : (exists ls, Forall2 two_sided k ls /\ l = concat ls) <-> l = flat_map split_pair k.
Proof.
  split.
  - intros (ls & F & ->). induction F as [|p q k ls H F IH]; [reflexivity|]. cbn [concat flat_map]. apply split_two_sided in H. subst q. rewrite IH. reflexivity.
  - intros ->. exists (map split_pair k). split; [|apply flat_map_concat_map]. induction k; constructor; [apply split_two_sided; reflexivity|assumption].
Qed.
Section Twosided.
  Variable g : graph.
  Hypothesis S : structure_ok g.
  Let g' := twosided_flag_diacritics g.
  Let n := length (sts g).
  Lemma states_facts : exists old new, sts g' = old ++ new /\ fin g' = fin g /\ length old = n /\
    (forall s a, In a (arcs g s) -> whole a -> In a (nth s old [])) /\
    (forall s a, In a (arcs g s) -> parted a -> exists i, i < length new /\ In (first_half (n + i) a) (nth s old []) /\ nth i new [] = [second_half a]) /\
    (forall s b, In b (nth s old []) -> exists a, In a (arcs g s) /\ (whole a /\ b = a \/ parted a /\ exists i, i < length new /\ b = first_half (n + i) a /\ nth i new [] = [second_half a])) /\
    (forall i, i < length new -> exists s a, In a (arcs g s) /\ parted a /\ nth i new [] = [second_half a]).
  Proof using.
    unfold g', twosided_flag_diacritics. fold n. destruct (ts_states n (sts g)) as [old new] eqn:E. exists old, new. split; [reflexivity|]. split; [reflexivity|].
    exact (ts_states_spec _ _ _ _ E).
  Qed.
  Lemma old_state s : s < n -> forall b, In b (arcs g' s) <-> exists a, In a (arcs g s) /\
    (whole a /\ b = a \/ parted a /\ exists i, b = first_half (n + i) a /\ arcs g' (n + i) = [second_half a] /\ In b (arcs g' s)).
  Proof using.
    intros L b. destruct states_facts as (old & new & E & _ & Lo & F1 & F2 & F3 & _). unfold arcs in *. rewrite E. rewrite app_nth1 by lia. split.
    - intros Hb. destruct (F3 s b Hb) as (a & Ha & [W|(P & i & Li & Eb & N)]); exists a; (split; [exact Ha|]); [auto|]. right. split; [exact P|]. exists i. split; [exact Eb|].
      split; [|exact Hb]. rewrite app_nth2 by lia. rewrite Lo. replace (n + i - n) with i by lia. exact N.
    - intros (a & Ha & [[W ->]|(P & i & _ & _ & Hb)]); [apply F1; assumption|exact Hb].
  Qed.
  Lemma parted_arc s a : s < n -> In a (arcs g s) -> parted a -> exists i, In (first_half (n + i) a) (arcs g' s) /\ arcs g' (n + i) = [second_half a].
  Proof using.
    intros L Ha P. destruct states_facts as (old & new & E & _ & Lo & F1 & F2 & F3 & _). destruct (F2 s a Ha P) as (i & Li & H & N). exists i. unfold arcs. rewrite E. split.
    - rewrite app_nth1 by lia. exact H.
    - rewrite app_nth2 by lia. rewrite Lo. replace (n + i - n) with i by lia. exact N.
  Qed.
  Lemma run_forth s k w t : run g s k w t -> s < n -> run g' s (flat_map split_pair k) w t.
  Proof using S.
    induction 1 as [|s a k w t Ha R IH]; intros L; [constructor|]. assert (Lt : tgt a < n) by exact (proj1 (proj2 S) s a Ha). specialize (IH Lt). cbn [flat_map].
    destruct (extra_transition_needed a) eqn:X.
    - destruct (parted_arc s a L Ha X) as (i & H1 & H2). rewrite (split_parted a (n + i) X). cbn [app].
      replace (wt a + w)%Z with (wt (first_half (n + i) a) + (wt (second_half a) + w))%Z by (cbn [first_half second_half wt]; lia).
      apply run_cons; [exact H1|]. cbn [first_half tgt]. apply run_cons; [unfold arcs in H2; rewrite H2; left; reflexivity|exact IH].
    - rewrite (split_whole a X). cbn [app]. apply run_cons; [|exact IH]. apply old_state; [exact L|]. exists a. auto.
  Qed.
  Lemma run_back m : forall s l w t, length l <= m -> run g' s l w t -> s < n -> t < n -> exists k, run g s k w t /\ l = flat_map split_pair k.
  Proof using S.
    induction m as [|m IH]; intros s l w t Lm R L Lt.
    - destruct l; [|cbn in Lm; lia]. inversion R; subst. exists []. split; [constructor|reflexivity].
    - inversion R as [|s0 b l0 w0 t0 Hb R0]; subst; [exists []; split; [constructor|reflexivity]|]. cbn [length] in Lm. apply old_state in Hb; [|exact L].
      destruct Hb as (a & Ha & [[W ->]|(P & i & -> & N & _)]); pose proof (proj1 (proj2 S) s a Ha) as La.
      + destruct (IH (tgt a) l0 w0 t) as (k & Rk & ->); [lia|exact R0|exact La|exact Lt|]. exists ((isy a, osy a) :: k). split; [apply run_cons; assumption|].
        cbn [flat_map]. rewrite (split_whole a W). reflexivity.
      + cbn [first_half tgt] in R0. inversion R0 as [|s1 c l1 w1 t1 Hc R1]; subst; [lia|]. unfold arcs in N. rewrite N in Hc. destruct Hc as [<-|[]]. cbn [second_half tgt] in R1. cbn [length] in Lm.
        destruct (IH (tgt a) l1 w1 t) as (k & Rk & ->); [lia|exact R1|exact La|exact Lt|]. exists ((isy a, osy a) :: k). split.
        * replace (wt (first_half (n + i) a) + (wt (second_half a) + w1))%Z with (wt a + w1)%Z by (cbn [first_half second_half wt]; lia). apply run_cons; assumption.
        * cbn [flat_map]. rewrite (split_parted a (n + i) P). reflexivity.
  Qed.
  Lemma twosided_accepts l w : accepts g' l w <-> exists k, accepts g k w /\ l = flat_map split_pair k.
  Proof using S.
    pose proof states_facts as (old & new & _ & Ef & _). assert (Z0 : 0 < n) by (unfold n; destruct S as (N & _); destruct (sts g); [congruence|cbn; lia]).
    unfold accepts. rewrite Ef. split.
    - intros (t & v & f & R & M & ->). destruct (run_back (length l) 0 l v t (le_n _) R Z0) as (k & Rk & ->); [exact (proj2 (proj2 S) t f M)|]. exists k. split; [exists t, v, f; auto|reflexivity].
    - intros (k & (t & v & f & R & M & ->) & ->). exists t, v, f. split; [apply run_forth; assumption|auto].
  Qed.
  Lemma twosided_arcs s b : In b (arcs g' s) -> is_diacritic (isy b) = true \/ is_diacritic (osy b) = true -> isy b = osy b.
  Proof using.
    intros Hb D. destruct states_facts as (old & new & E & _ & Lo & F1 & F2 & F3 & F4). unfold arcs in Hb. rewrite E in Hb. destruct (Nat.lt_ge_cases s n) as [L|L].
    - rewrite app_nth1 in Hb by lia. destruct (F3 s b Hb) as (a & Ha & [[W ->]|(P & i & _ & -> & _)]).
      + unfold whole, extra_transition_needed in W. destruct D as [D|D]; rewrite D in W; rewrite ?orb_true_r in W; cbn [orb andb] in W; apply negb_false_iff, bstr_eqb_eq in W; exact W.
      + cbn [first_half isy osy] in *. destruct (is_diacritic (isy a)); [reflexivity|]. destruct D as [D|D]; discriminate D.
    - rewrite app_nth2 in Hb by lia. rewrite Lo in Hb. destruct (Nat.lt_ge_cases (s - n) (length new)) as [K|K]; [|rewrite nth_overflow in Hb by exact K; destruct Hb].
      destruct (F4 (s - n) K) as (s0 & a & _ & P & N). rewrite N in Hb. destruct Hb as [<-|[]]. cbn [second_half isy osy] in *. destruct (is_diacritic (osy a)); [reflexivity|].
      destruct D as [D|D]; discriminate D.
  Qed.
  Lemma twosided_alpha x : In x (alpha g') <-> special x \/ used g' x.
  Proof using.
    unfold g', twosided_flag_diacritics. destruct (ts_states _ _) as [old new]. rewrite copy_alpha. unfold special, used. fold EPS UNK IDN. cbn [copy_of sts]. tauto.
  Qed.
End Twosided.
Lemma plain_text_app a b : plain_text (a ++ b) = plain_text a ++ plain_text b.
Proof. unfold plain_text, no_epsilons. rewrite !filter_app. reflexivity. Qed.
Lemma split_text k : plain_text (map fst (flat_map split_pair k)) = plain_text (map fst k) /\ plain_text (map snd (flat_map split_pair k)) = plain_text (map snd k).
Proof.
  induction k as [|[i o] k [IH1 IH2]]; [split; reflexivity|]. cbn [flat_map map]. rewrite !map_app, !plain_text_app, IH1, IH2.
  change (fst (i, o) :: map fst k) with ([i] ++ map fst k). change (snd (i, o) :: map snd k) with ([o] ++ map snd k). rewrite !plain_text_app.
  assert (Q : plain_text (map fst (split_pair (i, o))) = plain_text [i] /\ plain_text (map snd (split_pair (i, o))) = plain_text [o]); [|destruct Q as [-> ->]; split; reflexivity].
  assert (E : plain_text [EPS] = []) by reflexivity. assert (D : forall s, is_diacritic s = true -> plain_text [s] = []).
  { intros s H. unfold plain_text, no_epsilons. cbn [filter]. destruct (bstr_eq_dec s _); [reflexivity|]. cbn [filter]. rewrite H. reflexivity. }
  unfold split_pair. cbn [fst snd]. destruct (_ && _) eqn:X; [|split; reflexivity]. cbn [map fst snd].
  split; [change [i; if is_diacritic o then o else EPS] with ([i] ++ [if is_diacritic o then o else EPS])|change [if is_diacritic i then i else EPS; o] with ([if is_diacritic i then i else EPS] ++ [o])];
    rewrite plain_text_app.
  - destruct (is_diacritic o) eqn:Y; rewrite ?(D o Y), ?E, app_nil_r; reflexivity.
  - destruct (is_diacritic i) eqn:Y; rewrite ?(D i Y), ?E; reflexivity.
Qed.
