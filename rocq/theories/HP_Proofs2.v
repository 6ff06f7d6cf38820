(** Analysis of running text: one word. *)
From Verif Require Import Base HP_Model HP_Spec HP_Proofs.
From Coq Require Import Lia.

Lemma firstn_S_nth {A} (l : list A) i x : nth_error l i = Some x -> firstn (S i) l = firstn i l ++ [x].
Proof. revert i. induction l as [|y l IH]; intros [|i] E; simpl in *; try discriminate; [congruence|]. f_equal. apply IH, E. Qed.
Lemma nth_error_split_at {A} (l : list A) i x : nth_error l i = Some x -> l = firstn i l ++ x :: skipn (S i) l.
Proof. intros E. rewrite <- (skipn_nth _ _ _ E). symmetry. apply firstn_skipn. Qed.
Lemma firstn_add {A} n m (l : list A) : firstn (n + m) l = firstn n l ++ firstn m (skipn n l).
Proof. revert l. induction n as [|n IH]; intros [|x l]; simpl; auto; [destruct m; reflexivity|]. f_equal. apply IH. Qed.
Lemma nth_error_firstn_nth {A} (l : list A) i d x : nth_error l i = Some x -> nth i l d = x.
Proof. apply nth_error_nth. Qed.

Section Word.
  Variables (g : config) (M : machine) (F : formatter) (z : nat) (pre cur : list token) (rest : bstr).
  Let ts := pre ++ cur.
  Let s := length pre.
  Let a := alph g.
  Hypothesis no_none : ~ In TNone ts.
  Hypothesis no_res : forall c, ~ In (TRes c) ts.
  Hypothesis outside : ends_outside M a cur.
  Hypothesis fit : fits M a z ts.
  Notation letter t := (is_alphabetic a t = true).
  Notation AT := (stream_at g z ts rest).

  Lemma nth_cur i : nth_error ts (s + i) = nth_error cur i.
  Proof using pre s. unfold ts, s. rewrite nth_error_app2 by lia. f_equal. lia. Qed.
  Lemma length_ts : length ts = s + length cur.
  Proof using pre s. unfold ts, s. apply app_length. Qed.

  Lemma after_S i t : nth_error cur i = Some t -> after M a (firstn (S i) cur) = mstep (after M a (firstn i cur)) (to_symbol a t).
  Proof using pre s. intros E. rewrite (firstn_S_nth _ _ _ E). unfold after. rewrite fold_left_app. reflexivity. Qed.
  Lemma followed_S i t : nth_error cur i = Some t -> followed M a (firstn i cur) -> is_active (after M a (firstn (S i) cur)) = true ->
    followed M a (firstn (S i) cur).
  Proof using pre s.
    intros E Fo Ac u v Eq N. destruct v as [|y v _] using rev_ind.
    - rewrite app_nil_r in Eq. subst u. exact Ac.
    - rewrite (firstn_S_nth _ _ _ E), app_assoc in Eq. apply app_inj_tail in Eq. destruct Eq as [Eq _]. eapply Fo; eauto.
  Qed.
  Lemma followed_nil : followed M a [].
  Proof using pre s. intros u v E N. symmetry in E. apply app_eq_nil in E. tauto. Qed.
  Lemma followed_prefix w v : followed M a (w ++ v) -> followed M a w.
  Proof using pre s. intros H u x -> N. apply (H u (x ++ v)); auto. rewrite app_assoc. reflexivity. Qed.

  (** What has been remembered when [i] tokens of the word have been looked at. *)
  Definition remembered (i loc : nat) (found : list bstr) : Prop :=
    (found = [] /\ forall j, j < i -> ~ accepted_length M a cur j) \/
    exists k, k < i /\ accepted_length M a cur k /\ (forall j, j < i -> accepted_length M a cur j -> j <= k) /\
              loc = (s + k) mod z /\ found = finals (after M a (firstn k cur)) (firstn k cur).
  Lemma accepted_at j t : nth_error cur j = Some t -> accepted_length M a cur j <-> acceptable M a (firstn j cur) t.
  Proof using pre s.
    intros E. split.
    - intros (w & t' & r & Eq & L & A). subst j. rewrite Eq in E |- *. rewrite firstn_app, Nat.sub_diag, firstn_all, app_nil_r.
      rewrite nth_error_app2, Nat.sub_diag in E by lia. injection E as <-. exact A.
    - intros A. exists (firstn j cur), t, (skipn (S j) cur). split; [apply nth_error_split_at, E|]. split; [|exact A].
      apply firstn_length_le. assert (j < length cur) by (apply nth_error_Some; congruence). lia.
  Qed.
  Lemma not_accepted_0 : ~ accepted_length M a cur 0.
  Proof using pre s.
    intros (w & t & r & _ & L & (_ & _ & w' & v & -> & _)). rewrite app_length in L. simpl in L. lia.
  Qed.

  Lemma keep i loc found : ~ accepted_length M a cur i -> remembered i loc found -> remembered (S i) loc found.
  Proof using pre s.
    intros A [(-> & No)|(k & K & Ac & Mx & Lo & Fd)].
    - left. split; auto. intros j J. destruct (Nat.eq_dec j i) as [->|]; [exact A|apply No; lia].
    - right. exists k. split; [lia|]. split; auto. split; auto. intros j J Aj. destruct (Nat.eq_dec j i) as [->|]; [tauto|apply Mx; auto; lia].
  Qed.
  Lemma record_step x i l loc found t : AT x (S (s + i)) l -> nth_error cur i = Some t -> followed M a (firstn i cur) ->
    l <= s + z -> remembered i loc found ->
    exists loc' found', record_finals g M x (after M a (firstn i cur)) loc (firstn i cur) found = Ok (loc', found') /\ remembered (S i) loc' found'.
  Proof using no_none no_res outside fit.
    intros [R Rd] E Fo W Re. unfold record_finals. fold a.
    assert (i < length cur) as Li by (apply nth_error_Some; congruence).
    rewrite firstn_length_le by lia. pose proof (r_le _ _ _ _ _ R). pose proof (r_pos _ _ _ _ _ R).
    destruct i as [|i]; [change (0 <? 0) with false|change (0 <? S i) with true]; cbn [andb].
    { eexists _, _. split; [reflexivity|]. apply keep; auto. apply not_accepted_0. }
    destruct (is_final (after M a (firstn (S i) cur))) eqn:Fi.
    2:{ eexists _, _. split; [reflexivity|]. apply keep; auto. rewrite (accepted_at _ _ E). intros (_ & Q & _). congruence. }
    destruct (nth_error cur i) as [u|] eqn:Eu; [|apply nth_error_None in Eu; lia].
    assert ((s + S i) mod z <> 0) as Nz.
    { destruct fit as [_ F2]. specialize (F2 pre (firstn (S i) cur) (skipn (S i) cur)). rewrite firstn_skipn in F2.
      specialize (F2 eq_refl). rewrite app_length, (firstn_length_le cur) in F2 by lia. apply F2; auto.
      - destruct cur; [simpl in Li; lia|discriminate].
      - rewrite (skipn_nth _ _ _ E). discriminate. }
    unfold get_pos. rewrite (r_cur _ _ _ _ _ R). cbn [rep].
    replace (S ((s + S i) mod z) <? 2) with false by (symmetry; apply Nat.ltb_ge; lia).
    replace (S ((s + S i) mod z) - 2) with ((s + i) mod z).
    2:{ pose proof (Nat.div_mod_eq (s + i) z). pose proof (Nat.mod_upper_bound (s + i) z ltac:(lia)).
        assert (S ((s + i) mod z) < z) as Q.
        { destruct (Nat.eq_dec (S ((s + i) mod z)) z); [|lia]. exfalso. apply Nz. apply mod_at with (S ((s + i) / z)); nia. }
        replace ((s + S i) mod z) with (S ((s + i) mod z)); [lia|]. symmetry. apply mod_at with ((s + i) / z); nia. }
    destruct (ring_get _ _ _ _ _ (s + i) R) as (u' & Eu' & Gu); [lia|lia|]. rewrite nth_cur, Eu in Eu'. injection Eu' as <-.
    rewrite Gu. cbn [rbind].
    replace (S ((s + S i) mod z) - 1) with ((s + S i) mod z) by lia.
    destruct (ring_get _ _ _ _ _ (s + S i) R) as (t' & Et' & Gt); [lia|lia|]. rewrite nth_cur, E in Et'. injection Et' as <-.
    assert (accepted_length M a cur (S i) <-> ~ (letter u /\ letter t)) as Ax.
    { rewrite (accepted_at _ _ E). split.
      - intros (_ & _ & w' & v & Ew & Nv). rewrite (firstn_S_nth _ _ _ Eu) in Ew. apply app_inj_tail in Ew. destruct Ew as [_ ->]. exact Nv.
      - intros N. split; auto. split; auto. exists (firstn i cur), u. split; [apply firstn_S_nth, Eu|exact N]. }
    destruct (is_alphabetic a u) eqn:Au; cbn [rbind].
    - rewrite Gt. cbn [rmap rbind]. destruct (is_alphabetic a t) eqn:At; cbn [negb].
      + eexists _, _. split; [reflexivity|]. apply keep; auto. rewrite Ax. tauto.
      + eexists _, _. split; [reflexivity|]. right. exists (S i). split; [lia|]. split; [apply Ax; intros [_ Q]; discriminate|]. repeat split; auto. intros; lia.
    - eexists _, _. split; [reflexivity|]. right. exists (S i). split; [lia|]. split; [apply Ax; intros [Q _]; discriminate|]. repeat split; auto. intros; lia.
  Qed.

  (** The lexicon follows the text to its end. *)
  Lemma run_word : forall d i x l loc found, length cur - i = d -> i < length cur -> AT x (s + i) l -> followed M a (firstn i cur) ->
    l < s + z -> remembered i loc found ->
    exists n k x1 l1 loc1 found1 t, n < length cur /\ nth_error cur n = Some t /\ followed M a (firstn n cur) /\
      is_active (after M a (firstn (S n) cur)) = false /\ l1 < s + z /\ l1 <= max l (S (s + n)) /\
      AT x1 (S (s + n)) l1 /\ out x1 = out x /\ remembered (S n) loc1 found1 /\
      forall f, analysis g M F (k + S f) x (after M a (firstn i cur)) loc (firstn i cur) found =
                rbind (end_of_word g F f x1 t loc1 (firstn n cur) found1) (fun x => analysis g M F f x reset loc1 [] []).
  Proof using no_none no_res outside fit.
    induction d as [|d IH]; intros i x l loc found D Li A Fo W Re; [lia|].
    destruct (get_token_some g z ts rest no_none _ _ _ A) as (t & x' & Et & Nt & Gt & A' & O'); [rewrite length_ts; lia|].
    rewrite nth_cur in Et.
    assert (s + i + 1 < s + z) as W1.
    { destruct fit as [F1 _]. specialize (F1 pre (firstn i cur) [] (skipn i cur)). cbn [app length] in F1. rewrite firstn_skipn in F1.
      specialize (F1 eq_refl Fo (Forall_nil _)). rewrite firstn_length_le in F1 by lia. lia. }
    destruct (record_step x' i _ loc found t A' Et Fo ltac:(lia) Re) as (loc' & found' & Rc & Re').
    assert (forall f, analysis g M F (S f) x (after M a (firstn i cur)) loc (firstn i cur) found =
      if is_active (after M a (firstn (S i) cur)) then analysis g M F f x' (after M a (firstn (S i) cur)) loc' (firstn (S i) cur) found'
      else rbind (end_of_word g F f x' t loc' (firstn i cur) found') (fun x => analysis g M F f x reset loc' [] [])) as Step.
    { intros f. cbn [analysis]. rewrite Gt. cbn [rbind]. rewrite Rc. cbn [rbind]. rewrite (after_S _ _ Et), (firstn_S_nth _ _ _ Et). fold a.
      destruct t; try reflexivity; [congruence|]. exfalso. eapply no_res. unfold ts. apply in_app_iff. right. eapply nth_error_In, Et. }
    destruct (is_active (after M a (firstn (S i) cur))) eqn:Ac.
    - assert (S i < length cur) as Li'.
      { destruct (Nat.eq_dec (S i) (length cur)) as [Eq|]; [|lia]. exfalso. destruct outside as (c' & e & Ec & _ & Dead).
        rewrite (after_S _ _ Et) in Ac. rewrite Ec in Et. rewrite Ec, app_length in Eq. simpl in Eq.
        rewrite nth_error_app2 in Et by lia. replace (i - length c') with 0 in Et by lia. injection Et as <-. rewrite Dead in Ac. discriminate. }
      destruct (IH (S i) x' (max l (S (s + i))) loc' found') as (n & k & x1 & l1 & loc1 & found1 & t1 & Hn & En & Fn & An & L1 & L2 & A1 & O1 & Rm & St); auto; try lia.
      { rewrite Nat.add_succ_r. exact A'. }
      { eapply followed_S; eauto. }
      exists n, (S k), x1, l1, loc1, found1, t1. split; [auto|]. split; [auto|]. split; [auto|]. split; [auto|]. split; [lia|]. split.
      { destruct (le_lt_dec i n); [lia|]. exfalso.
        assert (is_active (after M a (firstn (S n) cur)) = true); [|congruence].
        apply (Fo (firstn (S n) cur) (firstn (i - S n) (skipn (S n) cur))).
        - replace i with (S n + (i - S n)) at 1 by lia. apply firstn_add.
        - destruct cur; [simpl in Hn; lia|discriminate]. }
      split; [auto|]. split; [congruence|]. split; [auto|]. intros f. rewrite <- St. cbn [Nat.add]. rewrite Step. reflexivity.
    - exists i, 0, x', (max l (S (s + i))), loc', found', t. split; [auto|]. split; [auto|]. split; [auto|]. split; [auto|]. split; [lia|].
      split; [lia|]. split; [auto|]. split; [congruence|]. split; [auto|]. intros f. apply Step.
  Qed.
  Lemma followed_length_at n t : nth_error cur n = Some t -> followed M a (firstn n cur) -> is_active (after M a (firstn (S n) cur)) = false ->
    followed_length M a cur n.
  Proof using pre s.
    intros E Fo Ac. exists (firstn n cur), t, (skipn (S n) cur). split; [apply nth_error_split_at, E|].
    assert (n < length cur) by (apply nth_error_Some; congruence).
    split; [apply firstn_length_le; lia|]. split; auto. rewrite <- (firstn_S_nth _ _ _ E). exact Ac.
  Qed.
  Lemma followed_length_inv n : followed_length M a cur n -> n < length cur /\ followed M a (firstn n cur) /\ is_active (after M a (firstn (S n) cur)) = false.
  Proof using pre s.
    intros (w & t & r & E & L & Fo & Ac). subst n. rewrite E. split; [rewrite app_length; simpl; lia|].
    rewrite (firstn_S_nth _ _ t) by (rewrite nth_error_app2, Nat.sub_diag by lia; reflexivity).
    rewrite firstn_app, Nat.sub_diag, firstn_all, app_nil_r. auto.
  Qed.
  Lemma followed_stops n j : followed_length M a cur n -> j <= length cur -> followed M a (firstn j cur) -> j <= n.
  Proof using pre s.
    intros Fl J Fo. destruct (followed_length_inv _ Fl) as (Hn & _ & Ac). destruct (le_lt_dec j n); [auto|]. exfalso.
    assert (is_active (after M a (firstn (S n) cur)) = true); [|congruence].
    apply (Fo (firstn (S n) cur) (firstn (j - S n) (skipn (S n) cur))).
    - replace j with (S n + (j - S n)) at 1 by lia. apply firstn_add.
    - intros Q. apply (f_equal (@length _)) in Q. rewrite firstn_length_le in Q by lia. discriminate.
  Qed.
  Lemma followed_length_unique n n' : followed_length M a cur n -> followed_length M a cur n' -> n = n'.
  Proof using pre s.
    intros A A'. pose proof (followed_length_inv _ A) as (? & ? & _). pose proof (followed_length_inv _ A') as (? & ? & _).
    assert (n' <= n) by (apply followed_stops; auto; lia). assert (n <= n') by (apply followed_stops; auto; lia). lia.
  Qed.
  Lemma accepted_bound n j : followed_length M a cur n -> accepted_length M a cur j -> 1 <= j <= n.
  Proof using pre s.
    intros Fl Aj. split.
    - destruct j; [|lia]. exfalso. apply not_accepted_0, Aj.
    - destruct Aj as (w & t & r & E & L & (Fo & _)). apply followed_stops; auto.
      + rewrite E, app_length. simpl. lia.
      + subst j. rewrite E, firstn_app, Nat.sub_diag, firstn_all, app_nil_r. exact Fo.
  Qed.

  Lemma not_last j : j < length cur -> letter (nth j cur TNone) -> S j < length cur.
  Proof using outside pre s.
    intros J Le. destruct (Nat.eq_dec (S j) (length cur)) as [Eq|]; [|lia]. exfalso. destruct outside as (c' & e & Ec & No & _).
    rewrite Ec, app_length in Eq. simpl in Eq. rewrite Ec, app_nth2 in Le by lia. replace (j - length c') with 0 in Le by lia. tauto.
  Qed.
  Lemma gather_run : forall d j x l t w, length cur - j = d -> j < length cur -> AT x (s + j) l ->
    exists m x' l', j + m < length cur /\ Forall (fun t => letter t) (firstn m (skipn j cur)) /\ ~ letter (nth (j + m) cur TNone) /\
      AT x' (S (s + j + m)) l' /\ l' <= max l (S (s + j + m)) /\ out x' = out x /\
      forall f, d < f -> gather g f x t w = Ok (x', w ++ t :: firstn m (skipn j cur)).
  Proof using no_none outside.
    induction d as [|d IH]; intros j x l t w D J A; [lia|].
    destruct (get_token_some g z ts rest no_none _ _ _ A) as (u & x' & Eu & Nu & Gu & A' & O'); [rewrite length_ts; lia|].
    rewrite nth_cur in Eu. pose proof (nth_error_nth _ _ TNone Eu) as Nth.
    destruct (is_alphabetic a u) eqn:Le.
    - assert (S j < length cur) by (apply not_last; auto; congruence).
      destruct (IH (S j) x' _ u (w ++ [t]) ltac:(lia) ltac:(lia) ltac:(rewrite Nat.add_succ_r; exact A')) as (m & x1 & l1 & B1 & B2 & B3 & B4 & B5 & B6 & B7).
      exists (S m), x1, l1. split; [lia|]. rewrite (skipn_nth _ _ _ Eu). cbn [firstn]. split; [constructor; auto|].
      split; [rewrite Nat.add_succ_r; exact B3|]. split; [replace (s + j + S m) with (s + S j + m) by lia; exact B4|]. split; [lia|]. split; [congruence|].
      intros f Hf. destruct f as [|f]; [lia|]. cbn [gather]. rewrite Gu. cbn [rbind]. fold a. rewrite Le.
      rewrite B7 by lia. rewrite <- app_assoc. destruct u; try congruence; reflexivity.
    - exists 0, x', (max l (S (s + j))). rewrite !Nat.add_0_r. split; [auto|]. split; [constructor|]. split; [rewrite Nth, Le; discriminate|].
      split; [auto|]. split; [lia|]. split; [auto|]. intros f Hf. destruct f as [|f]; [lia|]. cbn [gather firstn]. rewrite Gu. cbn [rbind]. fold a. rewrite Le.
      destruct u; try congruence; reflexivity.
  Qed.

  Lemma rev_firstn n (l : list token) : n < length l -> exists r, rev (firstn (S n) l) = nth n l TNone :: r.
  Proof using pre s.
    intros H. destruct (nth_error l n) as [t|] eqn:E; [|apply nth_error_None in E; lia].
    rewrite (firstn_S_nth _ _ _ E), rev_app_distr, (nth_error_nth _ _ TNone E). simpl. eauto.
  Qed.

  Hypothesis stall : no_stall M a ts.
  Lemma end_word n t x1 l1 loc1 found1 : nth_error cur n = Some t -> followed M a (firstn n cur) ->
    is_active (after M a (firstn (S n) cur)) = false -> l1 < s + z -> AT x1 (S (s + n)) l1 -> remembered (S n) loc1 found1 ->
    exists e m x2 l2, 0 < m <= length cur /\ surface e = firstn m cur /\ AT x2 (s + m) l2 /\ l2 < s + m + z /\
      out x2 = out x1 ++ shown g F e /\
      (forall f, length ts < f -> end_of_word g F f x1 t loc1 (firstn n cur) found1 = Ok x2) /\
      forall es, segmented M a (skipn m cur) es -> segmented M a cur (e :: es).
  Proof using no_none no_res outside fit stall.
    intros En Fo Ac W A Re.
    pose proof (followed_length_at _ _ En Fo Ac) as Fl.
    assert (n < length cur) as Hn by (apply nth_error_Some; congruence).
    pose proof (nth_error_nth _ _ TNone En) as Nn.
    pose proof (r_pos _ _ _ _ _ (proj1 A)) as Hz. pose proof (r_le _ _ _ _ _ (proj1 A)) as Hl.
    assert (exists c0 cur0, cur = c0 :: cur0) as (c0 & cur0 & Ecur).
    { revert Hn. generalize cur. intros [|? ?]; simpl; [lia|eauto]. }
    assert (length cur = S (length cur0)) as Lc by (rewrite Ecur; reflexivity).
    unfold end_of_word. fold a. rewrite firstn_length_le by lia.
    destruct ((n =? 0) && negb (is_alphabetic a t)) eqn:C1.
    { (* no letter, and the lexicon does not follow *)
      apply andb_true_iff in C1. destruct C1 as [Z Nl]. apply Nat.eqb_eq in Z. subst n. apply negb_true_iff in Nl.
      rewrite Ecur in En. injection En as ->.
      exists (Between t), 1, (if preserve_nonalphabetic F then put (token_to_string g t) x1 else x1), l1.
      split; [lia|]. split; [rewrite Ecur; reflexivity|]. split; [replace (s + 1) with (S (s + 0)) by lia; destruct (preserve_nonalphabetic F); auto using put_at|].
      split; [lia|]. split; [cbn [shown]; destruct (preserve_nonalphabetic F); [reflexivity|rewrite app_nil_r; reflexivity]|].
      split; [reflexivity|]. intros es Sg. rewrite Ecur in Sg |- *. cbn [skipn] in Sg. constructor; auto; [congruence|].
      rewrite <- Ecur. intros k (Ak & _). pose proof (accepted_bound _ _ Fl Ak). lia. }
    (* the analyses are used or not *)
    match goal with |- context [rbind ?c _] => assert (exists b, c = Ok b /\ (b = true -> forall k, ~ analysed M a cur k) /\
      (b = false -> exists k, found1 = finals (after M a (firstn k cur)) (firstn k cur) /\ loc1 = (s + k) mod z /\ analysed M a cur k)) as Dec end.
    { destruct Re as [(-> & No)|(k & K & Ak & Mx & Lo & Fd)].
      { exists true. split; [reflexivity|]. split; [|discriminate]. intros _ k (Ak & _). pose proof (accepted_bound _ _ Fl Ak). apply (No k); auto. lia. }
      assert (forall j, accepted_length M a cur j -> j <= k) as Mx'.
      { intros j Aj. apply Mx; auto. pose proof (accepted_bound _ _ Fl Aj). lia. }
      destruct found1 as [|f0 fr].
      { exists true. split; [reflexivity|]. split; [|discriminate]. intros _ j (Aj & Mj & Nj & _). apply Nj.
        assert (j = k) as -> by (pose proof (Mx' j Aj); pose proof (Mj k Ak); lia). auto. }
      pose proof (accepted_bound _ _ Fl Ak) as Bk.
      destruct (ring_get _ _ _ _ _ (s + k) (proj1 A)) as (u & Eu & Gu); [lia|lia|]. rewrite nth_cur in Eu.
      rewrite Lo, Gu. cbn [rbind]. pose proof (nth_error_nth _ _ TNone Eu) as Nu.
      destruct n as [|n']; [lia|]. destruct (rev_firstn n' cur ltac:(lia)) as (rr & Er). rewrite Er.
      destruct (is_alphabetic a u && is_alphabetic a (nth n' cur TNone)) eqn:Both.
      - apply andb_true_iff in Both. destruct Both as [B1 B2]. rewrite B1, B2. exists true. split; [reflexivity|]. split; [|discriminate].
        intros _ j (Aj & Mj & _ & Cl). assert (j = k) as -> by (pose proof (Mx' j Aj); pose proof (Mj k Ak); lia).
        apply (Cl _ Fl). rewrite Nu. simpl. rewrite Nat.sub_0_r. auto.
      - exists false. split. { destruct (is_alphabetic a u); [|reflexivity]. simpl in Both. rewrite Both. reflexivity. }
        split; [discriminate|]. intros _. exists k. split; [congruence|]. split; [reflexivity|]. split; [auto|]. split; [auto|].
        split; [rewrite <- Fd; discriminate|]. intros m Fm [L1 L2]. rewrite (followed_length_unique _ _ Fm Fl) in L2.
        rewrite Nu in L1. simpl in L2. rewrite Nat.sub_0_r in L2. rewrite L1, L2 in Both. discriminate. }
    destruct Dec as (b & Eb & Bt & Bf). rewrite Eb. cbn [rbind]. destruct b.
    - (* unknown *)
      specialize (Bt eq_refl). clear Bf.
      destruct (is_alphabetic a t) eqn:At.
      + (* letters follow *)
        destruct (gather_run _ (S n) x1 l1 t (firstn n cur) eq_refl) as (m & x2 & l2 & G1 & G2 & G3 & G4 & G5 & G6 & G7).
        { apply not_last; auto. congruence. } { rewrite Nat.add_succ_r. exact A. }
        set (K := S n + m).
        assert (firstn n cur ++ t :: firstn m (skipn (S n) cur) = firstn K cur) as EK.
        { unfold K. rewrite firstn_add, (firstn_S_nth _ _ _ En), <- app_assoc. reflexivity. }
        rewrite EK in G7.
        destruct (move_back_at g z ts rest x2 _ l2 1 G4) as (x3 & M3 & A3 & O3); [lia|lia|].
        replace (S (s + S n + m) - 1) with (s + K) in A3 by (unfold K; lia).
        assert (K <= length cur) as HK by (unfold K; lia).
        assert (firstn K cur = c0 :: firstn (n + m) cur0) as Ev by (rewrite Ecur; reflexivity).
        assert (K + 1 < z) as Kz.
        { destruct fit as [F1 _]. specialize (F1 pre (firstn n cur) (t :: firstn m (skipn (S n) cur)) (skipn K cur)).
          rewrite (app_assoc (firstn n cur)), EK, firstn_skipn in F1. specialize (F1 eq_refl Fo (Forall_cons _ At G2)).
          rewrite firstn_length_le in F1 by lia. cbn [length] in F1. rewrite firstn_length_le in F1 by (rewrite skipn_length; lia). unfold K. lia. }
        destruct (is_alphabetic a c0) eqn:A0.
        * (* an unknown word *)
          destruct (move_back_at g z ts rest (put (print_unknown_word F (firstn K cur)) x3) _ l2 0 (put_at _ _ _ _ _ _ _ _ A3)) as (x4 & M4 & A4 & O4); [unfold K; lia|lia|].
          rewrite Nat.sub_0_r in A4.
          exists (Unknown (firstn K cur)), K, x4, l2. split; [unfold K; lia|]. split; [reflexivity|]. split; [auto|]. split; [lia|].
          split. { rewrite O4. cbn [put out shown]. rewrite O3, G6. reflexivity. }
          split. { intros f Hf. rewrite G7 by (unfold ts in Hf; rewrite app_length in Hf; lia). cbn [rbind]. rewrite M3. cbn [rmap rbind].
            rewrite Ev at 1. cbn [negb]. rewrite A0. cbn [negb]. exact M4. }
          intros es Sg. pose proof (firstn_skipn K cur) as Sp. rewrite Ev in Sp |- *. cbn [app] in Sp. rewrite <- Sp at 1.
          constructor; auto.
          { rewrite Sp. exact Bt. }
          rewrite Sp. exists n. split; [auto|].
          rewrite firstn_length_le by (unfold K in HK; lia). split; [lia|].
          replace (S (n + m) - n) with (S m) by lia. rewrite (skipn_nth _ _ _ En). cbn [firstn]. split; [constructor; auto|]. exact G3.
        * (* it starts with something else *)
          destruct n as [|n'].
          { exfalso. rewrite Ecur in En. injection En as ->. congruence. }
          destruct (move_back_at g z ts rest (if preserve_nonalphabetic F then put (token_to_string g c0) x3 else x3) _ l2 (K - 1)
            ltac:(destruct (preserve_nonalphabetic F); [apply put_at|]; exact A3)) as (x4 & M4 & A4 & O4); [unfold K; lia|unfold K in *; lia|].
          replace (s + K - (K - 1)) with (s + 1) in A4 by (unfold K; lia).
          exists (Between c0), 1, x4, l2. split; [lia|]. split; [rewrite Ecur; reflexivity|]. split; [auto|]. split; [unfold K in *; lia|].
          split. { rewrite O4. cbn [shown]. destruct (preserve_nonalphabetic F); cbn [put out]; rewrite O3, G6; [reflexivity|rewrite app_nil_r; reflexivity]. }
          split. { intros f Hf. rewrite G7 by (unfold ts in Hf; rewrite app_length in Hf; lia). cbn [rbind]. rewrite M3. cbn [rmap rbind].
            rewrite firstn_length_le by lia. rewrite Ev, A0. cbn [negb]. exact M4. }
          intros es Sg. rewrite Ecur in Sg |- *. cbn [skipn] in Sg. constructor; auto; [congruence|]. rewrite <- Ecur. exact Bt.
      + (* no letter follows *)
        cbn [rbind]. destruct n as [|n']; [discriminate C1|].
        assert (firstn (S n') cur = c0 :: firstn n' cur0) as Ev by (rewrite Ecur; reflexivity).
        destruct (is_alphabetic a c0) eqn:A0.
        * destruct (move_back_at g z ts rest (put (print_unknown_word F (firstn (S n') cur)) x1) _ l1 1 (put_at _ _ _ _ _ _ _ _ A)) as (x4 & M4 & A4 & O4); [lia|lia|].
          replace (S (s + S n') - 1) with (s + S n') in A4 by lia.
          exists (Unknown (firstn (S n') cur)), (S n'), x4, l1. split; [lia|]. split; [reflexivity|]. split; [auto|]. split; [lia|].
          split; [rewrite O4; reflexivity|].
          split. { intros f Hf. rewrite Ev at 1. cbn [negb]. rewrite A0. cbn [negb]. exact M4. }
          intros es Sg. pose proof (firstn_skipn (S n') cur) as Sp. rewrite Ev in Sp |- *. cbn [app] in Sp. rewrite <- Sp at 1.
          constructor; auto.
          { rewrite Sp. exact Bt. }
          rewrite Sp. exists (S n'). split; [auto|].
          rewrite firstn_length_le by lia. split; [lia|]. rewrite Nat.sub_diag. split; [constructor|]. rewrite Nn, At. discriminate.
        * exfalso. assert (letter t); [|congruence]. rewrite <- Nn. rewrite Ecur. apply (stall pre c0 cur0 (S n')); try lia.
          { unfold ts. rewrite Ecur. reflexivity. } { congruence. } { rewrite <- Ecur. exact Bt. } { rewrite <- Ecur. exact Fl. }
    - (* known *)
      destruct (Bf eq_refl) as (k & Fd & Lo & An). clear Bt Bf Eb.
      pose proof (accepted_bound _ _ Fl (proj1 An)) as Bk.
      rewrite Lo, (ring_diff _ _ _ _ _ (s + k) (proj1 A)) by lia. replace (S (s + n) - S (s + k)) with (n - k) by lia.
      replace (n <? n - k) with false by (symmetry; apply Nat.ltb_ge; lia).
      replace (n - (n - k)) with k by lia. rewrite firstn_firstn. replace (min k n) with k by lia.
      destruct (move_back_at g z ts rest (put (print_word F (firstn k cur) found1) x1) _ l1 (n - k + 1) (put_at _ _ _ _ _ _ _ _ A)) as (x4 & M4 & A4 & O4); [lia|lia|].
      replace (S (s + n) - (n - k + 1)) with (s + k) in A4 by lia.
      exists (Known (firstn k cur) found1), k, x4, l1. split; [lia|]. split; [reflexivity|]. split; [auto|]. split; [lia|].
      split; [rewrite O4; reflexivity|]. split; [intros; exact M4|].
      intros es Sg. pose proof (firstn_skipn k cur) as Sp. rewrite Fd. rewrite <- Sp at 1. constructor; auto.
      rewrite Sp, firstn_length_le by lia. exact An.
  Qed.
End Word.
