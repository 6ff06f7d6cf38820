(** Proofs about the reading of strings and pair strings. *)
From Verif Require Import Base OrdMap Tok_Model Tok_Spec Tok_Proofs Str_Spec S2_Spec S2_Model.

(** ** Strings *)
Lemma starts_prefix p : forall s, starts p s = true <-> prefix_of p s.
Proof.
  induction p as [|a p IH]; intros s; cbn [starts]; [split; [exists s; reflexivity|reflexivity]|]. destruct s as [|b s]; [split; [discriminate|intros (r & E); discriminate E]|].
  rewrite andb_true_iff, IH, Ascii.eqb_eq. split.
  - intros (-> & r & ->). exists r. reflexivity.
  - intros (r & E). injection E as -> ->. split; [reflexivity|exists r; reflexivity].
Qed.
Lemma prefix_both (a b : bstr) s : prefix_of a s -> prefix_of b s -> prefix_of a b \/ prefix_of b a.
Proof.
  intros (r & E1) (q & E2). rewrite E1 in E2. clear E1 s. revert b E2. induction a as [|x a IH]; intros b E; [left; exists b; reflexivity|]. destruct b as [|y b]; [right; exists (x :: a); reflexivity|].
  injection E as <- E. destruct (IH b E) as [(u & ->)|(u & ->)]; [left; exists u; reflexivity|right; exists u; reflexivity].
Qed.
Lemma prefix_app_inv (w a b : bstr) : prefix_of w (a ++ b) -> length w <= length a -> prefix_of w a.
Proof.
  intros H L. destruct (prefix_both w a (a ++ b) H (ex_intro _ b eq_refl)) as [K|(u & ->)]; [exact K|]. rewrite app_length in L. destruct u; [rewrite app_nil_r; exists []; rewrite app_nil_r; reflexivity|cbn in L; lia].
Qed.
Lemma prefix_long (a b s : bstr) : prefix_of a s -> prefix_of b s -> length a < length b -> prefix_of a b.
Proof. intros Ha Hb L. destruct (prefix_both a b s Ha Hb) as [K|(u & E)]; [exact K|]. rewrite E, app_length in L. lia. Qed.
Lemma prefix_same (a b s : bstr) : prefix_of a s -> prefix_of b s -> length a = length b -> a = b.
Proof. intros Ha Hb L. destruct (prefix_both a b s Ha Hb) as [(u & E)|(u & E)]; rewrite E, app_length in L; destruct u; cbn in L; try lia; rewrite E, app_nil_r; reflexivity. Qed.
Lemma prefix_trans (a b c : bstr) : prefix_of a b -> prefix_of b c -> prefix_of a c.
Proof. intros (u & ->) (v & ->). exists (u ++ v). rewrite app_assoc. reflexivity. Qed.
Lemma prefix_weaken (a b r : bstr) : prefix_of a b -> prefix_of a (b ++ r).
Proof. intros (u & ->). exists (u ++ r). rewrite app_assoc. reflexivity. Qed.

Lemma utf8_char_utf8 c : utf8_char c -> utf8 c.
Proof. intros H. exists [c]. split; [constructor; [exact H|constructor]|symmetry; apply app_nil_r]. Qed.

(** ** Segmentation is unique *)
Definition cluster (gr : bstr -> nat) (c r : bstr) : Prop := length c = gr (c ++ r) /\ c <> [].
Lemma seg_unique gr (S : bstr -> Prop) s ts : (forall w, S w -> w <> []) -> segmentation S (cluster gr) s ts -> forall ts', segmentation S (cluster gr) s ts' -> ts = ts'.
Proof.
  intros NE.
  assert (K : forall a r b r' : bstr, a ++ r = b ++ r' -> length a = length b -> a = b /\ r = r').
  { intros a. induction a as [|x a IH]; intros r [|y b] r' E L; cbn in L; try lia; [auto|]. cbn in E. injection E as <- E. destruct (IH r b r' E) as (-> & ->); [lia|auto]. }
  induction 1 as [|w r ts Hw Hr IH|c r ts Hn Hc Hr IH]; intros ts' H'.
  - remember (@nil ascii) as s eqn:Es in H'. destruct H' as [|w' r' ts2 (Sw & _) Hr'|c' r' ts2 Hn' (_ & Hc') Hr']; [reflexivity| |]; apply app_eq_nil in Es; destruct Es as (-> & _); [destruct (NE [] Sw eq_refl)|destruct (Hc' eq_refl)].
  - remember (w ++ r) as s eqn:Es. destruct H' as [|w' r' ts2 Hw' Hr'|c' r' ts2 Hn' Hc' Hr'].
    + symmetry in Es. apply app_eq_nil in Es. destruct Es as (-> & _). destruct Hw as (Sw & _). destruct (NE [] Sw eq_refl).
    + destruct Hw as (Sw & Pw & Lw), Hw' as (Sw' & Pw' & Lw'). destruct (K w r w' r' (eq_sym Es)) as (-> & ->); [apply Nat.le_antisymm; [apply Lw'|apply Lw]; assumption|]. rewrite (IH ts2 Hr'). reflexivity.
    + destruct Hw as (Sw & Pw & _). destruct (Hn' w Sw Pw).
  - remember (c ++ r) as s eqn:Es. destruct H' as [|w' r' ts2 (Sw & Pw & _) Hr'|c' r' ts2 Hn' Hc' Hr'].
    + symmetry in Es. apply app_eq_nil in Es. destruct Es as (-> & _). destruct Hc as (_ & Hc). destruct (Hc eq_refl).
    + destruct (Hn w' Sw Pw).
    + destruct Hc as (L1 & _), Hc' as (L2 & _). rewrite Es, <- L1 in L2. destruct (K c r c' r' (eq_sym Es)) as (-> & ->); [symmetry; exact L2|]. rewrite (IH ts2 Hr'). reflexivity.
Qed.

(** ** Replacing and unescaping *)
Lemma replace_first_none pat rep s : pat <> [] -> ~ occurs pat s -> replace_first pat rep s = None.
Proof.
  intros NE. induction s as [|c s IH]; intros N; cbn [replace_first]; destruct (starts pat _) eqn:E; try (apply starts_prefix in E; destruct E as (r & E)).
  - destruct pat; [congruence|discriminate E].
  - reflexivity.
  - destruct N. exists [], r. exact E.
  - rewrite IH; [reflexivity|]. intros (a & b & ->). apply N. exists (c :: a), b. reflexivity.
Qed.
Lemma replace_while_none fuel pat rep s : pat <> [] -> ~ occurs pat s -> replace_while fuel pat rep s = Ok s.
Proof. intros NE N. destruct fuel; cbn [replace_while]; rewrite (replace_first_none pat rep s NE N); reflexivity. Qed.
Lemma not_occurs_char (pat s : bstr) c : In c pat -> ~ In c s -> ~ occurs pat s.
Proof. intros Hc N (a & b & ->). apply N. rewrite !in_app_iff. auto. Qed.
Lemma not_occurs_length (pat s : bstr) : length s < length pat -> ~ occurs pat s.
Proof. intros L (a & b & ->). rewrite !app_length in L. lia. Qed.
Lemma bad_cols_none s : ~ In COL_CHAR s -> forall before, bad_cols before s = false.
Proof.
  induction s as [|c s IH]; intros N before; [reflexivity|]. cbn [bad_cols]. rewrite IH by (intros K; apply N; right; exact K). destruct (Ascii.eqb_spec c COL_CHAR) as [->|_]; [destruct N; left; reflexivity|reflexivity].
Qed.
Lemma unescape_plain s : ~ In COL_CHAR s -> ~ In BACKSLASH_CHAR s -> (forall w, In w [B "@_COLON_@"; B "@_TAB_@"; B "@_SPACE_@"; B "@_BACKSLASH_@"] -> ~ occurs w s) -> unescape s = Ok s.
Proof.
  intros NC NB NO. unfold unescape. rewrite (bad_cols_none s NC []). destruct (bstr_eqb s (BACKSLASH ++ BACKSLASH)) eqn:E.
  - apply bstr_eqb_eq in E. subst s. destruct NB. left. reflexivity.
  - cbv zeta. rewrite (replace_while_none _ (BACKSLASH ++ BACKSLASH)); [cbn [rbind]|discriminate|apply (not_occurs_char _ _ BACKSLASH_CHAR); [left; reflexivity|exact NB]].
    rewrite (replace_while_none _ BACKSLASH); [cbn [rbind]|discriminate|apply (not_occurs_char _ _ BACKSLASH_CHAR); [left; reflexivity|exact NB]].
    rewrite (replace_while_none _ BACKSLASH_ESC); [cbn [rbind]|discriminate|apply NO; do 3 right; left; reflexivity].
    rewrite (replace_while_none _ SPACE_ESCAPE); [cbn [rbind]|discriminate|apply NO; do 2 right; left; reflexivity].
    rewrite (replace_while_none _ TAB_ESCAPE); [cbn [rbind]|discriminate|apply NO; right; left; reflexivity].
    apply replace_while_none; [discriminate|apply NO; left; reflexivity].
Qed.
(** A character has at most four bytes. *)
Lemma utf8_char_short c : utf8_char c -> 1 <= length c <= 4.
Proof. destruct 1; cbn [length]; lia. Qed.
Lemma utf8_char_byte c b : utf8_char c -> In b c -> length c > 1 -> match b with Ascii _ _ _ _ _ _ _ b7 => b7 = true end.
Proof.
  assert (CB : forall x, cont_byte x -> match x with Ascii _ _ _ _ _ _ _ b7 => b7 = true end) by (intros x (? & ? & ? & ? & ? & ? & ->); reflexivity).
  intros H Hb L. destruct H; cbn in L; try lia; repeat (destruct Hb as [<-|Hb]; [first [reflexivity | apply CB; assumption]|]); destruct Hb.
Qed.
Lemma utf8_char_ascii c b : utf8_char c -> In b c -> match b with Ascii _ _ _ _ _ _ _ b7 => b7 = false end -> c = [b].
Proof.
  intros H Hb A. destruct (Nat.eq_dec (length c) 1) as [L|L].
  - destruct c as [|x [|? ?]]; cbn in L; try lia. destruct Hb as [->|[]]. reflexivity.
  - pose proof (utf8_char_short c H). pose proof (utf8_char_byte c b H Hb ltac:(lia)) as T. destruct b. congruence.
Qed.
Lemma unescape_char c : utf8_char c -> c <> colon -> c <> backslash -> unescape c = Ok c.
Proof.
  intros U NC NB. pose proof (utf8_char_short c U) as L. apply unescape_plain.
  - intros K. apply NC. exact (utf8_char_ascii c COL_CHAR U K eq_refl).
  - intros K. apply NB. exact (utf8_char_ascii c BACKSLASH_CHAR U K eq_refl).
  - intros w [<-|[<-|[<-|[<-|[]]]]]; apply not_occurs_length; cbn [length B list_ascii_of_string]; lia.
Qed.
Lemma unescape_escaped c : utf8_char c -> unescape (BACKSLASH ++ c) = Ok c.
Proof.
  intros U. pose proof (utf8_char_short c U) as L. destruct (bstr_eqb c colon) eqn:E1; [apply bstr_eqb_eq in E1; subst c; reflexivity|]. destruct (bstr_eqb c backslash) eqn:E2; [apply bstr_eqb_eq in E2; subst c; reflexivity|].
  assert (NC : c <> colon) by (intros ->; rewrite bstr_eqb_refl in E1; discriminate). assert (NB : c <> backslash) by (intros ->; rewrite bstr_eqb_refl in E2; discriminate).
  assert (HC : ~ In COL_CHAR c) by (intros K; apply NC; exact (utf8_char_ascii c COL_CHAR U K eq_refl)).
  assert (HB : ~ In BACKSLASH_CHAR c) by (intros K; apply NB; exact (utf8_char_ascii c BACKSLASH_CHAR U K eq_refl)).
  unfold unescape. rewrite (bad_cols_none (BACKSLASH ++ c)) by (intros [K|K]; [discriminate K|exact (HC K)]). destruct (bstr_eqb (BACKSLASH ++ c) (BACKSLASH ++ BACKSLASH)) eqn:E.
  { apply bstr_eqb_eq in E. injection E as ->. destruct (NB eq_refl). }
  cbv zeta. assert (ND : ~ occurs (BACKSLASH ++ BACKSLASH) (BACKSLASH ++ c)).
  { intros (a & b & K). destruct a as [|x a].
    - injection K as K. apply HB. rewrite K. left. reflexivity.
    - injection K as _ K. apply HB. rewrite K. rewrite !in_app_iff. right. left. reflexivity. }
  rewrite (replace_while_none _ (BACKSLASH ++ BACKSLASH)); [cbn [rbind]|discriminate|exact ND].
  assert (E3 : replace_while (length (BACKSLASH ++ c)) BACKSLASH [] (BACKSLASH ++ c) = Ok c).
  { cbn [BACKSLASH B list_ascii_of_string app length replace_while replace_first starts Ascii.eqb Bool.eqb andb skipn].
    change (Bool.eqb false false) with true. cbn. apply (replace_while_none _ BACKSLASH); [discriminate|]. apply (not_occurs_char _ _ BACKSLASH_CHAR); [left; reflexivity|exact HB]. }
  rewrite E3. cbn [rbind].
  rewrite (replace_while_none _ BACKSLASH_ESC); [cbn [rbind]|discriminate|apply not_occurs_length; cbn [length BACKSLASH_ESC B list_ascii_of_string]; lia].
  rewrite (replace_while_none _ SPACE_ESCAPE); [cbn [rbind]|discriminate|apply not_occurs_length; cbn [length SPACE_ESCAPE B list_ascii_of_string]; lia].
  rewrite (replace_while_none _ TAB_ESCAPE); [cbn [rbind]|discriminate|apply not_occurs_length; cbn [length TAB_ESCAPE B list_ascii_of_string]; lia].
  apply replace_while_none; [discriminate|apply not_occurs_length; cbn [length COL_ESCAPE B list_ascii_of_string]; lia].
Qed.

(** ** Texts *)
Record icu (gr : bstr -> nat) (valid : bstr -> bool) (one : bstr -> Prop) : Prop := {
  i_valid : forall s, utf8 s -> valid s = true;
  i_cluster : forall x, x <> [] -> utf8 x -> exists c r, x = c ++ r /\ length c = gr x /\ utf8 c /\ c <> [];
  i_char : forall c, one c -> utf8_char c /\ no_nul c;
  i_one : forall c r, one c -> all_one one r -> gr (c ++ r) = length c;
  i_marks : one colon /\ one backslash /\ one space }.

Section Texts.
  Variables (gr : bstr -> nat) (valid : bstr -> bool) (one : bstr -> Prop).
  Hypothesis I : icu gr valid one.
  Notation seg ws := (segmentation (registered (map (pair false) ws)) (cluster gr)).

  Lemma all_one_nil : all_one one [].
  Proof. exists []. split; [constructor|reflexivity]. Qed.
  Lemma all_one_app a b : all_one one a -> all_one one b -> all_one one (a ++ b).
  Proof. intros (cs & F & ->) (ds & G & ->). exists (cs ++ ds). split; [apply Forall_app; auto|rewrite concat_app; reflexivity]. Qed.
  Lemma all_one_char c : one c -> all_one one c.
  Proof. intros H. exists [c]. split; [constructor; [exact H|constructor]|symmetry; apply app_nil_r]. Qed.
  Lemma all_one_utf8 s : all_one one s -> utf8 s /\ no_nul s.
  Proof.
    intros (cs & F & ->). split.
    - exists cs. split; [eapply Forall_impl; [|exact F]; intros c H; exact (proj1 (i_char _ _ _ I c H))|reflexivity].
    - intros K. apply in_concat in K. destruct K as (c & Hc & K). rewrite Forall_forall in F. exact (proj2 (i_char _ _ _ I c (F c Hc)) K).
  Qed.
  Lemma registered_map ws w : registered (map (pair false) ws) w <-> w <> [] /\ In w ws.
  Proof.
    unfold registered. split; intros (N & H); split; try exact N.
    - destruct H as (k & H). apply in_map_iff in H. destruct H as (x & E & H). injection E as _ ->. exact H.
    - exists false. apply in_map. exact H.
  Qed.
  Definition good (ws : list bstr) : Prop := forall w, In w ws -> utf8 w /\ no_nul w.
  Lemma tokens_of ws s ts : good ws -> utf8 s -> seg ws s ts -> exists t, configure (map (pair false) ws) tok_new = Ok t /\ one_level gr valid t s = Ok ts.
  Proof.
    intros G U Sg. destruct (tokenize_segmentation gr valid false (map (pair false) ws) s) as (t & ts1 & ts0 & Ec & Et & Sg0 & Ef & Hk).
    - intros k w Hin. apply in_map_iff in Hin. destruct Hin as (x & E & Hin). injection E as _ ->. exact (G w Hin).
    - intros _. exact (i_cluster _ _ _ I).
    - exact U.
    - exact (i_valid _ _ _ I s U).
    - exists t. split; [exact Ec|]. unfold one_level. rewrite Et. f_equal.
      assert (E0 : ts0 = ts) by (apply (seg_unique gr (registered (map (pair false) ws)) s); [intros w (N & _); exact N|exact Sg0|exact Sg]). subst ts0.
      rewrite Ef. assert (A : forall x, In x ts -> Tok_Proofs.keep t x = true).
      { intros x Hx. assert (Hx' : In x ts1). { apply Hk. split; [exact Hx|]. intros (_ & K). apply in_map_iff in K. destruct K as (y & E & _). discriminate E. }
        rewrite Ef in Hx'. apply filter_In in Hx'. exact (proj2 Hx'). }
      clear - A. induction ts as [|x ts IH]; [reflexivity|]. cbn [filter]. rewrite (A x (or_introl eq_refl)). f_equal. apply IH. intros y Hy. apply A. right. exact Hy.
  Qed.
  Lemma configure_snoc ws w t : configure (map (pair false) ws) tok_new = Ok t -> configure (map (pair false) (ws ++ [w])) tok_new = add_multichar_symbol w t.
  Proof.
    rewrite map_app. generalize tok_new. induction ws as [|x ws IH]; intros t0 E; cbn [map app configure] in *.
    - injection E as ->. destruct (add_multichar_symbol w t); reflexivity.
    - destruct (add_multichar_symbol x t0) as [t1| | |]; try discriminate E. cbn [rbind] in *. apply IH. exact E.
  Qed.
  Lemma configure_good ws : good ws -> exists t, configure (map (pair false) ws) tok_new = Ok t.
  Proof. intros G. destruct (tokens_of ws [] [] G utf8_nil (seg_nil _ _)) as (t & E & _). eauto. Qed.

  (** ** The symbols of the tokenizer *)
  Definition head (m : bstr) : bstr := match m with [] => [] | b :: _ => firstn (lead_width b) m end.
  Lemma head_char c r : utf8_char c -> head (c ++ r) = c.
  Proof.
    intros U. destruct c as [|b c]; [destruct (utf8_char_nonempty _ U eq_refl)|]. cbn [app head]. destruct (utf8_char_len (b :: c) b c U (b :: c) U eq_refl eq_refl) as (_ & L). rewrite <- L. change (b :: c ++ r) with ((b :: c) ++ r).
    rewrite firstn_app, firstn_all, Nat.sub_diag. cbn [firstn]. apply app_nil_r.
  Qed.
  Definition base (eps : bstr) : list bstr :=
    [eps; BACKSLASH ++ COL; BACKSLASH ++ SPACE; BACKSLASH ++ BACKSLASH; COL_ESCAPE; TAB_ESCAPE; SPACE_ESCAPE; eps; BACKSLASH ++ eps; BACKSLASH ++ SPACE_ESCAPE].
  Definition all_symbols (ms : list bstr) (eps : bstr) : list bstr := base eps ++ flat_map (fun m => [BACKSLASH ++ head m; m]) ms.

  Variables (ms : list bstr) (eps : bstr).
  Hypothesis O : orderly one ms eps.
  Lemma word_char w : In w (words ms eps) -> exists c r, w = c ++ r /\ one c /\ all_one one r /\ head w = c.
  Proof.
    intros H. destruct (o_chars _ _ _ O w H) as (NE & (cs & F & E) & _). destruct cs as [|c cs]; [cbn in E; congruence|]. cbn [concat] in E. inversion F as [|? ? F1 F2]; subst. exists c, (concat cs). split; [reflexivity|]. split; [exact F1|]. split; [exists cs; auto|].
    apply head_char. exact (proj1 (i_char _ _ _ I c F1)).
  Qed.
  Lemma in_reserved w : In w (reserved eps) -> In w (words ms eps).
  Proof. intros H. apply in_app_iff. left. exact H. Qed.
  Lemma in_ms m : In m ms -> In m (words ms eps).
  Proof. intros H. apply in_app_iff. right. exact H. Qed.
  Lemma in_eps : In eps (words ms eps).
  Proof. left. reflexivity. Qed.
  Lemma in_space : In SPACE_ESCAPE (words ms eps).
  Proof. apply in_reserved. do 3 right. left. reflexivity. Qed.
  Lemma in_colon : In COL_ESCAPE (words ms eps).
  Proof. apply in_reserved. right. left. reflexivity. Qed.
  Lemma in_tab : In TAB_ESCAPE (words ms eps).
  Proof. apply in_reserved. do 2 right. left. reflexivity. Qed.
  Lemma one_backslash : one BACKSLASH.
  Proof. exact (proj1 (proj2 (i_marks _ _ _ I))). Qed.

  (** The symbols are words, or a backslash before a character or before [eps] or the name of space. *)
  Inductive symbol (l : list bstr) : bstr -> Prop :=
  | sy_word w : In w (reserved eps ++ l) -> symbol l w
  | sy_mark c : In c [COL; SPACE; BACKSLASH] -> symbol l (BACKSLASH ++ c)
  | sy_reserved w : In w [eps; SPACE_ESCAPE] -> symbol l (BACKSLASH ++ w)
  | sy_head m : In m l -> symbol l (BACKSLASH ++ head m).
  Lemma symbols_of l w : In w (base eps ++ flat_map (fun m => [BACKSLASH ++ head m; m]) l) <-> symbol l w.
  Proof.
    split.
    - intros H. apply in_app_iff in H. destruct H as [H|H].
      + destruct H as [<-|[<-|[<-|[<-|[<-|[<-|[<-|[<-|[<-|[<-|[]]]]]]]]]]].
        * apply sy_word. left. reflexivity.
        * apply sy_mark. left. reflexivity.
        * apply sy_mark. right. left. reflexivity.
        * apply sy_mark. do 2 right. left. reflexivity.
        * apply sy_word. right. left. reflexivity.
        * apply sy_word. do 2 right. left. reflexivity.
        * apply sy_word. do 3 right. left. reflexivity.
        * apply sy_word. left. reflexivity.
        * apply sy_reserved. left. reflexivity.
        * apply sy_reserved. right. left. reflexivity.
      + apply in_flat_map in H. destruct H as (m & Hm & [<-|[<-|[]]]); [apply sy_head; exact Hm|apply sy_word; apply in_app_iff; right; exact Hm].
    - intros H. apply in_app_iff. destruct H as [w H|c H|w H|m H].
      + apply in_app_iff in H. destruct H as [H|H]; [|right; apply in_flat_map; exists w; split; [exact H|right; left; reflexivity]]. left.
        destruct H as [<-|[<-|[<-|[<-|[]]]]]; [left; reflexivity|do 4 right; left; reflexivity|do 5 right; left; reflexivity|do 6 right; left; reflexivity].
      + left. destruct H as [<-|[<-|[<-|[]]]]; [right; left; reflexivity|do 2 right; left; reflexivity|do 3 right; left; reflexivity].
      + left. destruct H as [<-|[<-|[]]]; [do 8 right; left; reflexivity|do 9 right; left; reflexivity].
      + right. apply in_flat_map. exists m. split; [exact H|left; reflexivity].
  Qed.
  Definition incl_ms (l : list bstr) : Prop := forall m, In m l -> In m ms.
  Lemma sub_words l w : incl_ms l -> In w (reserved eps ++ l) -> In w (words ms eps).
  Proof. intros L H. apply in_app_iff in H. apply in_app_iff. destruct H as [H|H]; [left; exact H|right; exact (L w H)]. Qed.
  Lemma symbol_all_one l w : incl_ms l -> symbol l w -> w <> [] /\ all_one one w.
  Proof.
    intros L H. destruct (i_marks _ _ _ I) as (Oc & Ob & Os). destruct H as [w H|c H|w H|m H].
    - destruct (o_chars _ _ _ O w (sub_words l w L H)) as (N & A & _). auto.
    - split; [discriminate|]. apply all_one_app; [apply all_one_char; exact Ob|]. apply all_one_char. destruct H as [<-|[<-|[<-|[]]]]; assumption.
    - split; [discriminate|]. apply all_one_app; [apply all_one_char; exact Ob|]. assert (Hw : In w (words ms eps)) by (destruct H as [<-|[<-|[]]]; [exact in_eps|exact in_space]). destruct (o_chars _ _ _ O w Hw) as (_ & A & _). exact A.
    - split; [discriminate|]. apply all_one_app; [apply all_one_char; exact Ob|]. destruct (word_char m (in_ms m (L m H))) as (c & r & _ & Oc' & _ & ->). apply all_one_char. exact Oc'.
  Qed.
  Lemma symbols_good l : incl_ms l -> good (base eps ++ flat_map (fun m => [BACKSLASH ++ head m; m]) l).
  Proof. intros L w H. apply symbols_of in H. apply all_one_utf8. exact (proj2 (symbol_all_one l w L H)). Qed.
  Lemma word_not_backslash w r : In w (words ms eps) -> ~ prefix_of BACKSLASH (w ++ r).
  Proof.
    intros H (q & E). destruct (o_chars _ _ _ O w H) as (N & _ & _ & NB). destruct w as [|b w]; [congruence|]. injection E as -> _. apply NB. left. reflexivity.
  Qed.
  Lemma symbol_backslash l w : symbol l w -> incl_ms l -> In w (words ms eps) \/ exists x, w = BACKSLASH ++ x /\ (In x [COL; SPACE; BACKSLASH] \/ In x [eps; SPACE_ESCAPE] \/ exists m, In m l /\ x = head m).
  Proof. intros H L. destruct H as [w H|c H|w H|m H]; [left; exact (sub_words l w L H)| | |]; right; eexists; (split; [reflexivity|]); [left; exact H|right; left; exact H|right; right; exists m; auto]. Qed.
  Lemma backslash_word w s : In w (words ms eps) -> ~ prefix_of w (BACKSLASH ++ s).
  Proof.
    intros H (q & E). destruct (o_chars _ _ _ O w H) as (N & _ & _ & NB). destruct w as [|b w]; [congruence|]. injection E as <- _. apply NB. left. reflexivity.
  Qed.
  Lemma add_step ws w t : configure (map (pair false) ws) tok_new = Ok t -> good (ws ++ [w]) -> exists t', add_multichar_symbol w t = Ok t' /\ configure (map (pair false) (ws ++ [w])) tok_new = Ok t'.
  Proof. intros E G. destruct (configure_good (ws ++ [w]) G) as (t' & E'). exists t'. split; [|exact E']. rewrite <- E'. symmetry. apply configure_snoc. exact E. Qed.
  Lemma head_step ws m h ts t : configure (map (pair false) ws) tok_new = Ok t -> good ws -> m <> [] -> utf8 m -> seg ws m (h :: ts) ->
    add_multichar_symbol_head gr valid m t = add_multichar_symbol (BACKSLASH ++ h) t.
  Proof.
    intros E G N U Sg. destruct (tokens_of ws m (h :: ts) G U Sg) as (t' & E' & Et). rewrite E in E'. injection E' as <-. unfold add_multichar_symbol_head. destruct m; [congruence|]. rewrite Et. reflexivity.
  Qed.
  Lemma seg_whole ws w : In w ws -> w <> [] -> seg ws w [w].
  Proof.
    intros H N. rewrite <- (app_nil_r w) at 1. apply seg_sym; [|constructor]. split; [apply registered_map; auto|]. split; [exists []; reflexivity|]. intros w' _ (q & E). rewrite app_nil_r in E. rewrite E, app_length. lia.
  Qed.
  Lemma seg_exists ws s : good ws -> utf8 s -> exists ts, seg ws s ts.
  Proof.
    intros G U. destruct (tokenize_segmentation gr valid false (map (pair false) ws) s) as (t & ts1 & ts0 & _ & _ & Sg0 & _).
    - intros k w Hin. apply in_map_iff in Hin. destruct Hin as (x & E & Hin). injection E as _ ->. exact (G w Hin).
    - intros _. exact (i_cluster _ _ _ I).
    - exact U.
    - exact (i_valid _ _ _ I s U).
    - exists ts0. exact Sg0.
  Qed.
  Lemma good_app a b : good (a ++ b) -> good a.
  Proof. intros G w H. apply G. apply in_app_iff. left. exact H. Qed.
  Lemma eps_ne : eps <> [].
  Proof. exact (proj1 (o_chars _ _ _ O eps in_eps)). Qed.
  Lemma eps_utf8 : utf8 eps.
  Proof. apply all_one_utf8. destruct (o_chars _ _ _ O eps in_eps) as (_ & A & _). exact A. Qed.
  Lemma add_all l2 : forall l1 t, ms = l1 ++ l2 -> configure (map (pair false) (base eps ++ flat_map (fun m => [BACKSLASH ++ head m; m]) l1)) tok_new = Ok t ->
    exists t', add_multichar_symbols gr valid l2 t = Ok t' /\ configure (map (pair false) (all_symbols ms eps)) tok_new = Ok t'.
  Proof.
    induction l2 as [|m l2 IH]; intros l1 t Em E; cbn [add_multichar_symbols].
    - exists t. split; [reflexivity|]. unfold all_symbols. rewrite Em, app_nil_r. exact E.
    - assert (Hm : In m ms) by (rewrite Em; apply in_app_iff; right; left; reflexivity). assert (L1 : incl_ms l1) by (intros x Hx; rewrite Em; apply in_app_iff; left; exact Hx).
      assert (L2 : incl_ms (l1 ++ [m])) by (intros x Hx; apply in_app_iff in Hx; destruct Hx as [Hx|[<-|[]]]; [exact (L1 x Hx)|exact Hm]).
      destruct (word_char m (in_ms m Hm)) as (c & r & Ec & Oc & Or & Hh). destruct (o_chars _ _ _ O m (in_ms m Hm)) as (Nm & Am & _). pose proof (proj1 (all_one_utf8 m Am)) as Um.
      set (ws := base eps ++ flat_map (fun m => [BACKSLASH ++ head m; m]) l1) in *. pose proof (symbols_good l1 L1) as G1. fold ws in G1.
      assert (G2 : good ((ws ++ [BACKSLASH ++ head m]) ++ [m])) by (pose proof (symbols_good (l1 ++ [m]) L2) as G2; rewrite flat_map_app, app_assoc in G2; rewrite <- app_assoc; exact G2).
      destruct (seg_exists ws r G1 (proj1 (all_one_utf8 r Or))) as (ts & Sr).
      assert (Sm : seg ws m (head m :: ts)).
      { rewrite Hh. rewrite Ec at 1. apply seg_chr; [|split; [symmetry; apply (i_one _ _ _ I c r Oc Or)|apply utf8_char_nonempty; exact (proj1 (i_char _ _ _ I c Oc))]|exact Sr]. rewrite <- Ec. intros w Hw Hp. apply registered_map in Hw. destruct Hw as (_ & Hw). apply symbols_of in Hw.
        destruct Hw as [w Hw|c' Hw|w Hw|m' Hw]; try (destruct Hp as (q & Eq); apply (word_not_backslash m [] (in_ms m Hm)); rewrite app_nil_r, Eq; eexists; rewrite <- app_assoc; reflexivity).
        pose proof (o_prefix _ _ _ O w m (sub_words l1 w L1 Hw) (in_ms m Hm) Hp) as ->. pose proof (o_nodup _ _ _ O) as ND. unfold words in ND. rewrite Em, app_assoc in ND. apply NoDup_remove_2 in ND. apply ND. apply in_app_iff. left. exact Hw. }
      rewrite (head_step ws m (head m) ts t E G1 Nm Um Sm). destruct (add_step ws (BACKSLASH ++ head m) t E (good_app _ _ G2)) as (t1 & -> & E1). cbn [rbind]. destruct (add_step _ m t1 E1 G2) as (t2 & -> & E2). cbn [rbind].
      apply (IH (l1 ++ [m])); [rewrite Em, <- app_assoc; reflexivity|]. rewrite flat_map_app, app_assoc. rewrite <- app_assoc in E2. exact E2.
  Qed.
  Lemma new_tokenizer_ok : exists t, new_tokenizer gr valid ms eps = Ok t /\ configure (map (pair false) (all_symbols ms eps)) tok_new = Ok t.
  Proof.
    pose proof (symbols_good [] (fun m H => match H with end)) as G. cbn [flat_map] in G. rewrite app_nil_r in G. assert (Gn : forall n, good (firstn n (base eps))) by (intros n; apply (good_app _ (skipn n (base eps))); rewrite firstn_skipn; exact G).
    pose proof eps_ne as NE. unfold new_tokenizer. assert (Em : forall A (a b : A), match eps with [] => a | _ :: _ => b end = b) by (intros; destruct eps; [congruence|reflexivity]). rewrite !Em.
    assert (E0 : configure (map (pair false) []) tok_new = Ok tok_new) by reflexivity.
    destruct (add_step [] eps tok_new E0 (Gn 1)) as (t1 & -> & E1). cbn [rbind app] in *.
    destruct (add_step _ (BACKSLASH ++ COL) t1 E1 (Gn 2)) as (t2 & -> & E2). cbn [rbind] in *.
    destruct (add_step _ (BACKSLASH ++ SPACE) t2 E2 (Gn 3)) as (t3 & -> & E3). cbn [rbind] in *.
    destruct (add_step _ (BACKSLASH ++ BACKSLASH) t3 E3 (Gn 4)) as (t4 & -> & E4). cbn [rbind] in *.
    destruct (add_step _ COL_ESCAPE t4 E4 (Gn 5)) as (t5 & -> & E5). cbn [rbind] in *.
    destruct (add_step _ TAB_ESCAPE t5 E5 (Gn 6)) as (t6 & -> & E6). cbn [rbind] in *.
    destruct (add_step _ SPACE_ESCAPE t6 E6 (Gn 7)) as (t7 & -> & E7). cbn [rbind] in *. rewrite Em.
    destruct (add_step _ eps t7 E7 (Gn 8)) as (t8 & -> & E8). cbn [rbind] in *.
    rewrite (head_step (firstn 8 (base eps)) eps eps [] t8 E8 (Gn 8) NE eps_utf8 (seg_whole (firstn 8 (base eps)) eps (or_introl eq_refl) NE)).
    destruct (add_step _ (BACKSLASH ++ eps) t8 E8 (Gn 9)) as (t9 & -> & E9). cbn [rbind] in *.
    rewrite (head_step (firstn 9 (base eps)) SPACE_ESCAPE SPACE_ESCAPE [] t9 E9 (Gn 9)); [|discriminate|apply all_one_utf8; destruct (o_chars _ _ _ O SPACE_ESCAPE in_space) as (_ & A & _); exact A|apply seg_whole; [do 6 right; left; reflexivity|discriminate]].
    destruct (add_step _ (BACKSLASH ++ SPACE_ESCAPE) t9 E9 (Gn 10)) as (t10 & -> & E10). cbn [rbind] in *.
    apply (add_all ms []); [reflexivity|]. cbn [flat_map]. rewrite app_nil_r. exact E10.
  Qed.

  (** ** Segmentation of written texts *)
  Notation sg := (seg (all_symbols ms eps)).
  Lemma sg_symbol w : registered (map (pair false) (all_symbols ms eps)) w -> symbol ms w.
  Proof. intros H. apply registered_map in H. apply symbols_of. exact (proj2 H). Qed.
  Lemma incl_all : incl_ms ms.
  Proof. intros m H. exact H. Qed.
  Lemma symbol_sg w : symbol ms w -> registered (map (pair false) (all_symbols ms eps)) w.
  Proof. intros H. apply registered_map. split; [exact (proj1 (symbol_all_one ms w incl_all H))|apply symbols_of; exact H]. Qed.
  Lemma seg_word w r ts : In w (words ms eps) -> sg r ts -> sg (w ++ r) (w :: ts).
  Proof.
    intros Hw Hr. apply seg_sym; [|exact Hr]. split; [apply symbol_sg; apply sy_word; exact Hw|]. split; [exists r; reflexivity|]. intros w' Hw' Hp. apply sg_symbol in Hw'.
    destruct (Nat.le_gt_cases (length w') (length w)) as [|L]; [assumption|]. exfalso. pose proof (prefix_long w w' (w ++ r) (ex_intro _ r eq_refl) Hp L) as Pw.
    destruct (symbol_backslash ms w' Hw' incl_all) as [Hw2|(x & -> & _)].
    - rewrite (o_prefix _ _ _ O w w' Hw Hw2 Pw) in L. lia.
    - apply (word_not_backslash w r Hw). destruct Hp as (q & E). rewrite E. exists (x ++ q). rewrite app_assoc. reflexivity.
  Qed.
  Lemma one_cluster c r : one c -> all_one one r -> cluster gr c r.
  Proof. intros Oc Or. split; [symmetry; apply (i_one _ _ _ I c r Oc Or)|apply utf8_char_nonempty; exact (proj1 (i_char _ _ _ I c Oc))]. Qed.
  (** A character that begins none of the words that start the text. *)
  Lemma seg_one c r ts : one c -> c <> BACKSLASH -> all_one one r -> (forall w, In w (words ms eps) -> ~ prefix_of w (c ++ r)) -> sg r ts -> sg (c ++ r) (c :: ts).
  Proof.
    intros Oc Nb Or Nw Hr. apply seg_chr; [|apply one_cluster; assumption|exact Hr]. intros w Hw Hp. apply sg_symbol in Hw. destruct (symbol_backslash ms w Hw incl_all) as [Hw2|(x & -> & _)]; [exact (Nw w Hw2 Hp)|].
    destruct (prefix_both BACKSLASH c (c ++ r)) as [(q & K)|(q & K)]; [apply (prefix_trans _ (BACKSLASH ++ x)); [exists x; reflexivity|exact Hp]|exists r; reflexivity| |].
    - apply Nb. rewrite K. apply (utf8_char_ascii _ BACKSLASH_CHAR); [rewrite <- K; exact (proj1 (i_char _ _ _ I c Oc))|left; reflexivity|reflexivity].
    - destruct c as [|b [|? ?]]; [destruct (utf8_char_nonempty _ (proj1 (i_char _ _ _ I _ Oc)) eq_refl)| |]; try discriminate K. injection K as <- _. apply Nb. reflexivity.
  Qed.
  Lemma char_prefix c d s r : one c -> one d -> prefix_of d s -> s = c ++ r -> d = c.
  Proof. intros Oc Od (q & E) Es. rewrite E in Es. exact (proj1 (utf8_char_prefix d c q r (proj1 (i_char _ _ _ I d Od)) (proj1 (i_char _ _ _ I c Oc)) Es)). Qed.
  (** What a symbol after a backslash may be. *)
  Lemma after_backslash c r x : one c -> (forall w, In w (reserved eps) -> ~ prefix_of w (c ++ r)) -> symbol ms (BACKSLASH ++ x) -> prefix_of x (c ++ r) ->
    x = c /\ (c = COL \/ c = SPACE \/ c = BACKSLASH \/ exists m, In m ms /\ head m = c).
  Proof.
    intros Oc Nr H Hp. destruct (i_marks _ _ _ I) as (O1 & O2 & O3). destruct (symbol_backslash ms _ H incl_all) as [Hw|(y & E & Hy)].
    - exfalso. apply (word_not_backslash (BACKSLASH ++ x) [] Hw). rewrite app_nil_r. exists x. reflexivity.
    - injection E as <-. destruct Hy as [Hy|[Hy|(m & Hm & ->)]].
      + assert (Ox : one x) by (destruct Hy as [<-|[<-|[<-|[]]]]; assumption). pose proof (char_prefix c x _ r Oc Ox Hp eq_refl) as ->. split; [reflexivity|]. destruct Hy as [<-|[<-|[<-|[]]]]; auto.
      + exfalso. apply (Nr x); [|exact Hp]. destruct Hy as [<-|[<-|[]]]; [left; reflexivity|do 3 right; left; reflexivity].
      + destruct (word_char m (in_ms m Hm)) as (c' & r' & _ & Oc' & _ & Eh). rewrite Eh in *. pose proof (char_prefix c c' _ r Oc Oc' Hp eq_refl) as ->. split; [reflexivity|]. do 3 right. exists m. auto.
  Qed.
  Lemma seg_escaped c r ts : one c -> (c = COL \/ c = SPACE \/ c = BACKSLASH \/ exists m, In m ms /\ head m = c) -> (forall w, In w (reserved eps) -> ~ prefix_of w (c ++ r)) -> sg r ts ->
    sg ((BACKSLASH ++ c) ++ r) ((BACKSLASH ++ c) :: ts).
  Proof.
    intros Oc Hc Nr Hr. apply seg_sym; [|exact Hr]. split; [apply symbol_sg; destruct Hc as [->|[->|[->|(m & Hm & <-)]]]; [apply sy_mark; left; reflexivity|apply sy_mark; right; left; reflexivity|apply sy_mark; do 2 right; left; reflexivity|apply sy_head; exact Hm]|].
    split; [exists r; reflexivity|]. intros w' Hw' Hp. apply sg_symbol in Hw'. rewrite <- app_assoc in Hp. destruct (symbol_backslash ms w' Hw' incl_all) as [Hw2|(x & -> & _)].
    - exfalso. exact (backslash_word w' _ Hw2 Hp).
    - assert (Hp' : prefix_of x (c ++ r)) by (destruct Hp as (q & E); injection E as E; exists q; exact E). destruct (after_backslash c r x Oc Nr Hw' Hp') as (-> & _). lia.
  Qed.
  Lemma seg_loose c r ts : one c -> ~ (c = COL \/ c = SPACE \/ c = BACKSLASH \/ exists m, In m ms /\ head m = c) -> (forall w, In w (reserved eps) -> ~ prefix_of w (c ++ r)) -> all_one one r -> sg r ts ->
    sg ((BACKSLASH ++ c) ++ r) (BACKSLASH :: c :: ts).
  Proof.
    intros Oc Hc Nr Or Hr. rewrite <- app_assoc. apply seg_chr.
    - intros w' Hw' Hp. apply sg_symbol in Hw'. destruct (symbol_backslash ms w' Hw' incl_all) as [Hw2|(x & -> & _)]; [exact (backslash_word w' _ Hw2 Hp)|].
      assert (Hp' : prefix_of x (c ++ r)) by (destruct Hp as (q & E); injection E as E; exists q; exact E). destruct (after_backslash c r x Oc Nr Hw' Hp') as (_ & K). exact (Hc K).
    - apply one_cluster; [exact one_backslash|apply all_one_app; [apply all_one_char; exact Oc|exact Or]].
    - apply seg_one; [exact Oc|intros ->; apply Hc; auto|exact Or| |exact Hr]. intros w Hw Hp. apply in_app_iff in Hw. destruct Hw as [Hw|Hw]; [exact (Nr w Hw Hp)|].
      destruct (word_char w (in_ms w Hw)) as (c' & r' & E & Oc' & _ & Eh). assert (c' = c) as ->. { apply (char_prefix c c' (c ++ r) r Oc Oc'); [|reflexivity]. apply (prefix_trans _ w); [exists r'; exact E|exact Hp]. } apply Hc. do 3 right. exists w. auto.
  Qed.
  Lemma head_dec c : one c -> (exists m, In m ms /\ prefix_of c m) <-> (exists m, In m ms /\ head m = c).
  Proof.
    intros Oc. split; intros (m & Hm & H); exists m; (split; [exact Hm|]).
    - destruct (word_char m (in_ms m Hm)) as (c' & r' & E & Oc' & _ & ->). symmetry. apply (char_prefix c' c m r' Oc' Oc H E).
    - destruct (word_char m (in_ms m Hm)) as (c' & r' & E & Oc' & _ & Eh). rewrite <- H, Eh. exists r'. exact E.
  Qed.
  Lemma needs_dec c : (c = COL \/ c = SPACE \/ c = BACKSLASH \/ exists m, In m ms /\ head m = c) \/ ~ (c = COL \/ c = SPACE \/ c = BACKSLASH \/ exists m, In m ms /\ head m = c).
  Proof.
    destruct (list_eq_dec Ascii.ascii_dec c COL); [left; auto|]. destruct (list_eq_dec Ascii.ascii_dec c SPACE); [left; auto|]. destruct (list_eq_dec Ascii.ascii_dec c BACKSLASH); [left; auto|].
    destruct (existsb (fun m => bstr_eqb (head m) c) ms) eqn:E.
    - apply existsb_exists in E. destruct E as (m & Hm & E). apply bstr_eqb_eq in E. left. do 3 right. exists m. auto.
    - right. intros [K|[K|[K|(m & Hm & K)]]]; try congruence. assert (T : existsb (fun m => bstr_eqb (head m) c) ms = true) by (apply existsb_exists; exists m; split; [exact Hm|rewrite K; apply bstr_eqb_refl]). congruence.
  Qed.

  (** ** The meaning of tokens *)
  Record reads (u x : bstr) : Prop := {
    rd_col : u <> COL; rd_backslash : u <> BACKSLASH;
    rd_single : exists y, unescape u = Ok y /\ or_epsilon eps y = x;
    rd_half : half eps u = Ok x }.
  Lemma or_epsilon_other x : x <> [] -> x <> eps -> or_epsilon eps x = x.
  Proof. intros N K. unfold or_epsilon. destruct x as [|b x]; [congruence|]. destruct (bstr_eqb (b :: x) eps) eqn:E; [apply bstr_eqb_eq in E; congruence|reflexivity]. Qed.
  Lemma half_other u : u <> [] -> u <> eps -> half eps u = unescape u.
  Proof. intros N K. unfold half. destruct u as [|b u]; [congruence|]. destruct (bstr_eqb (b :: u) eps) eqn:E; [apply bstr_eqb_eq in E; congruence|reflexivity]. Qed.
  Lemma reads_other u x : u <> COL -> u <> BACKSLASH -> u <> [] -> u <> eps -> unescape u = Ok x -> x <> [] -> x <> eps -> reads u x.
  Proof.
    intros. constructor; [assumption|assumption| |rewrite half_other by assumption; assumption]. exists x. split; [assumption|apply or_epsilon_other; assumption].
  Qed.
  Lemma word_marks w : In w (words ms eps) -> w <> COL /\ w <> BACKSLASH /\ w <> [].
  Proof. intros H. destruct (o_chars _ _ _ O w H) as (N & _ & C & K). split; [intros ->; apply C; left; reflexivity|]. split; [intros ->; apply K; left; reflexivity|exact N]. Qed.
  Lemma nodup_eps w : In w ([COL_ESCAPE; TAB_ESCAPE; SPACE_ESCAPE] ++ ms) -> w <> eps.
  Proof. intros H ->. pose proof (o_nodup _ _ _ O) as ND. unfold words, reserved in ND. cbn [app] in ND. inversion ND as [|? ? K _]; subst. exact (K H). Qed.
  Lemma spelled_reads loose x t r ts : spelled one ms eps loose x t r -> all_one one r -> sg r ts ->
    all_one one t /\ exists u, reads u x /\ (sg (t ++ r) (u :: ts) \/ (loose = true /\ sg (t ++ r) (BACKSLASH :: u :: ts))).
  Proof.
    intros H Or Hr. assert (W : forall w, In w (words ms eps) -> all_one one w) by (intros w Hw; destruct (o_chars _ _ _ O w Hw) as (_ & A & _); exact A).
    destruct H as [m r Hm|r|r|r|c r Oc Nc Nb Nw|c r Oc Need Nr].
    - split; [apply W; exact (in_ms m Hm)|]. exists m. split; [|left; apply seg_word; [exact (in_ms m Hm)|exact Hr]]. destruct (word_marks m (in_ms m Hm)) as (M1 & M2 & M3). destruct (o_chars _ _ _ O m (in_ms m Hm)) as (_ & _ & C & K).
      assert (Ne : m <> eps) by (apply nodup_eps; apply in_app_iff; right; exact Hm). apply reads_other; try assumption. apply unescape_plain; [exact C|exact K|]. intros w. exact (o_marks _ _ _ O m w (or_intror Hm)).
    - split; [apply W; exact in_eps|]. exists eps. split; [|left; apply seg_word; [exact in_eps|exact Hr]]. destruct (word_marks eps in_eps) as (M1 & M2 & M3). destruct (o_chars _ _ _ O eps in_eps) as (_ & _ & C & K).
      constructor; [exact M1|exact M2| |].
      + exists eps. split; [apply unescape_plain; [exact C|exact K|]; intros w; exact (o_marks _ _ _ O eps w (or_introl eq_refl))|]. unfold or_epsilon. rewrite bstr_eqb_refl. destruct eps; reflexivity.
      + unfold half. rewrite bstr_eqb_refl. destruct eps; reflexivity.
    - split; [apply W; exact in_space|]. exists SPACE_ESCAPE. split; [|left; apply seg_word; [exact in_space|exact Hr]]. destruct (word_marks SPACE_ESCAPE in_space) as (M1 & M2 & M3).
      apply reads_other; try assumption; [apply nodup_eps; do 2 right; left; reflexivity|vm_compute; reflexivity|discriminate|intros K; exact (o_space _ _ _ O (eq_sym K))].
    - split; [apply W; exact in_colon|]. exists COL_ESCAPE. split; [|left; apply seg_word; [exact in_colon|exact Hr]]. destruct (word_marks COL_ESCAPE in_colon) as (M1 & M2 & M3).
      apply reads_other; try assumption; [apply nodup_eps; left; reflexivity|vm_compute; reflexivity|discriminate|intros K; exact (proj1 (word_marks eps in_eps) (eq_sym K))].
    - split; [apply all_one_char; exact Oc|]. pose proof (proj1 (i_char _ _ _ I c Oc)) as Uc. pose proof (utf8_char_nonempty c Uc) as Nn. assert (Ne : c <> eps) by (intros ->; apply (Nw eps in_eps); exists []; rewrite app_nil_r; reflexivity). exists c. split.
      + apply reads_other; try assumption. apply unescape_char; assumption.
      + left. apply seg_one; [exact Oc|exact Nb|exact Or| |exact Hr]. intros w Hw Hp. destruct (word_char w Hw) as (c' & r' & E & Oc' & _ & Eh). assert (c' = c) as ->. { apply (char_prefix c c' (c ++ r) r Oc Oc'); [|reflexivity]. apply (prefix_trans _ w); [exists r'; exact E|exact Hp]. }
        apply (Nw w Hw). exists r'. exact E.
    - split; [apply all_one_app; apply all_one_char; [exact one_backslash|exact Oc]|]. pose proof (proj1 (i_char _ _ _ I c Oc)) as Uc. pose proof (utf8_char_nonempty c Uc) as Nn.
      assert (Ne : c <> eps) by (intros ->; apply (Nr eps); [left; reflexivity|exists r; reflexivity]). assert (Ne' : BACKSLASH ++ c <> eps) by (intros K; apply (word_not_backslash eps [] in_eps); rewrite app_nil_r, <- K; exists c; reflexivity).
      assert (R1 : reads (BACKSLASH ++ c) c) by (apply reads_other; [discriminate|intros K; injection K as K; congruence|discriminate|exact Ne'|apply unescape_escaped; exact Uc|exact Nn|exact Ne]).
      destruct (needs_dec c) as [Nd|Nd]; [exists (BACKSLASH ++ c); split; [exact R1|left; apply seg_escaped; assumption]|].
      assert (loose = true) as ->. { destruct Need as [L|Need]; [exact L|]. exfalso. apply Nd. destruct Need as [K|[K|[K|K]]]; auto. do 3 right. apply (head_dec c Oc). exact K. }
      exists c. split; [|right; split; [reflexivity|apply seg_loose; assumption]]. apply reads_other; try assumption; [intros ->; apply Nd; auto|intros ->; apply Nd; auto|]. apply unescape_char; [exact Uc|intros ->; apply Nd; auto|intros ->; apply Nd; auto].
  Qed.
  Lemma spelled_kept loose x t r ts : spelled one ms eps loose x t r -> all_one one r -> sg r ts ->
    all_one one t /\ exists u us, reads u x /\ sg (t ++ r) us /\ filter (fun x => negb (bstr_eqb x BACKSLASH)) us = u :: filter (fun x => negb (bstr_eqb x BACKSLASH)) ts.
  Proof.
    intros H Or Hr. destruct (spelled_reads loose x t r ts H Or Hr) as (A & u & Ru & K). split; [exact A|].
    assert (Eu : bstr_eqb u BACKSLASH = false) by (destruct (bstr_eqb u BACKSLASH) eqn:E; [apply bstr_eqb_eq in E; destruct (rd_backslash u x Ru E)|reflexivity]).
    destruct K as [K|(_ & K)]; [exists u, (u :: ts)|exists u, (BACKSLASH :: u :: ts)]; (split; [exact Ru|split; [exact K|cbn [filter]; rewrite Eu; reflexivity]]).
  Qed.
  Lemma make_single u x us : reads u x -> (forall c z l, us = c :: z :: l -> c <> COL) -> make_pairs eps (u :: us) = rmap (cons (x, x)) (make_pairs eps us).
  Proof.
    intros R N. destruct (rd_single u x R) as (y & Ey & Ex). cbn [make_pairs]. rewrite Ey. cbn [rbind]. rewrite Ex. destruct us as [|c [|z l]]; try reflexivity. destruct (bstr_eqb c COL) eqn:E; [apply bstr_eqb_eq in E; destruct (N c z l eq_refl E)|reflexivity].
  Qed.
  Lemma make_double u x v y us : reads u x -> reads v y -> make_pairs eps (u :: COL :: v :: us) = rmap (cons (x, y)) (make_pairs eps us).
  Proof. intros R Q. cbn [make_pairs]. rewrite bstr_eqb_refl, (rd_half u x R), (rd_half v y Q). reflexivity. Qed.
  Lemma seg_colon r ts : all_one one r -> sg r ts -> sg (colon ++ r) (COL :: ts).
  Proof.
    intros Or Hr. apply seg_one; [exact (proj1 (i_marks _ _ _ I))|discriminate|exact Or| |exact Hr]. intros w Hw (q & E). destruct (o_chars _ _ _ O w Hw) as (N & _ & C & _). destruct w as [|b w]; [congruence|]. injection E as <- _. apply C. left. reflexivity.
  Qed.
  Lemma pair_text_tokens ps s : pair_text one ms eps ps s -> all_one one s /\ exists ts, sg s ts /\ make_pairs eps (filter (fun x => negb (bstr_eqb x BACKSLASH)) ts) = Ok ps /\
    forall c us, filter (fun x => negb (bstr_eqb x BACKSLASH)) ts = c :: us -> c <> COL.
  Proof.
    induction 1 as [|x t r ps Hx Hr (Ar & ts & Sr & Er & Nr)|x y t u r ps Hx Hy Hr (Ar & ts & Sr & Er & Nr)].
    - split; [apply all_one_nil|]. exists []. split; [constructor|]. split; [reflexivity|discriminate].
    - destruct (spelled_kept true x t r ts Hx Ar Sr) as (At & w & us & Rw & Su & Ef). split; [apply all_one_app; assumption|]. exists us. split; [exact Su|]. rewrite Ef. split.
      + rewrite (make_single w x _ Rw), Er; [reflexivity|]. intros c z l El. exact (Nr c (z :: l) El).
      + intros c us' E. injection E as <- _. exact (rd_col w x Rw).
    - destruct (spelled_kept true y u r ts Hy Ar Sr) as (Au & v & vs & Rv & Sv & Ev). assert (Aur : all_one one (u ++ r)) by (apply all_one_app; assumption).
      pose proof (seg_colon (u ++ r) vs Aur Sv) as Sc. assert (Ac : all_one one (colon ++ u ++ r)) by (apply all_one_app; [apply all_one_char; exact (proj1 (i_marks _ _ _ I))|exact Aur]).
      destruct (spelled_kept true x t _ _ Hx Ac Sc) as (At & w & us & Rw & Su & Ef). split; [apply all_one_app; assumption|]. exists us. split; [exact Su|]. rewrite Ef. cbn [filter]. change (negb (bstr_eqb COL BACKSLASH)) with true. cbv iota. rewrite Ev. split.
      + rewrite (make_double w x v y _ Rw Rv), Er. reflexivity.
      + intros c us' E. injection E as <- _. exact (rd_col w x Rw).
  Qed.
  Lemma one_level_of s ts : all_one one s -> sg s ts -> exists t, new_tokenizer gr valid ms eps = Ok t /\ one_level gr valid t s = Ok ts.
  Proof.
    intros A Sg. destruct new_tokenizer_ok as (t & E & Ec). exists t. split; [exact E|]. destruct (tokens_of (all_symbols ms eps) s ts (symbols_good ms incl_all) (proj1 (all_one_utf8 s A)) Sg) as (t' & Ec' & Et). rewrite Ec in Ec'. injection Ec' as <-. exact Et.
  Qed.
  Lemma pair_string_read ps s : pair_text one ms eps ps s -> rbind (new_tokenizer gr valid ms eps) (fun t => tokenize_pair_string gr valid eps t s false) = Ok ps.
  Proof.
    intros H. destruct (pair_text_tokens ps s H) as (A & ts & Sg & E & _). destruct (one_level_of s ts A Sg) as (t & -> & Et). cbn [rbind]. unfold tokenize_pair_string. rewrite Et. exact E.
  Qed.

  (** ** String pairs *)
  Lemma text_before_tokens xs t r ts : text_before one ms eps xs t r -> all_one one r -> sg r ts -> all_one one t /\ exists us, Forall2 reads us xs /\ sg (t ++ r) (us ++ ts).
  Proof.
    intros H Ar Sr. induction H as [r|x t xs u r Hx Hu IH].
    - split; [apply all_one_nil|]. exists []. split; [constructor|exact Sr].
    - destruct (IH Ar Sr) as (Au & us & Fu & Su). assert (Aur : all_one one (u ++ r)) by (apply all_one_app; assumption). destruct (spelled_reads false x t (u ++ r) (us ++ ts) Hx Aur Su) as (At & w & Rw & [K|(K & _)]); [|discriminate K].
      split; [apply all_one_app; assumption|]. exists (w :: us). split; [constructor; assumption|]. rewrite <- app_assoc. exact K.
  Qed.
  Lemma zip_read us xs : Forall2 reads us xs -> forall vs ys, Forall2 reads vs ys -> exists ps, zip_pairs eps us vs = Ok ps /\
    map fst ps = xs ++ repeat EPSILON_SYMBOL (length ys - length xs) /\ map snd ps = ys ++ repeat EPSILON_SYMBOL (length xs - length ys).
  Proof.
    induction 1 as [|u x us xs Ru Fu IH]; intros vs ys Fv.
    - induction Fv as [|v y vs ys Rv Fv IHv]; [exists []; split; [reflexivity|split; reflexivity]|]. destruct IHv as (ps & E & E1 & E2). exists ((EPSILON_SYMBOL, y) :: ps). cbn [zip_pairs] in *. rewrite (rd_half v y Rv), E. cbn [rbind rmap].
      split; [reflexivity|]. cbn [map fst snd length]. rewrite E1, E2. cbn [Nat.sub app]. rewrite Nat.sub_0_r. split; reflexivity.
    - destruct Fv as [|v y vs ys Rv Fv].
      + destruct (IH [] [] (Forall2_nil _)) as (ps & E & E1 & E2). exists ((x, EPSILON_SYMBOL) :: ps). cbn [zip_pairs]. rewrite (rd_half u x Ru), E. cbn [rbind rmap]. split; [reflexivity|]. cbn [map fst snd length]. rewrite E1, E2. cbn [Nat.sub app]. rewrite Nat.sub_0_r. split; reflexivity.
      + destruct (IH vs ys Fv) as (ps & E & E1 & E2). exists ((x, y) :: ps). cbn [zip_pairs]. destruct (rd_single u x Ru) as (a & -> & <-), (rd_single v y Rv) as (b & -> & <-). cbn [rbind]. rewrite E. cbn [rbind rmap]. split; [reflexivity|]. cbn [map fst snd length Nat.sub app]. rewrite E1, E2. split; reflexivity.
  Qed.
  Lemma at_col_none us xs : Forall2 reads us xs -> at_col us = None.
  Proof. induction 1 as [|u x us xs Ru Fu IH]; [reflexivity|]. cbn [at_col]. rewrite IH. destruct (bstr_eqb u COL) eqn:E; [apply bstr_eqb_eq in E; destruct (rd_col u x Ru E)|reflexivity]. Qed.
  Lemma at_col_some us xs vs : Forall2 reads us xs -> at_col (us ++ COL :: vs) = Some (us, vs).
  Proof. induction 1 as [|u x us xs Ru Fu IH]; [reflexivity|]. cbn [at_col app]. rewrite IH. destruct (bstr_eqb u COL) eqn:E; [apply bstr_eqb_eq in E; destruct (rd_col u x Ru E)|reflexivity]. Qed.
  Lemma string_pair_read xs ys s u : text_before one ms eps xs s (colon ++ u) -> text_before one ms eps ys u [] ->
    exists ps, rbind (new_tokenizer gr valid ms eps) (fun t => tokenize_string_pair gr valid eps t (s ++ colon ++ u) false) = Ok ps /\
    map fst ps = xs ++ repeat EPSILON_SYMBOL (length ys - length xs) /\ map snd ps = ys ++ repeat EPSILON_SYMBOL (length xs - length ys).
  Proof.
    intros Hs Hu. destruct (text_before_tokens ys u [] [] Hu all_one_nil (seg_nil _ _)) as (Au & vs & Fv & Sv). rewrite !app_nil_r in Sv. pose proof (seg_colon u vs Au Sv) as Sc.
    assert (Ac : all_one one (colon ++ u)) by (apply all_one_app; [apply all_one_char; exact (proj1 (i_marks _ _ _ I))|exact Au]). destruct (text_before_tokens xs s _ _ Hs Ac Sc) as (As & us & Fu & Su).
    destruct (one_level_of _ _ (all_one_app _ _ As Ac) Su) as (t & -> & Et). cbn [rbind]. unfold tokenize_string_pair. rewrite Et. cbn [rbind]. rewrite (at_col_some us xs vs Fu). apply zip_read; assumption.
  Qed.
  Lemma string_read xs s : text_before one ms eps xs s [] -> rbind (new_tokenizer gr valid ms eps) (fun t => tokenize_string_pair gr valid eps t s false) = Ok (map (fun x => (x, x)) xs).
  Proof.
    intros Hs. destruct (text_before_tokens xs s [] [] Hs all_one_nil (seg_nil _ _)) as (As & us & Fu & Su). rewrite !app_nil_r in Su. destruct (one_level_of _ _ As Su) as (t & -> & Et). cbn [rbind]. unfold tokenize_string_pair. rewrite Et. cbn [rbind]. rewrite (at_col_none us xs Fu).
    destruct (zip_read us xs Fu us xs Fu) as (ps & -> & E1 & E2). rewrite Nat.sub_diag in E1, E2. cbn [repeat] in E1, E2. rewrite app_nil_r in E1, E2. f_equal. revert ps E1 E2. clear. induction xs as [|x xs IH]; intros [|[a b] ps] E1 E2; cbn in *; try discriminate; [reflexivity|].
    injection E1 as -> E1. injection E2 as -> E2. rewrite (IH ps E1 E2). reflexivity.
  Qed.

  (** ** Spaces between symbols *)
  Inductive unit_ := UChar (c : bstr) | UEsc (c : bstr) | USpace | UColon.
  Definition utext (u : unit_) : bstr := match u with UChar c => c | UEsc c => BACKSLASH ++ c | USpace => SPACE | UColon => COL end.
  Definition ok_unit (u : unit_) : Prop :=
    match u with UChar c => one c /\ c <> SPACE /\ c <> COL /\ c <> BACKSLASH | UEsc c => In c [COL; SPACE; BACKSLASH] | _ => True end.
  Definition separator (u : unit_) : bool := match u with USpace | UColon => true | _ => false end.
  Definition utexts (us : list unit_) : bstr := concat (map utext us).
  Hypothesis NS : forall w, In w (words ms eps) -> ~ In " "%char w.
  Lemma in_word_char w c b r : In w (words ms eps) -> w = c ++ r -> one c -> In b w -> c = [b] -> In b w.
  Proof. auto. Qed.
  Lemma units_all_one us : Forall ok_unit us -> all_one one (utexts us).
  Proof.
    destruct (i_marks _ _ _ I) as (O1 & O2 & O3). induction 1 as [|u us Hu _ IH]; [apply all_one_nil|]. unfold utexts. cbn [map concat]. apply all_one_app; [|exact IH]. destruct u as [c|c| |]; cbn [utext ok_unit] in *.
    - apply all_one_char. tauto.
    - apply all_one_app; [apply all_one_char; exact O2|]. apply all_one_char. destruct Hu as [<-|[<-|[<-|[]]]]; assumption.
    - apply all_one_char. exact O3.
    - apply all_one_char. exact O1.
  Qed.
  (** A word at the start of a text of units takes whole units, none of them a separator. *)
  Lemma word_units cs : Forall one cs -> ~ In ":"%char (concat cs) -> ~ In "\"%char (concat cs) -> ~ In " "%char (concat cs) -> forall us r, Forall ok_unit us -> utexts us = concat cs ++ r ->
    exists vs us', us = vs ++ us' /\ utexts vs = concat cs /\ r = utexts us' /\ Forall (fun u => separator u = false) vs.
  Proof.
    induction 1 as [|c cs Oc F IH]; intros NC NB NSp us r Hu E.
    - exists [], us. cbn in E. split; [reflexivity|]. split; [reflexivity|]. split; [symmetry; exact E|constructor].
    - cbn [concat] in *. rewrite in_app_iff in NC, NB, NSp. destruct (i_marks _ _ _ I) as (O1 & O2 & O3). destruct us as [|u us]; [unfold utexts in E; cbn in E; destruct c; [destruct (utf8_char_nonempty _ (proj1 (i_char _ _ _ I _ Oc)) eq_refl)|discriminate E]|].
      inversion Hu as [|? ? Hu1 Hu2]; subst. unfold utexts in E. cbn [map concat] in E. rewrite <- app_assoc in E.
      assert (K : forall d q, one d -> utext u = d ++ q -> d = c /\ utext u ++ concat (map utext us) = c ++ q ++ concat (map utext us)).
      { intros d q Od Eu. rewrite Eu in *. rewrite <- app_assoc in E. destruct (utf8_char_prefix d c _ _ (proj1 (i_char _ _ _ I d Od)) (proj1 (i_char _ _ _ I c Oc)) E) as (-> & _). split; [reflexivity|rewrite <- app_assoc; reflexivity]. }
      destruct u as [d|d| |]; cbn [utext ok_unit] in *.
      + destruct Hu1 as (Od & _). destruct (K d [] Od (eq_sym (app_nil_r d))) as (-> & _). apply app_inv_head in E. destruct (IH ltac:(tauto) ltac:(tauto) ltac:(tauto) us r Hu2 E) as (vs & us' & -> & E1 & E2 & Fs).
        exists (UChar c :: vs), us'. split; [reflexivity|]. split; [unfold utexts in *; cbn [map concat utext]; rewrite E1; reflexivity|]. split; [exact E2|constructor; [reflexivity|exact Fs]].
      + destruct (K BACKSLASH d O2 eq_refl) as (<- & _). destruct NB. left. left. reflexivity.
      + destruct (K SPACE [] O3 eq_refl) as (<- & _). destruct NSp. left. left. reflexivity.
      + destruct (K COL [] O1 eq_refl) as (<- & _). destruct NC. left. left. reflexivity.
  Qed.
  Lemma units_grouped s ts : sg s ts -> forall us, Forall ok_unit us -> s = utexts us ->
    exists gs, ts = map utexts gs /\ us = concat gs /\ Forall (fun g => g = [USpace] \/ g = [UColon] \/ (g <> [] /\ Forall (fun u => separator u = false) g)) gs.
  Proof.
    destruct (i_marks _ _ _ I) as (O1 & O2 & O3). assert (UN : forall u, ok_unit u -> utext u <> []) by (intros [c|c| |] Hu; cbn [utext ok_unit] in *; try discriminate; apply utf8_char_nonempty; exact (proj1 (i_char _ _ _ I c (proj1 Hu)))).
    induction 1 as [|w r ts Hw Hr IH|c r ts Hn Hc Hr IH]; intros us Hu E.
    - destruct us as [|u us]; [exists []; split; [reflexivity|]; split; [reflexivity|constructor]|]. inversion Hu as [|? ? Hu1 _]; subst. unfold utexts in E. cbn [map concat] in E. symmetry in E. apply app_eq_nil in E. destruct (UN u Hu1 (proj1 E)).
    - destruct Hw as (Sw & _ & _). apply sg_symbol in Sw. assert (D : exists vs us', us = vs ++ us' /\ utexts vs = w /\ r = utexts us' /\ vs <> [] /\ Forall (fun u => separator u = false) vs).
      { pose proof (proj1 (symbol_all_one ms w incl_all Sw)) as Nw. destruct (symbol_backslash ms w Sw incl_all) as [Hw2|(x & -> & Hx)].
        - destruct (o_chars _ _ _ O w Hw2) as (_ & (cs & F & ->) & C & K). destruct (word_units cs F C K (NS _ Hw2) us r Hu (eq_sym E)) as (vs & us' & E1 & E2 & E3 & Fs). exists vs, us'. repeat (split; [assumption|]). split; [|exact Fs]. intros ->. apply Nw. rewrite <- E2. reflexivity.
        - destruct us as [|u us]; [discriminate E|]. inversion Hu as [|? ? Hu1 Hu2]; subst. unfold utexts in E. cbn [map concat] in E. rewrite <- app_assoc in E.
          assert (K : forall d q, one d -> utext u = d ++ q -> d = BACKSLASH). { intros d q Od Eu. rewrite Eu, <- app_assoc in E. symmetry. exact (proj1 (utf8_char_prefix BACKSLASH d _ _ (proj1 (i_char _ _ _ I _ O2)) (proj1 (i_char _ _ _ I d Od)) E)). }
          destruct u as [d|d| |]; cbn [utext ok_unit] in *.
          + destruct (proj2 (proj2 (proj2 Hu1))). exact (K d [] (proj1 Hu1) (eq_sym (app_nil_r d))).
          + rewrite <- app_assoc in E. apply app_inv_head in E. assert (Od : one d) by (destruct Hu1 as [<-|[<-|[<-|[]]]]; assumption).
            assert (Ex : x = d).
            { assert (W : forall y, In y (words ms eps) -> prefix_of y (x ++ r) -> False).
              { intros y Hy (q & Eq). destruct (word_char y Hy) as (c & r' & Ey & Oc & _). destruct (o_chars _ _ _ O y Hy) as (_ & _ & C & Bk). rewrite Eq, Ey, <- app_assoc in E. destruct (utf8_char_prefix c d _ _ (proj1 (i_char _ _ _ I c Oc)) (proj1 (i_char _ _ _ I d Od)) E) as (-> & _).
                pose proof (NS y Hy) as N3. rewrite Ey in C, Bk, N3. destruct Hu1 as [<-|[<-|[<-|[]]]]; [apply C|apply N3|apply Bk]; left; reflexivity. }
              destruct Hx as [Hx|[Hx|(m & Hm & ->)]].
              - assert (Ox : one x) by (destruct Hx as [<-|[<-|[<-|[]]]]; assumption). exact (proj1 (utf8_char_prefix x d _ _ (proj1 (i_char _ _ _ I x Ox)) (proj1 (i_char _ _ _ I d Od)) E)).
              - exfalso. apply (W x); [destruct Hx as [<-|[<-|[]]]; [exact in_eps|exact in_space]|exists r; reflexivity].
              - destruct (word_char m (in_ms m Hm)) as (c & r' & Em & Oc & _ & Eh). rewrite Eh in *. exact (proj1 (utf8_char_prefix c d _ _ (proj1 (i_char _ _ _ I c Oc)) (proj1 (i_char _ _ _ I d Od)) E)). }
            subst x. apply app_inv_head in E. exists [UEsc d], us. split; [reflexivity|]. split; [unfold utexts; cbn [map concat utext]; apply app_nil_r|]. split; [exact E|]. split; [discriminate|constructor; [reflexivity|constructor]].
          + discriminate (K SPACE [] O3 eq_refl).
          + discriminate (K COL [] O1 eq_refl). }
      destruct D as (vs & us' & -> & <- & Er & Nv & Fs). apply Forall_app in Hu. destruct (IH us' (proj2 Hu) Er) as (gs & -> & -> & Fg). exists (vs :: gs). split; [reflexivity|]. split; [reflexivity|]. constructor; [right; right; auto|exact Fg].
    - destruct Hc as (Lc & Nc). destruct us as [|u us]; [unfold utexts in E; cbn in E; apply app_eq_nil in E; destruct (Nc (proj1 E))|]. inversion Hu as [|? ? Hu1 Hu2]; subst. unfold utexts in E. cbn [map concat] in E. fold (utexts us) in E.
      assert (K : one (utext u) -> c = utext u /\ r = utexts us).
      { intros Ou. assert (L : length c = length (utext u)) by (rewrite Lc, E; apply (i_one _ _ _ I _ _ Ou); apply units_all_one; exact Hu2). clear - E L. revert L E. generalize (utext u). induction c as [|x c IHc]; intros [|y v] L E; cbn in *; try lia; [auto|]. injection E as <- E. destruct (IHc v) as (-> & ->); auto. }
      assert (D : c = utext u /\ r = utexts us /\ (u = USpace \/ u = UColon \/ separator u = false)).
      { destruct u as [d|d| |]; cbn [utext ok_unit] in *.
        - destruct (K (proj1 Hu1)) as (A1 & A2). auto.
        - exfalso. apply (Hn (BACKSLASH ++ d)); [|rewrite E; exists (utexts us); reflexivity]. apply symbol_sg. apply sy_mark. exact Hu1.
        - destruct (K O3) as (A1 & A2). auto.
        - destruct (K O1) as (A1 & A2). auto. }
      destruct D as (-> & Er & Hsep). destruct (IH us Hu2 Er) as (gs & -> & -> & Fg). exists ([u] :: gs). split; [cbn [map]; unfold utexts at 2; cbn [map concat]; rewrite app_nil_r; reflexivity|]. split; [reflexivity|]. constructor; [|exact Fg].
      destruct Hsep as [->|[->|Hsep]]; [left; reflexivity|right; left; reflexivity|right; right; split; [discriminate|constructor; [exact Hsep|constructor]]].
  Qed.
  Fixpoint split_units (symbol : bstr) (us : list unit_) : list bstr :=
    match us with
    | [] => match symbol with [] => [] | _ => [symbol] end
    | USpace :: us' => match symbol with [] => split_units [] us' | _ => symbol :: split_units [] us' end
    | UColon :: us' => match symbol with [] => COL :: split_units [] us' | _ => symbol :: COL :: split_units [] us' end
    | u :: us' => split_units (symbol ++ utext u) us'
    end.
  Lemma split_units_app vs : Forall (fun u => separator u = false) vs -> forall symbol us, split_units symbol (vs ++ us) = split_units (symbol ++ utexts vs) us.
  Proof.
    induction 1 as [|u vs Hs _ IH]; intros symbol us; [unfold utexts; cbn; rewrite app_nil_r; reflexivity|]. unfold utexts in *. cbn [map concat app]. destruct u; try discriminate Hs; cbn [split_units]; rewrite IH, <- app_assoc; reflexivity.
  Qed.
  Lemma split_grouped gs : Forall ok_unit (concat gs) -> Forall (fun g => g = [USpace] \/ g = [UColon] \/ (g <> [] /\ Forall (fun u => separator u = false) g)) gs ->
    forall symbol, split_tokens symbol (map utexts gs) = split_units symbol (concat gs).
  Proof.
    intros Hu F. induction F as [|g gs Hg F IH]; intros symbol; [reflexivity|]. cbn [map split_tokens concat] in *. apply Forall_app in Hu. destruct Hu as (Hg1 & Hu). destruct Hg as [->|[->|(Ng & Hs)]].
    - change (utexts [USpace]) with SPACE. rewrite bstr_eqb_refl. cbn [app split_units]. destruct symbol; rewrite (IH Hu); reflexivity.
    - change (utexts [UColon]) with COL. change (bstr_eqb COL SPACE) with false. cbv iota. rewrite bstr_eqb_refl. cbn [app split_units]. destruct symbol; rewrite (IH Hu); reflexivity.
    - rewrite (split_units_app g Hs). assert (K : utexts g <> SPACE /\ utexts g <> COL).
      { destruct g as [|u g]; [congruence|]. inversion Hg1 as [|? ? Hu1 Hu2]; inversion Hs as [|? ? Hs1 Hs2]; subst. unfold utexts. cbn [map concat]. destruct g as [|v g]; cbn [map concat].
        - rewrite app_nil_r. destruct u as [c|c| |]; try discriminate Hs1; cbn [utext ok_unit] in *; [tauto|]. split; intros K; apply (f_equal (@length ascii)) in K; destruct Hu1 as [<-|[<-|[<-|[]]]]; discriminate K.
        - assert (UN : forall u, ok_unit u -> 1 <= length (utext u)). { intros w Hw. destruct w as [c|c| |]; cbn [utext ok_unit] in *; try (cbn; lia). exact (proj1 (utf8_char_short c (proj1 (i_char _ _ _ I c (proj1 Hw))))). }
          inversion Hu2 as [|? ? Hv _]; subst. pose proof (UN u Hu1). pose proof (UN v Hv). split; intros K; apply (f_equal (@length ascii)) in K; rewrite !app_length in K; cbn [length SPACE COL B list_ascii_of_string] in K; lia. }
      destruct (bstr_eqb (utexts g) SPACE) eqn:E1; [apply bstr_eqb_eq in E1; tauto|]. destruct (bstr_eqb (utexts g) COL) eqn:E2; [apply bstr_eqb_eq in E2; tauto|]. apply IH. exact Hu.
  Qed.
  Lemma split_at_spaces_units us : Forall ok_unit us -> exists t, new_tokenizer gr valid ms eps = Ok t /\ split_at_spaces gr valid t (utexts us) = Ok (split_units [] us).
  Proof.
    intros Hu. pose proof (units_all_one us Hu) as A. destruct (seg_exists (all_symbols ms eps) (utexts us) (symbols_good ms incl_all) (proj1 (all_one_utf8 _ A))) as (ts & Sg). destruct (one_level_of _ ts A Sg) as (t & Et & El). exists t. split; [exact Et|].
    unfold split_at_spaces. rewrite El. cbn [rmap rbind]. destruct (units_grouped _ ts Sg us Hu eq_refl) as (gs & -> & -> & Fg). rewrite (split_grouped gs Hu Fg). reflexivity.
  Qed.
End Texts.
