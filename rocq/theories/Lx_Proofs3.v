(** Proofs for lexc, part 3: what the calls of a session collect. *)
From Verif Require Import Base OrdMap BT_Model BT_Spec Tok_Model Tok_Spec Tok_Proofs Str_Model Str_Spec Str_Proofs2 Lx_Model Lx_Spec Lx_Proofs Lx_Proofs2.

(** The label under which an entry is stored. *)
Definition padded (n : nat) (ts : list bstr) : list bstr := ts ++ repeat OTHER_EPS (n - length ts).
Definition body_label (u l : list bstr) : list (bstr * bstr) :=
  combine (map fix_zero (padded (length l) u)) (map fix_zero (padded (length u) l)).
Definition label (fl : bool) (e : entry) : list (bstr * bstr) :=
  (nc fl (e_lexicon e), nc fl (e_lexicon e)) ::
  match e_body e with
  | Literal u l => body_label u l
  | Regexp _ => let k := regex_key (e_lexicon e) (e_continuation e) in [(k, k)]
  end ++ [(cc fl (e_continuation e), cc fl (e_continuation e))].
Definition stored (fl : bool) (e : entry) : list (bstr * bstr) * Z := (label fl e, e_weight e).
Definition e_key (e : entry) : bstr := regex_key (e_lexicon e) (e_continuation e).

Definition good_token (t : bstr) : Prop := plain t /\ t <> [].
Record entry_ok (fl : bool) (c : lexc) (e : entry) : Prop := {
  k_lex : name (e_lexicon e); k_cont : name (e_continuation e);
  k_names : In (e_lexicon e) (lexiconNames c);
  k_nc : In (nc fl (e_lexicon e)) (known c);
  k_cc : In (cc fl (e_continuation e)) (known c);
  k_lc : In (cc fl (e_lexicon e)) (known c);
  k_body : match e_body e with
           | Literal u l => Forall good_token u /\ Forall good_token l
           | Regexp _ => In (e_key e) (known c) end }.
Definition collected (G : list entry) (m : list (bstr * wlang)) : Prop :=
  forall k, match mget bcmp k m with
            | Some L => (exists e r, In e G /\ e_body e = Regexp r /\ e_key e = k) /\
                        forall l v, L l v <-> exists e r, In e G /\ e_body e = Regexp r /\ e_key e = k /\ r l v
            | None => forall e r, In e G -> e_body e = Regexp r -> e_key e <> k
            end.
Record inv (fl sp : bool) (c : lexc) (G : list entry) : Prop := {
  i_fl : with_flags c = fl;
  i_no : fl = true -> noFlags c = [];
  i_sp : split_characters c = sp;
  i_text : forall w, In w (known c) -> text w /\ shape w;
  i_start : incl start_symbols (known c);
  i_alpha : incl (alphabets c) (known c);
  i_names : forall n, In n (lexiconNames c) -> name n;
  i_hash : In HASH (lexiconNames c);
  i_hashcode : fl = false -> In (joinerEncode HASH) (known c);
  i_cur : currentName c = [] \/ (In (currentName c) (lexiconNames c) /\ (fl = true -> In (cc fl (currentName c)) (known c)));
  i_init : name (initialName c);
  i_G : forall e, In e G -> entry_ok fl c e;
  i_trie : disjuncts empty_graph (map (stored fl) G) = Ok (stringsTrie c);
  i_reg : collected G (regexps c) }.

(** Growth of the tokenizer and the alphabet. *)
Record ext (c c' : lexc) : Prop := {
  x_fl : with_flags c' = with_flags c; x_no : noFlags c' = noFlags c; x_sp : split_characters c' = split_characters c;
  x_names : lexiconNames c' = lexiconNames c; x_cur : currentName c' = currentName c; x_init : initialName c' = initialName c;
  x_trie : stringsTrie c' = stringsTrie c; x_reg : regexps c' = regexps c;
  x_known : exists x, known c' = known c ++ x /\ forall w, In w x -> text w /\ shape w;
  x_alpha : incl (alphabets c) (known c) -> incl (alphabets c') (known c') }.
Lemma ext_refl c : ext c c.
Proof. constructor; auto. exists []. split; [symmetry; apply app_nil_r|intros w []]. Qed.
Lemma ext_trans a b c : ext a b -> ext b c -> ext a c.
Proof.
  intros [] []. constructor; try congruence; [|auto].
  destruct x_known0 as (x & Ex & Hx). destruct x_known1 as (y & Ey & Hy). exists (x ++ y). split; [rewrite Ey, Ex, app_assoc; reflexivity|].
  intros w K. apply in_app_or in K. destruct K; auto.
Qed.
Lemma ext_known s c : text s -> shape s -> ext c (add_known s c).
Proof.
  intros T S. constructor; auto; cbn.
  - exists [s]. split; [reflexivity|]. intros w [<-|[]]. auto.
  - intros I w Hw. apply in_or_app. left. auto.
Qed.
Lemma ext_alphabet s c : text s -> shape s -> ext c (addAlphabet s c).
Proof.
  intros T S. constructor; auto; cbn.
  - exists [s]. split; [reflexivity|]. intros w [<-|[]]. auto.
  - intros I w Hw. apply (In_sadd bcmp bcmp_eq) in Hw. apply in_or_app. destruct Hw as [->|Hw]; [right; left; reflexivity|left; auto].
Qed.
Lemma ext_conts n c : ext c (set_conts n c).
Proof. constructor; auto. exists []. split; [symmetry; apply app_nil_r|intros w []]. Qed.
Lemma ext_incl c c' : ext c c' -> incl (known c) (known c').
Proof. intros []. destruct x_known0 as (x & -> & _). intros w Hw. apply in_or_app. auto. Qed.
Lemma ext_inv fl sp c c' G : ext c c' -> inv fl sp c G -> inv fl sp c' G.
Proof.
  intros E I. pose proof (ext_incl _ _ E) as Inc. destruct E as [E1 E2 E3 E4 E5 E6 E7 E8 (x & Ex & Hx) E10]. destruct I.
  constructor; rewrite ?E1, ?E2, ?E3, ?E4, ?E5, ?E6, ?E7, ?E8; auto.
  - intros w Hw. rewrite Ex in Hw. apply in_app_or in Hw. destruct Hw; auto.
  - eapply incl_tran; eauto.
  - destruct i_cur0 as [H|[H K]]; auto.
  - intros e He. destruct (i_G0 e He). constructor; rewrite ?E4; auto. destruct (e_body e); auto.
Qed.
Lemma plain_shape w : plain w -> text w /\ shape w.
Proof. intros [T D]. split; [exact T|left; exact D]. Qed.

(** Notes on symbols *)
Lemma ext_note s c : (quoted "$" s = false -> plain s) -> match note_symbol s c with Some c' => ext c c' | None => True end.
Proof.
  intros H. unfold note_symbol. destruct (smem _ _ _); [apply ext_refl|]. destruct (quoted "@" s); [exact I|].
  destruct (quoted "$" s); [exact I|]. destruct (plain_shape s (H eq_refl)). apply ext_alphabet; auto.
Qed.
Definition noted (p : bstr * bstr) : Prop := (quoted "$" (fst p) = false -> plain (fst p)) /\ (quoted "$" (snd p) = false -> plain (snd p)).
Lemma ext_note_input p c : noted p -> ext c (note_input p c).
Proof. intros [H _]. unfold note_input. pose proof (ext_note (fst p) c H) as K. destruct (note_symbol _ _); [exact K|apply ext_refl]. Qed.
Lemma ext_note_pair p c : noted p -> ext c (note_pair p c).
Proof.
  intros [H H']. unfold note_pair. pose proof (ext_note (fst p) c H) as K. destruct (note_symbol (fst p) c) as [c1|]; [|apply ext_refl].
  pose proof (ext_note (snd p) c1 H') as K1. destruct (note_symbol (snd p) c1); [eapply ext_trans; eauto|exact K].
Qed.
Lemma ext_notes (f : bstr * bstr -> lexc -> lexc) v : (forall p c, noted p -> ext c (f p c)) -> Forall noted v -> forall c, ext c (fold_left (fun c p => f p c) v c).
Proof.
  intros Hf H. induction H as [|p v Hp Hv IH]; intros c; [apply ext_refl|]. cbn [fold_left]. eapply ext_trans; [apply Hf; exact Hp|apply IH].
Qed.

Lemma nc_code fl sp c G n : inv fl sp c G -> name_code c n = nc fl n.
Proof. intros []. unfold name_code, nc. rewrite i_fl0. destruct fl; [rewrite (i_no0 eq_refl); reflexivity|reflexivity]. Qed.
Lemma cc_code fl sp c G n : inv fl sp c G -> cont_code c n = cc fl n.
Proof. intros []. unfold cont_code, cc. rewrite i_fl0. destruct fl; [rewrite (i_no0 eq_refl); reflexivity|reflexivity]. Qed.

Section Entry.
  Variable gr : bstr -> nat.
  Variable u8 : bstr -> bool.
  Variable cl : bstr -> list bstr.
  Hypothesis Hicu : icu gr cl.
  Notation Hgr := (proj1 Hicu).

  Lemma uc_fold gs : Forall plain gs -> forall c, incl (alphabets c) (known c) ->
    let c' := fold_left (fun c g => if smem bcmp g (alphabets c) then c else addAlphabet g c) gs c in
    ext c c' /\ forall w, In w (known c') <-> In w (known c) \/ In w gs.
  Proof.
    induction 1 as [|g gs Hg Hgs IH]; intros c I; cbn [fold_left]; [split; [apply ext_refl|intros w; cbn; tauto]|].
    destruct (smem bcmp g (alphabets c)) eqn:M.
    - destruct (IH c I) as [E K]. split; [exact E|]. intros w. rewrite K. cbn [In]. assert (Hin : In g (known c)) by (apply I; apply (smem_In bcmp bcmp_eq); exact M).
      split; [tauto|]. intros [H|[<-|H]]; auto.
    - destruct (plain_shape g Hg) as [T S]. pose proof (ext_alphabet g c T S) as E1. destruct (IH (addAlphabet g c) (x_alpha _ _ E1 I)) as [E K].
      split; [eapply ext_trans; eauto|]. intros w. rewrite K. unfold addAlphabet, add_known. cbn [known set_known set_alphabets].
      rewrite in_app_iff. cbn [In]. tauto.
  Qed.
  Lemma clusters_plain d : plain d -> Forall plain (cl d).
  Proof.
    intros [[U N] D]. apply Forall_forall. intros w Hw. destruct (proj2 Hicu d w U Hw) as (Uw & _ & a & b & ->).
    repeat split; auto; intros K; [apply N|apply D]; apply in_or_app; right; apply in_or_app; left; exact K.
  Qed.
  Lemma uc_spec d c : plain d -> incl (alphabets c) (known c) ->
    ext c (unicodeCheck cl d c) /\
    forall w, In w (known (unicodeCheck cl d c)) <-> In w (known c) \/ (split_characters c = false /\ In w (cl d)).
  Proof.
    intros P I. unfold unicodeCheck. destruct (split_characters c) eqn:Sp.
    - split; [apply ext_refl|]. intros w. intuition discriminate.
    - destruct (uc_fold (cl d) (clusters_plain d P) c I) as [E K]. split; [exact E|]. intros w. rewrite K. tauto.
  Qed.
  Lemma zero_plain : plain (B "0").
  Proof. split; [atext|nodollar]. Qed.
  Lemma ZERO_plain : plain ZERO.
  Proof. split; [atext|nodollar]. Qed.
  Lemma OTHER_plain : plain OTHER_EPS.
  Proof. split; [atext|nodollar]. Qed.
  Lemma nc_shape fl n : name n -> text (nc fl n) /\ shape (nc fl n).
  Proof. intros H. split; [apply nc_text; exact H|right; left; apply nc_coded; exact H]. Qed.
  Lemma cc_shape fl n : name n -> text (cc fl n) /\ shape (cc fl n).
  Proof. intros H. split; [apply cc_text; exact H|right; left; apply cc_coded; exact H]. Qed.

  Lemma begin_spec fl sp c G k : inv fl sp c G -> name (currentName c) -> name k ->
    ext c (begin_entry k c) /\ known (begin_entry k c) = known c ++ [cc fl k; nc fl (currentName c); B "0"; ZERO].
  Proof.
    intros I Hn Hk. unfold begin_entry.
    assert (I1 : inv fl sp (set_conts (sadd bcmp k (continuations c)) c) G) by (eapply ext_inv; [apply ext_conts|exact I]).
    rewrite (cc_code _ _ _ _ k I1), (nc_code _ _ _ _ (currentName _) I1). cbn [currentName set_conts]. split.
    - destruct (cc_shape fl k Hk), (nc_shape fl _ Hn), (plain_shape _ zero_plain), (plain_shape _ ZERO_plain).
      eapply ext_trans; [|apply ext_known; assumption]. eapply ext_trans; [|apply ext_known; assumption].
      eapply ext_trans; [|apply ext_known; assumption]. eapply ext_trans; [apply ext_conts|apply ext_known; assumption].
    - unfold add_known. cbn [known set_known set_conts]. rewrite <- !app_assoc. reflexivity.
  Qed.

  (** Segmenting data that carries no dollar sign, followed by a code. *)
  Lemma plain_infix a w b : plain (a ++ w ++ b) -> ~ In dollar w.
  Proof. intros [_ D] K. apply D. apply in_or_app. right. apply in_or_app. auto. Qed.
  Lemma seg_body (S : bstr -> Prop) sp d f g ts us : (forall w, S w -> shape w /\ w <> []) -> plain d ->
    segmentation S (character gr sp) d ts -> segmentation S (character gr sp) (dollar :: f) us ->
    ends_before gr sp d (B "$") -> g = dollar :: f ->
    segmentation S (character gr sp) (d ++ g) (ts ++ us).
  Proof.
    intros HS Pd Sd Sf Ed ->. apply seg_app; auto; [intros w Hw; exact (proj2 (HS w Hw))|].
    intros p q E Nq. split.
    - intros w Hw [r P]. destruct (HS w Hw) as [Sh Ne].
      (* no dollar sign in q *)
      assert (Dq : ~ In dollar q) by (intros K; destruct Pd as [_ Pd]; apply Pd; rewrite E; apply in_or_app; auto).
      destruct (Nat.le_gt_cases (length w) (length q)) as [L|L].
      + exists (skipn (length w) q). assert (Ew : firstn (length w) (q ++ dollar :: f) = w) by (rewrite P, firstn_app, firstn_all, Nat.sub_diag; cbn [firstn]; apply app_nil_r).
        rewrite firstn_app in Ew. replace (length w - length q) with 0 in Ew by lia. cbn [firstn] in Ew. rewrite app_nil_r in Ew.
        rewrite <- Ew at 1. symmetry. apply firstn_skipn.
      + exfalso. assert (In dollar w).
        { assert (Nth : nth_error (q ++ dollar :: f) (length q) = Some dollar) by (rewrite nth_error_app2, Nat.sub_diag by lia; reflexivity).
          rewrite P, nth_error_app1 in Nth by lia. eapply nth_error_In; eauto. }
        assert (B0 : exists b, w = dollar :: b).
        { destruct Sh as [K|[(b & -> & _)|(b & ->)]]; [contradiction|eexists; reflexivity|eexists; reflexivity]. }
        destruct B0 as [b ->]. destruct q as [|x q]; [congruence|]. cbn [app] in P. injection P as -> _. apply Dq. left. reflexivity.
    - intros Hsp. exact (Ed Hsp p q f E Nq).
  Qed.
  Lemma seg_end (S : bstr -> Prop) sp w : (forall v, S v -> shape v /\ v <> []) -> coded w -> S w -> segmentation S (character gr sp) w [w].
  Proof. intros HS Hc Hw. rewrite <- (app_nil_r w) at 1. apply seg_code; auto. constructor. Qed.
  Lemma inv_knows fl sp c G w : inv fl sp c G -> knows c w -> shape w /\ w <> [].
  Proof. intros I [N K]. split; [|exact N]. exact (proj2 (i_text _ _ _ _ I w K)). Qed.
  Lemma known_text fl sp c G : inv fl sp c G -> forall w, In w (known c) -> text w.
  Proof. intros I w K. exact (proj1 (i_text _ _ _ _ I w K)). Qed.

  (** What the compiler sees of plain strings. *)
  Lemma knows_sees fl c c' ds k n : name k -> name n ->
    (forall w, In w (known c') <-> (In w (known c) \/ (split_characters c = false /\ exists d, In d ds /\ In w (cl d))) \/ In w [cc fl k; nc fl n; B "0"; ZERO]) ->
    forall w, ~ In dollar w -> (sees cl c ds w <-> knows c' w).
  Proof.
    intros Hk Hn HK w D. unfold sees, knows. rewrite HK. cbn [In].
    assert (w <> cc fl k) by (intros ->; apply D, coded_dollar, cc_coded, Hk).
    assert (w <> nc fl n) by (intros ->; apply D, coded_dollar, nc_coded, Hn).
    change (B "@ZERO@") with ZERO. intuition (subst; congruence || eauto).
  Qed.

  Lemma tokens_good fl sp c G d ts : inv fl sp c G -> plain d -> segmentation (knows c) (character gr sp) d ts -> Forall good_token ts.
  Proof.
    intros I [[U N] D] Sg. pose proof (seg_concat _ _ _ _ _ Sg) as E.
    assert (H1 : Forall (fun t => t <> []) ts) by (eapply seg_nonempty; [exact Sg|intros w Hw; exact (proj1 Hw)]).
    assert (H2 : Forall utf8 ts) by (eapply seg_utf8; [exact Sg|intros w Hw; exact (proj1 (known_text _ _ _ _ I w (proj2 Hw)))|exact U|intros _; exact Hgr]).
    rewrite Forall_forall in *. intros t Ht. split; [|auto]. split; [split; [auto|]|].
    - intros K. apply N. rewrite <- E. apply in_concat. eauto.
    - intros K. apply D. rewrite <- E. apply in_concat. eauto.
  Qed.

  Lemma disjuncts_snoc es : forall g l w, disjuncts g (es ++ [(l, w)]) = rbind (disjuncts g es) (fun g' => disjunct g' l w).
  Proof.
    induction es as [|[l0 w0] es IH]; intros g l w; cbn [app disjuncts rbind].
    - destruct (disjunct g l w); reflexivity.
    - destruct (disjunct g l0 w0); cbn [rbind]; auto.
  Qed.
End Entry.
