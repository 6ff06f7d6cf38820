(** C78-C80: the lexc compiler. *)
From Verif Require Import Base OrdMap BT_Model BT_Spec Tok_Model Tok_Spec Str_Model Lx_Model Lx_Spec.
From Verif Require Import Lx_Proofs2 Lx_Proofs3 Lx_Proofs4 Lx_Proofs5 Lx_Proofs6 Lx_Proofs7 Lx_Proofs8 Lx_Proofs9.

(** * C78: the compiled lexicon contains exactly the words of the grammar *)
(** Without flags.  A session of calls that builds the grammar [G]; then the transducer
    accepts only pairs that the grammar derives, with their weights, and every derived pair,
    with at most the weight of the derivation.  Conditions: the symbols do not collide with
    the compiler's internal symbols, regular expressions are kept apart by their lexicon and
    continuation, the initial lexicon has an entry. *)
Theorem C78_lexc_partial : forall grapheme valid_utf8 clusters split first ks G c first',
  icu grapheme clusters -> (forall s, utf8 s -> valid_utf8 s = true) ->
  session grapheme valid_utf8 clusters (new_compiler false split, first) ks G (c, first') ->
  Forall usable_entry G -> regexps_apart G -> (exists e, In e G /\ e_lexicon e = initialName c) ->
  exists R, compileLexical grapheme valid_utf8 c = Ok R /\
    (forall x y w, R x y w -> derives G (initialName c) x y w) /\
    (forall x y w, derives G (initialName c) x y w -> exists w', (w' <= w)%Z /\ R x y w').
Proof.
  intros gr u8 cl sp first ks G c f Hi Hu S HU HA Hn. pose proof Hi as [Hgr _].
  pose proof (session_inv gr u8 cl Hi false sp _ _ _ _ S [] (new_inv u8 false sp)) as I. cbn [fst app] in I.
  destruct (compile_total gr u8 false sp c G Hgr Hu I) as [P EP].
  pose proof (compile_paths_iff gr u8 Hgr false sp c G I HU Hn P EP) as HP.
  exists (relation P). split; [unfold compileLexical; rewrite EP; cbn [rmap rbind]; rewrite (i_fl _ _ _ _ I); reflexivity|]. split.
  - intros x y w (l & Hl & -> & ->). apply HP in Hl. destruct Hl as (es & w0 & w1 & F & E & Fp & ->).
    exact (final_sound false sp c G I HU HA ltac:(discriminate) es F _ _ _ _ E Fp).
  - intros x y w D. destruct (final_complete false sp c G I HU ltac:(discriminate) _ _ _ _ D) as (es & l & w0 & w1 & F & E & Fp & Kx & Ky & L).
    exists (w0 + w1)%Z. split; [exact L|]. exists l. split; [apply HP; exists es, w0, w1; auto|]. split; symmetry; assumption.
Qed.
Print Assumptions C78_lexc_partial.

(** * C79: the same with flags *)
(** The result differs from the words of the grammar only in flags of lexicon names, and
    the flags that remain only set values. *)
Theorem C79_lexc_flags_partial : forall grapheme valid_utf8 clusters split first ks G c first',
  icu grapheme clusters -> (forall s, utf8 s -> valid_utf8 s = true) ->
  session grapheme valid_utf8 clusters (new_compiler true split, first) ks G (c, first') ->
  Forall usable_entry G -> Forall flag_free G -> regexps_apart G -> (exists e, In e G /\ e_lexicon e = initialName c) ->
  exists R, compileLexical grapheme valid_utf8 c = Ok R /\
    (forall x y w, R x y w -> exists x' y', erased x x' /\ erased y y' /\ derives G (initialName c) x' y' w) /\
    (forall x y w, derives G (initialName c) x y w -> exists x' y' w', erased x' x /\ erased y' y /\ (w' <= w)%Z /\ R x' y' w') /\
    (forall x y w s, R x y w -> In s x \/ In s y -> lexname s -> exists n, s = B "@P.LEXNAME." ++ n ++ B "@").
Proof.
  intros gr u8 cl sp first ks G c f Hi Hu S HU HF HA Hn. pose proof Hi as [Hgr _].
  pose proof (session_inv gr u8 cl Hi true sp _ _ _ _ S [] (new_inv u8 true sp)) as I. cbn [fst app] in I.
  destruct (compile_total gr u8 true sp c G Hgr Hu I) as [P EP].
  pose proof (compile_paths_iff gr u8 Hgr true sp c G I HU Hn P EP) as HP.
  eexists. split; [unfold compileLexical; rewrite EP; cbn [rmap rbind]; rewrite (i_fl _ _ _ _ I); reflexivity|]. split; [|split].
  - intros x y w (x0 & y0 & (l & Hl & -> & ->) & -> & ->). apply HP in Hl. destruct Hl as (es & w0 & w1 & F & E & Fp & ->).
    pose proof (final_sound true sp c G I HU HA (fun _ => HF) es F _ _ _ _ E Fp) as D. unfold keep in D.
    eexists _, _. split; [apply erased_filter; reflexivity|]. split; [apply erased_filter; reflexivity|]. rewrite !filter_flags_nl. exact D.
  - intros x y w D. destruct (final_complete true sp c G I HU (fun _ => HF) _ _ _ _ D) as (es & l & w0 & w1 & F & E & Fp & Kx & Ky & L).
    exists (filter_flags false (strip (map fst l))), (filter_flags false (strip (map snd l))), (w0 + w1)%Z.
    unfold keep in Kx, Ky. split; [apply erased_filter; rewrite filter_flags_nl; auto|]. split; [apply erased_filter; rewrite filter_flags_nl; auto|].
    split; [exact L|]. eexists _, _. split; [|split; reflexivity]. exists l. split; [apply HP; exists es, w0, w1; auto|]. split; reflexivity.
  - intros x y w s (x0 & y0 & (l & Hl & -> & ->) & -> & ->) Hs Ls. apply HP in Hl. destruct Hl as (es & w0 & w1 & F & E & Fp & ->).
    destruct Hs as [Hs|Hs].
    + pose proof (final_positive true G HU (fun _ => HF) fst (fun _ => eq_refl) (or_introl eq_refl) eq_refl _ _ _ _ F Fp false) as Q.
      rewrite Forall_forall in Q. exact (Q s Hs Ls).
    + pose proof (final_positive true G HU (fun _ => HF) snd (fun _ => eq_refl) (or_intror eq_refl) eq_refl _ _ _ _ F Fp false) as Q.
      rewrite Forall_forall in Q. exact (Q s Hs Ls).
Qed.
Print Assumptions C79_lexc_flags_partial.

(** * C80: the initial lexicon *)
(* Only the order of unfolding, for speed. *)
Local Strategy expand [do_call].
(** When no lexicon has been read in the process: Root if it is declared, else the first
    declared lexicon. *)
Theorem C80_initial_lexicon_partial : forall grapheme valid_utf8 clusters flags split ks c first',
  do_calls grapheme valid_utf8 clusters ks (new_compiler flags split, true) = Ok (c, first') ->
  (forall n, ~ In (Initial n) ks) ->
  (In (Lexicon (B "Root")) ks -> initialName c = B "Root") /\
  (~ In (Lexicon (B "Root")) ks -> forall pre n post, ks = pre ++ Lexicon n :: post -> (forall m, ~ In (Lexicon m) pre) -> initialName c = n) /\
  ((forall m, ~ In (Lexicon m) ks) -> initialName c = B "Root").
Proof.
  intros gr u8 cl fl sp ks c f.
  assert (Step : forall k s s', do_call gr u8 cl k s = Ok s' -> (forall n, k <> Initial n) ->
    snd s' = (match k with Lexicon _ => false | _ => snd s end) /\
    initialName (fst s') = match k with Lexicon n => if snd s || bstr_eqb n ROOT then n else initialName (fst s) | _ => initialName (fst s) end).
  { intros k [c0 b] s' H Hk. destruct k as [a|a|n|n|d k w|u l k w|r a k w]; cbn [do_call] in H.
    - injection H as <-. auto.
    - injection H as <-. auto.
    - injection H as <-. cbn [fst snd]. split; [reflexivity|]. unfold setCurrentLexiconName. destruct (b || bstr_eqb n ROOT); [reflexivity|]. destruct (smem _ _ _); reflexivity.
    - contradiction (Hk n eq_refl).
    - apply rmap_ok in H. destruct H as (c1 & E & <-). split; [reflexivity|]. exact (word_initial _ _ _ _ _ _ _ _ E).
    - apply rmap_ok in H. destruct H as (c1 & E & <-). split; [reflexivity|]. exact (pair_initial _ _ _ _ _ _ _ _ _ E).
    - apply rmap_ok in H. destruct H as (c1 & E & <-). split; [reflexivity|]. exact (regex_initial _ _ _ _ _ _ _ _ E). }
  assert (Dec : forall l, In (Lexicon ROOT) l \/ ~ In (Lexicon ROOT) l).
  { induction l as [|k l [IH|IH]]; [right; intros []|left; right; exact IH|]. destruct k as [|?|m|?|?|?|?]; try (right; intros [J|J]; [discriminate|contradiction]).
    destruct (bstr_eq_dec m ROOT) as [->|N]; [left; left; reflexivity|]. right. intros [J|J]; [congruence|contradiction]. }
  assert (Gen : forall ks s s', do_calls gr u8 cl ks s = Ok s' -> (forall n, ~ In (Initial n) ks) ->
    (In (Lexicon ROOT) ks -> initialName (fst s') = ROOT) /\
    (~ In (Lexicon ROOT) ks -> snd s = false -> initialName (fst s') = initialName (fst s)) /\
    (~ In (Lexicon ROOT) ks -> snd s = true -> forall pre n post, ks = pre ++ Lexicon n :: post -> (forall m, ~ In (Lexicon m) pre) -> initialName (fst s') = n) /\
    ((forall m, ~ In (Lexicon m) ks) -> initialName (fst s') = initialName (fst s))).
  { intros ks0. induction ks0 as [|k l IH]; intros s s' H Hk.
    - cbn [do_calls] in H. injection H as <-. split; [intros []|]. split; [auto|]. split; [|auto]. intros _ _ [|] ? ? ?; discriminate.
    - cbn [do_calls] in H. destruct (do_call gr u8 cl k s) as [s1| | |] eqn:E; try discriminate. cbn [rbind] in H.
      destruct (Step k s s1 E) as [E1 E2]; [intros n ->; apply (Hk n); left; reflexivity|].
      destruct (IH s1 s' H) as (I1 & I2 & I3 & I4); [intros n K; apply (Hk n); right; exact K|].
      split; [|split; [|split]].
      + intros [->|K]; [|auto]. destruct (Dec l) as [K|K]; [auto|]. rewrite (I2 K E1), E2. destruct (snd s); reflexivity.
      + intros K Sf. assert (Kl : ~ In (Lexicon ROOT) l) by (intros J; apply K; right; exact J).
        assert (Sf1 : snd s1 = false) by (rewrite E1; destruct k; auto). rewrite (I2 Kl Sf1), E2, Sf. cbn [orb]. destruct k as [|?|n|?|?|?|?]; try reflexivity.
        destruct (bstr_eqb n ROOT) eqn:En; [|reflexivity]. apply bstr_eqb_eq in En. subst n. exfalso. apply K. left. reflexivity.
      + intros K Sf pre n post Eq Hp. assert (Kl : ~ In (Lexicon ROOT) l) by (intros J; apply K; right; exact J). destruct pre as [|k' pre].
        * cbn [app] in Eq. injection Eq as -> ->. rewrite (I2 Kl E1), E2, Sf. reflexivity.
        * cbn [app] in Eq. injection Eq as -> ->. apply (I3 Kl) with (pre := pre) (post := post); [|reflexivity|intros m J; apply (Hp m); right; exact J].
          rewrite E1. destruct k' as [|?|m|?|?|?|?]; auto. exfalso. apply (Hp m). left. reflexivity.
      + intros K. rewrite I4 by (intros m J; apply (K m); right; exact J). rewrite E2. destruct k as [|?|m|?|?|?|?]; auto. exfalso. apply (K m). left. reflexivity. }
  intros H Hk. destruct (Gen ks _ _ H Hk) as (I1 & _ & I3 & I4). cbn [fst snd] in *. split; [exact I1|]. split; [intros K; exact (I3 K eq_refl)|exact I4].
Qed.
Print Assumptions C80_initial_lexicon_partial.

(** ** A concrete grammar for C78 and C79 *)
Definition demo_regex (l : list (bstr * bstr)) (w : Z) : Prop := l = [(B "e", B "e"); (B "s", B "s")] /\ w = 3%Z.
Definition demo_calls : list call :=
  [Alphabet (B "+N"); Lexicon (B "Root"); Pair (B "dog+N") (B "dog") (B "Num") 2; Word (B "cat") (B "Num") 1;
   Lexicon (B "Num"); Word (B "s") (B "#") 0; Regex demo_regex [B "e"; B "s"] (B "#") 1].
Definition demo_grammar : list entry :=
  [Entry (B "Root") (Literal [B "d"; B "o"; B "g"; B "+N"] [B "d"; B "o"; B "g"]) (B "Num") 2;
   Entry (B "Root") (Literal [B "c"; B "a"; B "t"] [B "c"; B "a"; B "t"]) (B "Num") 1;
   Entry (B "Num") (Literal [B "s"] [B "s"]) (B "#") 0;
   Entry (B "Num") (Regexp demo_regex) (B "#") 1].
Definition demo_after (flags : bool) (n : nat) : lexc * bool :=
  match do_calls lead (fun _ => true) (fun _ => []) (firstn n demo_calls) (new_compiler flags true, true) with
  | Ok s => s
  | _ => (new_compiler flags true, true)
  end.
Lemma demo_session flags : session lead (fun _ => true) (fun _ => []) (new_compiler flags true, true) demo_calls demo_grammar (demo_after flags 7).
Proof.
  assert (D : forall n k, nth_error demo_calls n = Some k -> do_call lead (fun _ => true) (fun _ => []) k (demo_after flags n) = Ok (demo_after flags (S n))).
  { intros n k H. do 7 (destruct n as [|n]; [cbn in H; injection H as <-; destruct flags; vm_compute; reflexivity|]). destruct n; discriminate. }
  assert (Sp : forall n, n <= 7 -> split_characters (fst (demo_after flags n)) = true).
  { intros n H. do 8 (destruct n as [|n]; [destruct flags; vm_compute; reflexivity|]). lia. }
  assert (Nm : forall n, 1 < n -> n <= 7 -> name (currentName (fst (demo_after flags n)))).
  { intros n H0 H. do 8 (destruct n as [|n]; [destruct flags; try lia; apply name_checked; vm_compute; reflexivity|]). lia. }
  assert (Eb : forall d f, ends_before lead true d f) by (intros d f; discriminate).
  assert (Cut : forall n ds ts, n <= 7 -> seg_check (symbols (fst (demo_after flags n))) ts = true -> cut_into lead (fun _ => []) (fst (demo_after flags n)) ds (concat ts) ts)
    by (intros n ds ts Hn H; apply seg_checked; [apply Sp; exact Hn|exact H]).
  change (new_compiler flags true, true) with (demo_after flags 0).
  change demo_grammar with ([] ++ [] ++ [nth 0 demo_grammar (Entry [] (Literal [] []) [] 0)] ++ [nth 1 demo_grammar (Entry [] (Literal [] []) [] 0)] ++ [] ++
     [nth 2 demo_grammar (Entry [] (Literal [] []) [] 0)] ++ [nth 3 demo_grammar (Entry [] (Literal [] []) [] 0)] ++ []).
  apply (se_call _ _ _ _ _ _ (demo_after flags 1)); [exact (D 0 _ eq_refl)|apply ad_alphabet|apply plain_checked; reflexivity|].
  apply (se_call _ _ _ _ _ _ (demo_after flags 2)); [exact (D 1 _ eq_refl)|apply ad_lexicon|apply name_checked; reflexivity|].
  apply (se_call _ _ _ _ _ _ (demo_after flags 3)); [exact (D 2 _ eq_refl)| | |].
  { replace (B "Root") with (currentName (fst (demo_after flags 2))) by (destruct flags; vm_compute; reflexivity). apply ad_pair.
    - apply (Cut 2 [B "dog+N"; B "dog"] [B "d"; B "o"; B "g"; B "+N"]); [lia|]. destruct flags; vm_compute; reflexivity.
    - apply (Cut 2 [B "dog+N"; B "dog"] [B "d"; B "o"; B "g"]); [lia|]. destruct flags; vm_compute; reflexivity. }
  { cbn [tame]. rewrite (Sp 2) by lia. split; [split; [apply Nm; lia|apply name_checked; reflexivity]|].
    split; [apply plain_checked; reflexivity|]. split; [apply plain_checked; reflexivity|]. do 4 (split; [apply Eb|]).
    split; apply apart_checked; try (apply Sp; lia); destruct flags; vm_compute; reflexivity. }
  apply (se_call _ _ _ _ _ _ (demo_after flags 4)); [exact (D 3 _ eq_refl)| | |].
  { replace (nth 1 demo_grammar _) with (Entry (currentName (fst (demo_after flags 3))) (Literal [B "c"; B "a"; B "t"] [B "c"; B "a"; B "t"]) (B "Num") 1) by (destruct flags; vm_compute; reflexivity).
    apply ad_word. apply (Cut 3 [B "cat"] [B "c"; B "a"; B "t"]); [lia|]. destruct flags; vm_compute; reflexivity. }
  { cbn [tame]. rewrite (Sp 3) by lia. split; [split; [apply Nm; lia|apply name_checked; reflexivity]|]. split; [apply plain_checked; reflexivity|apply Eb]. }
  apply (se_call _ _ _ _ _ _ (demo_after flags 5)); [exact (D 4 _ eq_refl)|apply ad_lexicon|apply name_checked; reflexivity|].
  apply (se_call _ _ _ _ _ _ (demo_after flags 6)); [exact (D 5 _ eq_refl)| | |].
  { replace (nth 2 demo_grammar _) with (Entry (currentName (fst (demo_after flags 5))) (Literal [B "s"] [B "s"]) (B "#") 0) by (destruct flags; vm_compute; reflexivity).
    apply ad_word. apply (Cut 5 [B "s"] [B "s"]); [lia|]. destruct flags; vm_compute; reflexivity. }
  { cbn [tame]. rewrite (Sp 5) by lia. split; [split; [apply Nm; lia|apply name_checked; reflexivity]|]. split; [apply plain_checked; reflexivity|apply Eb]. }
  apply (se_call _ _ _ _ _ _ (demo_after flags 7)); [exact (D 6 _ eq_refl)| | |constructor].
  { replace (nth 3 demo_grammar _) with (Entry (currentName (fst (demo_after flags 6))) (Regexp demo_regex) (B "#") 1) by (destruct flags; vm_compute; reflexivity). apply ad_regex. }
  { cbn [tame]. split; [split; [apply Nm; lia|apply name_checked; reflexivity]|]. repeat constructor; apply plain_checked; reflexivity. }
Qed.
Definition visible_check (s : bstr) : bool := match s with a :: _ => negb (Ascii.eqb a "@") | [] => true end.
Lemma visible_checked s : visible_check s = true -> visible s /\ ~ lexname s.
Proof. intros H. split; [split; [|split; [|split]]|]; try (intros ->; discriminate); [intros [r ->]; discriminate|intros [r ->]; discriminate|intros [[r ->]|[r ->]]; discriminate]. Qed.
Lemma one_letter (t : bstr) : length t < 12 -> one_zero t.
Proof. intros H a b c ->. rewrite !app_length in H. cbn in H. lia. Qed.
Lemma demo_conditions : Forall usable_entry demo_grammar /\ Forall flag_free demo_grammar /\ regexps_apart demo_grammar.
Proof.
  split; [|split].
  - repeat (apply Forall_cons; [unfold usable_entry; cbn [e_body]; try exact I; split; repeat (apply Forall_cons; [right; split; [apply one_letter; cbn; lia|apply visible_checked; reflexivity]|]); apply Forall_nil|]). apply Forall_nil.
  - repeat (apply Forall_cons; [unfold flag_free; cbn [e_body]|]); [| | |intros l v [-> ->]|apply Forall_nil];
      try split; repeat (apply Forall_cons; [first [apply visible_checked; reflexivity | split; apply visible_checked; reflexivity]|]); apply Forall_nil.
  - intros e f r q He Hf Ee Ef _. repeat (destruct He as [<-|He]; [try discriminate|]); [|destruct He].
    repeat (destruct Hf as [<-|Hf]; [try discriminate|]); [|destruct Hf]. auto.
Qed.
Lemma demo_word : derives demo_grammar (B "Root") [B "d"; B "o"; B "g"; B "+N"; B "s"] [B "d"; B "o"; B "g"; B "s"] 2 /\
  derives demo_grammar (B "Root") [B "c"; B "a"; B "t"; B "e"; B "s"] [B "c"; B "a"; B "t"; B "e"; B "s"] 5.
Proof.
  assert (N : forall s, visible_check s = true -> s <> B "0" -> ~ silent s) by (intros s Hs H0 [->|[->|[->| ->]]]; [contradiction (H0 eq_refl)|discriminate..]).
  assert (DS : forall t ts ss, visible_check t = true -> t <> B "0" -> zeros t = t -> denote ts ss -> denote (t :: ts) (t :: ss)).
  { intros t ts ss H1 H2 E D. rewrite <- E at 2. apply dn_symbol; auto. }
  split.
  - apply (dv_step demo_grammar (Entry (B "Root") (Literal [B "d"; B "o"; B "g"; B "+N"] [B "d"; B "o"; B "g"]) (B "Num") 2) [B "d"; B "o"; B "g"; B "+N"] [B "d"; B "o"; B "g"] 2 [B "s"] [B "s"] 0).
    + left. reflexivity.
    + split; [|split; [|reflexivity]]; repeat (apply DS; [reflexivity|discriminate|reflexivity|]); constructor.
    + apply (dv_step demo_grammar (Entry (B "Num") (Literal [B "s"] [B "s"]) (B "#") 0) [B "s"] [B "s"] 0 [] [] 0); [right; right; left; reflexivity| |apply dv_end].
      split; [|split; [|reflexivity]]; repeat (apply DS; [reflexivity|discriminate|reflexivity|]); constructor.
  - apply (dv_step demo_grammar (Entry (B "Root") (Literal [B "c"; B "a"; B "t"] [B "c"; B "a"; B "t"]) (B "Num") 1) [B "c"; B "a"; B "t"] [B "c"; B "a"; B "t"] 1 [B "e"; B "s"] [B "e"; B "s"] 4).
    + right. left. reflexivity.
    + split; [|split; [|reflexivity]]; repeat (apply DS; [reflexivity|discriminate|reflexivity|]); constructor.
    + apply (dv_step demo_grammar (Entry (B "Num") (Regexp demo_regex) (B "#") 1) [B "e"; B "s"] [B "e"; B "s"] 4 [] [] 0); [right; right; right; left; reflexivity| |apply dv_end].
      exists [(B "e", B "e"); (B "s", B "s")], 3%Z. split; [split; reflexivity|]. split; [|reflexivity]. repeat (apply sd_both; [discriminate|discriminate|]). constructor.
Qed.
Example C78_witness : exists c first',
  icu lead (fun _ => []) /\ session lead (fun _ => true) (fun _ => []) (new_compiler false true, true) demo_calls demo_grammar (c, first') /\
  Forall usable_entry demo_grammar /\ regexps_apart demo_grammar /\ initialName c = B "Root" /\ (exists e, In e demo_grammar /\ e_lexicon e = initialName c) /\
  derives demo_grammar (initialName c) [B "d"; B "o"; B "g"; B "+N"; B "s"] [B "d"; B "o"; B "g"; B "s"] 2.
Proof.
  pose proof (demo_session false) as S. destruct (demo_after false 7) as [c f] eqn:E. exists c, f.
  assert (Ei : initialName c = B "Root") by (apply (f_equal (fun s => initialName (fst s))) in E; cbn [fst] in E; rewrite <- E; vm_compute; reflexivity).
  destruct demo_conditions as (U & F & A). rewrite Ei. split; [exact lead_icu|]. split; [exact S|]. split; [exact U|]. split; [exact A|]. split; [reflexivity|].
  split; [eexists; split; [left; reflexivity|reflexivity]|apply demo_word].
Qed.
Example C79_witness : exists c first',
  icu lead (fun _ => []) /\ session lead (fun _ => true) (fun _ => []) (new_compiler true true, true) demo_calls demo_grammar (c, first') /\
  Forall usable_entry demo_grammar /\ Forall flag_free demo_grammar /\ regexps_apart demo_grammar /\ (exists e, In e demo_grammar /\ e_lexicon e = initialName c) /\
  derives demo_grammar (initialName c) [B "c"; B "a"; B "t"; B "e"; B "s"] [B "c"; B "a"; B "t"; B "e"; B "s"] 5.
Proof.
  pose proof (demo_session true) as S. destruct (demo_after true 7) as [c f] eqn:E. exists c, f.
  assert (Ei : initialName c = B "Root") by (apply (f_equal (fun s => initialName (fst s))) in E; cbn [fst] in E; rewrite <- E; vm_compute; reflexivity).
  destruct demo_conditions as (U & F & A). rewrite Ei. split; [exact lead_icu|]. split; [exact S|]. split; [exact U|]. split; [exact F|]. split; [exact A|].
  split; [eexists; split; [left; reflexivity|reflexivity]|apply demo_word].
Qed.
Example C80_witness : exists c first', do_calls lead (fun _ => true) (fun _ => []) [Lexicon (B "Start"); Word (B "a") (B "#") 0; Lexicon (B "Other")] (new_compiler false true, true) = Ok (c, first') /\ initialName c = B "Start".
Proof. eexists _, _. split; [vm_compute; reflexivity|reflexivity]. Qed.

(** ** What does not hold *)
Definition identical (words : list (list (bstr * bstr))) : bool :=
  forallb (forallb (fun p => bstr_eqb (fst p) (snd p) && negb (bstr_eqb (fst p) EPS))) words.
Lemma identical_words words : identical words = true -> forall v, In v words -> Forall (fun p : bstr * bstr => fst p = snd p /\ fst p <> EPS) v.
Proof.
  unfold identical. intros H v Hv. rewrite forallb_forall in H. specialize (H v Hv). rewrite forallb_forall in H. apply Forall_forall. intros p Hp.
  specialize (H p Hp). apply andb_true_iff in H. destruct H as [H1 H2]. apply bstr_eqb_eq in H1. apply negb_true_iff, bstr_eqb_neq in H2. auto.
Qed.
Lemma word_of_in words s w : word_of words w -> In s w -> existsb (fun v => existsb (bstr_eqb s) (map fst v)) words = true.
Proof.
  intros (v & Hv & ->) Hs. apply existsb_exists. exists v. split; [exact Hv|]. apply existsb_exists. exists s. split; [exact Hs|apply bstr_eqb_eq; reflexivity].
Qed.
Definition one_entry : list call := [Lexicon (B "Root"); Word (B "a") (B "#") 0].
(** The default constructor does not register the lexicon #: nothing is accepted. *)
Theorem C78_default_constructor_refuted :
  exists c first' R, do_calls lead (fun _ => true) (fun _ => []) one_entry (new_default, true) = Ok (c, first') /\
    compileLexical lead (fun _ => true) c = Ok R /\ forall x y w, ~ R x y w.
Proof.
  set (s := match do_calls lead (fun _ => true) (fun _ => []) one_entry (new_default, true) with Ok s => s | _ => (new_default, true) end).
  assert (Es : do_calls lead (fun _ => true) (fun _ => []) one_entry (new_default, true) = Ok s) by (vm_compute; reflexivity).
  set (J := joinerEncode (B "Root")). set (H := joinerEncode (B "#")).
  assert (T1 : tokens lead (fun _ => true) (fst s) false (cc (with_flags (fst s)) (initialName (fst s))) = Ok [(J, J)]) by (vm_compute; reflexivity).
  assert (T2 : tokens lead (fun _ => true) (c1 (with_flags (fst s)) (fst s)) false (nc (with_flags (fst s)) HASH) = Ok [(H, H)]) by (vm_compute; reflexivity).
  assert (T3 : joiner_words lead (fun _ => true) (c1 (with_flags (fst s)) (fst s)) (cc (with_flags (fst s))) (nc (with_flags (fst s))) (lexiconNames (fst s)) = Ok [[(J, J); (J, J)]])
    by (vm_compute; reflexivity).
  destruct (compile_returns _ _ _ _ _ _ T1 T2 T3) as [R ER]. exists (fst s), (snd s), R. split; [rewrite Es; destruct s; reflexivity|]. split; [exact ER|].
  intros x y w HR. destruct (compile_passes _ _ _ _ _ _ _ T1 T2 T3 (identical_words ([[(J, J); (J, J)]]) ltac:(vm_compute; reflexivity)) ER x y w HR) as (l & v & _ & Q).
  assert (K : In H (strip (map snd [(J, J)] ++ map (substitute small_substitutions) (map snd l) ++ map snd [(H, H)]))).
  { unfold strip. apply filter_In. split; [|vm_compute; reflexivity]. apply in_or_app. right. apply in_or_app. right. left. reflexivity. }
  destruct (passes_in _ _ _ _ Q K) as [V|(w0 & W0 & I0)]; [vm_compute in V; discriminate|]. pose proof (word_of_in _ _ _ W0 I0) as B. vm_compute in B. discriminate.
Qed.
Print Assumptions C78_default_constructor_refuted.

Lemma star_first (A : wlang) l w : w_star A l w -> l = [] \/ exists l1 w1 l2, A l1 w1 /\ l = l1 ++ l2.
Proof. intros H. destruct H as [|l1 w1 l2 w2 H1 H2]; [left; reflexivity|right; exists l1, w1, l2; auto]. Qed.
(** A grammar whose first lexicon is A, compiled after another one in the same process: the
    initial lexicon is Root, which does not exist. *)
Definition second_grammar : list call := [Lexicon (B "A"); Word (B "a") (B "#") 0].
Theorem C80_second_grammar_refuted :
  exists c0 first c first' R,
    do_calls lead (fun _ => true) (fun _ => []) one_entry (new_compiler false true, true) = Ok (c0, first) /\
    do_calls lead (fun _ => true) (fun _ => []) second_grammar (new_compiler false true, first) = Ok (c, first') /\
    initialName c = B "Root" /\ compileLexical lead (fun _ => true) c = Ok R /\ forall x y w, ~ R x y w.
Proof.
  set (s := match do_calls lead (fun _ => true) (fun _ => []) second_grammar (new_compiler false true, false) with Ok s => s | _ => (new_default, true) end).
  assert (Es : do_calls lead (fun _ => true) (fun _ => []) second_grammar (new_compiler false true, false) = Ok s) by (vm_compute; reflexivity).
  set (J := joinerEncode (B "A")). set (H := joinerEncode (B "#")). set (start := map (fun b => ([b] : bstr, [b] : bstr)) (joinerEncode (B "Root"))).
  assert (T1 : tokens lead (fun _ => true) (fst s) false (cc (with_flags (fst s)) (initialName (fst s))) = Ok start) by (vm_compute; reflexivity).
  assert (T2 : tokens lead (fun _ => true) (c1 (with_flags (fst s)) (fst s)) false (nc (with_flags (fst s)) HASH) = Ok [(H, H)]) by (vm_compute; reflexivity).
  assert (T3 : joiner_words lead (fun _ => true) (c1 (with_flags (fst s)) (fst s)) (cc (with_flags (fst s))) (nc (with_flags (fst s))) (lexiconNames (fst s)) = Ok [[(H, H); (H, H)]; [(J, J); (J, J)]])
    by (vm_compute; reflexivity).
  destruct (compile_returns _ _ _ _ _ _ T1 T2 T3) as [R ER].
  eexists _, _, (fst s), (snd s), R. split; [vm_compute; reflexivity|]. split; [rewrite Es; destruct s; reflexivity|]. split; [vm_compute; reflexivity|]. split; [exact ER|].
  intros x y w HR. destruct (compile_passes _ _ _ _ _ _ _ T1 T2 T3 (identical_words ([[(H, H); (H, H)]; [(J, J); (J, J)]]) ltac:(vm_compute; reflexivity)) ER x y w HR) as (l & v & S & Q).
  set (W := word_of [[(H, H); (H, H)]; [(J, J); (J, J)]]) in *.
  assert (HW : forall w, W w -> w = [H; H] \/ w = [J; J]) by (intros w0 (v0 & [<-|[<-|[]]] & ->); auto).
  assert (Peel : forall bs o, passes W (fun y => hidden_symbol y = false) (map (fun b : ascii => [b]) bs ++ o) -> passes W (fun y => hidden_symbol y = false) o).
  { induction bs as [|b bs IH]; intros o Qb; [exact Qb|]. cbn [map app] in Qb. apply passes_head in Qb; [apply IH; tauto|].
    intros w0 r Hw E. destruct (HW w0 Hw) as [-> | ->]; discriminate. }
  rewrite strip_app in Q. assert (Est : strip (map snd start) = map (fun b : ascii => [b]) (joinerEncode (B "Root"))) by (vm_compute; reflexivity).
  rewrite Est in Q. apply Peel in Q.
  assert (Two : forall o z, passes W (fun y => hidden_symbol y = false) (z :: o) -> z = H \/ z = J -> exists o', o = z :: o').
  { intros o z Qz Hz. remember (z :: o) as zo eqn:E. revert E. induction Qz as [|w0 o0 Hw Qz IH|y0 o0 Hy Qz IH]; intros E; [discriminate| |].
    - destruct (HW w0 Hw) as [-> | ->]; cbn [app] in E; injection E as E1 E2; subst; eauto.
    - injection E as -> ->. destruct Hz as [-> | ->]; vm_compute in Hy; discriminate. }
  destruct (star_first _ _ _ S) as [->|(l1 & w1 & l2 & A1 & ->)].
  - change (strip (map (substitute small_substitutions) (map snd []) ++ map snd [(H, H)])) with [H] in Q. destruct (Two [] H Q (or_introl eq_refl)) as [o' E]. discriminate.
  - assert (Et : disjuncts empty_graph [([(J, J); (B "a", B "a"); (H, H)], 0%Z)] = Ok (stringsTrie (fst s))) by (vm_compute; reflexivity).
    apply (trie_entries _ _ Et) in A1; [|repeat constructor; cbn; discriminate]. destruct A1 as [[A1|[]] _]. injection A1 as <- <-.
    cbn [map app snd] in Q. replace (substitute small_substitutions J) with J in Q by (vm_compute; reflexivity).
    replace (substitute small_substitutions (B "a")) with (B "a") in Q by (vm_compute; reflexivity). 
    unfold strip in Q. cbn [filter] in Q. replace (bstr_eqb J EPS) with false in Q by (vm_compute; reflexivity). cbn [negb] in Q.
    destruct (Two _ J Q (or_intror eq_refl)) as [o' E]. replace (bstr_eqb (B "a") EPS) with false in E by (vm_compute; reflexivity). cbn [negb] in E. discriminate.
Qed.
Print Assumptions C80_second_grammar_refuted.

(** With flags, the entries of a lexicon that is declared NoFlags are lost. *)
Definition noflag_grammar : list call :=
  [NoFlag (B "B"); Lexicon (B "Root"); Word (B "a") (B "B") 0; Lexicon (B "B"); Word (B "b") (B "#") 0].
Theorem C79_noflags_refuted :
  exists c first' R, do_calls lead (fun _ => true) (fun _ => []) noflag_grammar (new_compiler true true, true) = Ok (c, first') /\
    compileLexical lead (fun _ => true) c = Ok R /\ forall x y w, ~ R x y w.
Proof.
  set (s := match do_calls lead (fun _ => true) (fun _ => []) noflag_grammar (new_compiler true true, true) with Ok s => s | _ => (new_default, true) end).
  assert (Es : do_calls lead (fun _ => true) (fun _ => []) noflag_grammar (new_compiler true true, true) = Ok s) by (vm_compute; reflexivity).
  set (P := cc true (B "Root")). set (N := nc true (B "Root")). set (H := nc true (B "#")). set (H0 := cc true (B "#")). set (J := joinerEncode (B "B")).
  set (bw := map (fun b => ([b], [b])) (cc true (B "B") ++ nc true (B "B"))).
  set (words := [[(H0, H0); (H, H)]; bw; [(P, P); (N, N)]]).
  assert (T1 : tokens lead (fun _ => true) (fst s) false (cc (with_flags (fst s)) (initialName (fst s))) = Ok [(P, P)]) by (vm_compute; reflexivity).
  assert (T2 : tokens lead (fun _ => true) (c1 (with_flags (fst s)) (fst s)) false (nc (with_flags (fst s)) HASH) = Ok [(H, H)]) by (vm_compute; reflexivity).
  assert (T3 : joiner_words lead (fun _ => true) (c1 (with_flags (fst s)) (fst s)) (cc (with_flags (fst s))) (nc (with_flags (fst s))) (lexiconNames (fst s)) = Ok words)
    by (vm_compute; reflexivity).
  destruct (compile_returns _ _ _ _ _ _ T1 T2 T3) as [R ER]. exists (fst s), (snd s), R. split; [rewrite Es; destruct s; reflexivity|]. split; [exact ER|].
  intros x y w HR. destruct (compile_passes _ _ _ _ _ _ _ T1 T2 T3 (identical_words (words) ltac:(vm_compute; reflexivity)) ER x y w HR) as (l & v & S & Q).
  destruct (star_first _ _ _ S) as [->|(l1 & w1 & l2 & A1 & ->)].
  - change (strip (map snd [(P, P)] ++ map (substitute small_substitutions) (map snd []) ++ map snd [(H, H)])) with [P; H] in Q.
    remember [P; H] as o eqn:E. revert E. induction Q as [|w0 o0 (v0 & Hv & ->) Q IH|y0 o0 Hy Q IH]; intros E; [discriminate| |].
    + destruct Hv as [<-|[<-|[<-|[]]]]; [discriminate|discriminate|]. cbn [map app fst] in E. injection E as E1 _. vm_compute in E1. discriminate.
    + injection E as -> ->. vm_compute in Hy. discriminate.
  - assert (Et : disjuncts empty_graph [([(N, N); (B "a", B "a"); (J, J)], 0%Z); ([(J, J); (B "b", B "b"); (H0, H0)], 0%Z)] = Ok (stringsTrie (fst s))) by (vm_compute; reflexivity).
    apply (trie_entries _ _ Et) in A1; [|repeat constructor; cbn; discriminate].
    assert (K : In (J, J) l1) by (destruct A1 as [[A1|[A1|[]]] _]; injection A1 as <- _; cbn; auto).
    assert (K2 : In J (strip (map snd [(P, P)] ++ map (substitute small_substitutions) (map snd (l1 ++ l2)) ++ map snd [(H, H)]))).
    { unfold strip. apply filter_In. split; [|vm_compute; reflexivity]. apply in_or_app. right. apply in_or_app. left. apply in_map_iff. exists J. split; [vm_compute; reflexivity|].
      apply in_map_iff. exists (J, J). split; [reflexivity|]. apply in_or_app. left. exact K. }
    destruct (passes_in _ _ _ _ Q K2) as [V|(w0 & W0 & I0)]; [vm_compute in V; discriminate|]. pose proof (word_of_in _ _ _ W0 I0) as B0. vm_compute in B0. discriminate.
Qed.
Print Assumptions C79_noflags_refuted.

(** Regular expressions of one lexicon with one continuation are merged: each gets the
    lowest of their weights (hence regexps_apart in C78 and C79). *)
Definition letter (s : bstr) (l : list (bstr * bstr)) (w : Z) : Prop := l = [(s, s)] /\ w = 0%Z.
Definition merged_calls : list call :=
  [Lexicon (B "Root"); Regex (letter (B "a")) [B "a"] (B "#") 1; Regex (letter (B "b")) [B "b"] (B "#") 5].
Definition merged_grammar : list entry :=
  [Entry (B "Root") (Regexp (letter (B "a"))) (B "#") 1; Entry (B "Root") (Regexp (letter (B "b"))) (B "#") 5].
Theorem C78_regexp_weights_refuted :
  exists c first' R, session lead (fun _ => true) (fun _ => []) (new_compiler false true, true) merged_calls merged_grammar (c, first') /\
    compileLexical lead (fun _ => true) c = Ok R /\ R [B "b"] [B "b"] 1%Z /\ ~ derives merged_grammar (initialName c) [B "b"] [B "b"] 1%Z.
Proof.
  set (after := fun n => match do_calls lead (fun _ => true) (fun _ => []) (firstn n merged_calls) (new_compiler false true, true) with Ok s => s | _ => (new_default, true) end).
  assert (D : forall n k, nth_error merged_calls n = Some k -> do_call lead (fun _ => true) (fun _ => []) k (after n) = Ok (after (S n))).
  { intros n k H. do 3 (destruct n as [|n]; [cbn in H; injection H as <-; vm_compute; reflexivity|]). destruct n; discriminate. }
  assert (S : session lead (fun _ => true) (fun _ => []) (new_compiler false true, true) merged_calls merged_grammar (after 3)).
  { change (new_compiler false true, true) with (after 0). set (e1 := Entry (B "Root") (Regexp (letter (B "a"))) (B "#") 1). set (e2 := Entry (B "Root") (Regexp (letter (B "b"))) (B "#") 5).
    change merged_grammar with ([] ++ [e1] ++ [e2] ++ []).
    apply (se_call _ _ _ _ _ _ (after 1)); [exact (D 0 _ eq_refl)|apply ad_lexicon|apply name_checked; reflexivity|].
    apply (se_call _ _ _ _ _ _ (after 2)); [exact (D 1 _ eq_refl)| | |].
    { replace e1 with (Entry (currentName (fst (after 1))) (Regexp (letter (B "a"))) (B "#") 1) by (vm_compute; reflexivity). apply ad_regex. }
    { cbn [tame]. split; [split; apply name_checked; vm_compute; reflexivity|]. repeat constructor; apply plain_checked; reflexivity. }
    apply (se_call _ _ _ _ _ _ (after 3)); [exact (D 2 _ eq_refl)| | |constructor].
    { replace e2 with (Entry (currentName (fst (after 2))) (Regexp (letter (B "b"))) (B "#") 5) by (vm_compute; reflexivity). apply ad_regex. }
    { cbn [tame]. split; [split; apply name_checked; vm_compute; reflexivity|]. repeat constructor; apply plain_checked; reflexivity. } }
  pose proof (session_inv _ _ _ lead_icu false true _ _ _ _ S [] (new_inv (fun _ => true) false true)) as I. cbn [app] in I.
  assert (Ei : initialName (fst (after 3)) = B "Root") by (vm_compute; reflexivity).
  destruct (after 3) as [c f]. cbn [fst] in I, Ei. exists c, f.
  destruct (compile_total lead (fun _ => true) false true c _ (proj1 lead_icu) (fun _ _ => eq_refl) I) as [P EP].
  pose proof (compile_paths_iff lead (fun _ => true) (proj1 lead_icu) false true c _ I) as HP.
  specialize (HP ltac:(repeat constructor)). specialize (HP ltac:(rewrite Ei; eexists; split; [left; reflexivity|reflexivity]) P EP).
  exists (relation P). split; [exact S|]. split; [unfold compileLexical; rewrite EP; cbn [rmap rbind]; rewrite (i_fl _ _ _ _ I); reflexivity|]. split.
  - set (e2 := Entry (B "Root") (Regexp (letter (B "b"))) (B "#") 5).
    exists (both (c_end false (B "Root")) :: both (n_end false (B "Root")) :: [(B "b", B "b")] ++ [both (c_end false HASH); both (n_end false HASH)]).
    split; [|split; vm_compute; reflexivity]. apply HP. exists [e2], 1%Z, 0%Z.
    split; [repeat constructor; right; left; reflexivity|]. split.
    + apply (eo_cons _ false e2 [] 1%Z 0%Z); [|constructor]. apply (trie_accepts _ _ _ _ I). split; [left; reflexivity|].
      intros v [K|[K|[]]]; apply (f_equal snd) in K; cbn in K; lia.
    + rewrite Ei. split; [|reflexivity]. apply (fp_cons false _ e2 [] [(B "b", B "b")] 0%Z _ 0%Z); [|apply fp_nil].
      exists e2, (letter (B "b")). split; [right; left; reflexivity|]. split; [reflexivity|]. split; [reflexivity|]. split; reflexivity.
  - rewrite Ei. intros H. remember (B "Root") as a eqn:Ea. remember [B "b"] as x eqn:Ex. remember 1%Z as w eqn:Ew. destruct H as [|e x1 y1 w1 x2 y2 w2 He Hc Hd]; [discriminate|].
    assert (Ec : e_continuation e = B "#") by (destruct He as [<-|[<-|[]]]; reflexivity). rewrite Ec in Hd.
    assert (En : y2 = [] /\ w2 = 0%Z).
    { remember (B "#") as z eqn:Ez. destruct Hd as [|e' x3 y3 w3 x4 y4 w4 He' Hc' Hd']; [auto|]. exfalso. destruct He' as [<-|[<-|[]]]; discriminate. }
    destruct En as [-> ->]. rewrite app_nil_r in Ex. destruct He as [<-|[<-|[]]]; unfold contributes in Hc; cbn [e_body e_weight] in Hc.
    + destruct Hc as (l & v & [-> ->] & Sd & _). apply sides_strip in Sd. destruct Sd as [_ Sd]. rewrite Ex in Sd. discriminate.
    + destruct Hc as (l & v & [-> ->] & Sd & ->). lia.
Qed.
Print Assumptions C78_regexp_weights_refuted.
