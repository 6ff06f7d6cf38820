(** Properties C41 and C66: the spell checker. *)
From Coq Require Import Permutation NArith.
From Verif Require Import Base OrdMap Flags_Model Flags_Spec Flags_Proofs BT_Model BT_Spec OLF_Model OLC_Model OLL_Model OLC_Spec OLC_Props OLL_Spec OLL_Proofs OLL_Proofs2 OLL_Proofs3 OLL_Props Sp_Model Sp_Spec Sp_Proofs Sp_Proofs2 Sp_Proofs3 Sp_Proofs4.
From Verif Require Tok_Spec Tok_Model An_Spec An_Props.

(** The encoder of a transducer that has not been used for lookup. *)
Definition fresh_encoder (tr : transducer) (en : Tok_Model.encoder) : Prop :=
  new_encoder (tr_alphabet tr) (N.to_nat (h_input_symbols (tr_header tr))) = Ok en.
Definition check_word (dec : N -> Z) (tr : transducer) (fuel : nat) (en : Tok_Model.encoder) (s : bstr) : res bool :=
  check dec (tr_alphabet tr) (tr_tables tr) fuel en s.

Lemma check_cases enc dec g weighted tr en s : setting enc dec g weighted tr -> fresh_encoder tr en -> no_nul s -> no_epsilon s ->
  (~ word_of g s /\ forall fuel, check_word dec tr fuel en s = Ok false)
  \/ exists input ts n addr, (forall fuel, check_word dec tr fuel en s = bfs node (visit dec tr input) fuel [n])
     /\ sits tr g addr input n (0, env0, ts) /\ (forall x, In x ts -> input_symbol g x)
     /\ (word_of g s <-> accept config (final_c g) (succ_c g) (0, env0, ts))
     /\ structure_ok g
     /\ forall n c, sits tr g addr input n c -> exists b cs, visit dec tr input n = Ok (b, cs) /\ (b = true <-> final_c g c)
        /\ (b = false -> (forall m, In m cs -> exists c', succ_c g c c' /\ sits tr g addr input m c') /\ (forall c', succ_c g c c' -> exists m, In m cs /\ sits tr g addr input m c')).
Proof.
  intros Se Hen Ns NE. pose proof Se as (_ & _ & _ & _ & _ & SM). destruct (setting_facts _ _ _ _ _ Se) as (addr & R & HS & HA & HW & Hsym & Hsmall & Hdef & Hval & Hin & Hpos).
  pose proof (input_spec dec tr g addr R Hsym Hsmall Hin Hpos en Hen OLF_Model.NO_SYMBOL (length s) s (le_n _) Ns) as I. unfold check_word, check.
  destruct (input_initialize (length s) en s OLF_Model.NO_SYMBOL) as [[input|]| | |]; [| |destruct I|destruct I as (C & _); congruence|destruct I].
  - right. destruct I as (ts & Ht & FT). pose proof (no_epsilon_tokens g s ts NE Ht) as Nts.
    assert (TK : Forall2 (tok tr g) input ts).
    { clear Ht. induction FT as [|k x ks ts H FT IH]; constructor.
      - destruct H as [([Ix|Ex] & E)|(_ & _ & C)]; [split; assumption| |congruence]. exfalso. apply Nts. left. congruence.
      - apply IH. intros C. apply Nts. right. exact C. }
    assert (Its : forall x, In x ts -> input_symbol g x).
    { intros x Hx. destruct (Forall2_In_r _ _ _ _ TK Hx) as (k & _ & _ & H). exact H. }
    exists input, ts, (start_node (tr_alphabet tr)), addr. split; [|split; [|split; [|split; [|split]]]].
    + intros fuel. cbn [rbind]. apply check_loop_bfs.
    + unfold sits, start_node. cbn [n_lexicon n_flags n_input]. split; [symmetry; apply (rep_start _ _ _ _ R)|]. split; [exact (some_state g HS)|].
      split; [exact (fd_env0 dec tr g addr R HA Hsmall Hdef Hin)|]. split; [exact TK|lia].
    + exact Its.
    + rewrite (accept_run g 0 env0 ts Its). split.
      * intros (ts' & r & t & fw & Ht' & _ & L & M). rewrite (tokens_fun dec tr g addr R Hsym Hin Hpos s ts' Ht' ts Ht) in L. eauto.
      * intros (r & t & fw & L & M). exists ts, r, t, fw. auto.
    + exact HS.
    + intros n c. apply (visit_spec dec tr g addr R HS SM HA HW Hsmall Hdef Hval Hin input).
  - left. split; [|intros fuel; reflexivity]. intros (ts & r & t & fw & Ht & Its & _). destruct (I ts Ht) as (_ & x & Hx & C). apply C. left. apply Its, Hx.
Qed.

(** C41: whatever the checker answers is right, for texts without the name of epsilon: true exactly
    for the words of the lexicon. *)
Theorem C41_check_partial : forall enc dec g weighted tr en s fuel b,
  setting enc dec g weighted tr -> fresh_encoder tr en -> no_nul s -> no_epsilon s ->
  check_word dec tr fuel en s = Ok b -> (b = true <-> word_of g s).
Proof.
  intros enc dec g weighted tr en s fuel b Se Hen Ns NE E. destruct (check_cases _ _ _ _ _ _ _ Se Hen Ns NE) as [(NW & K)|(input & ts & n & addr & K & Sn & _ & W & _ & V)].
  - rewrite K in E. injection E as <-. split; [discriminate|contradiction].
  - rewrite K in E. rewrite W.
    assert (G : good node config (sits tr g addr input) [n]) by (intros m [<- |[]]; eauto).
    rewrite (bfs_correct node config _ _ _ _ V fuel [n] b G E). split.
    + intros (m & c & [<- |[]] & Sm & A). exact (accept_same node config _ _ _ _ V c A n _ Sm Sn).
    + intros A. exists n, (0, env0, ts). split; [left; reflexivity|auto].
Qed.
Print Assumptions C41_check_partial.

(** C41: every word of the lexicon is found, even if the lexicon has cycles of epsilons. *)
Theorem C41_words_found : forall enc dec g weighted tr en s,
  setting enc dec g weighted tr -> fresh_encoder tr en -> no_nul s -> no_epsilon s ->
  word_of g s -> exists fuel, check_word dec tr fuel en s = Ok true.
Proof.
  intros enc dec g weighted tr en s Se Hen Ns NE Wd. destruct (check_cases _ _ _ _ _ _ _ Se Hen Ns NE) as [(NW & K)|(input & ts & n & addr & K & Sn & _ & W & _ & V)]; [contradiction|].
  assert (G : good node config (sits tr g addr input) [n]) by (intros m [<- |[]]; eauto).
  destruct (bfs_found node config _ _ _ _ V _ (proj1 W Wd) 0 [n] n G eq_refl Sn) as (fuel & E). exists fuel. rewrite K. exact E.
Qed.
Print Assumptions C41_words_found.

(** C41: the checker answers for every text if the lexicon has no cycle of epsilon and flag
    transitions; it never reads outside the tables. *)
Theorem C41_answers : forall enc dec g weighted tr en s,
  setting enc dec g weighted tr -> fresh_encoder tr en -> no_nul s -> no_epsilon s ->
  (forall q c, ~ An_Spec.cycle An_Spec.free_arc g q c) ->
  exists fuel b, check_word dec tr fuel en s = Ok b.
Proof.
  intros enc dec g weighted tr en s Se Hen Ns NE Cy. destruct (check_cases _ _ _ _ _ _ _ Se Hen Ns NE) as [(NW & K)|(input & ts & n & addr & K & Sn & _ & W & HS & V)]; [exists 0, false; apply K|].
  set (d := length ts * S (length (sts g)) + (length (sts g) - 1)).
  destruct (bfs_ends node config _ _ _ _ V d [n] []) as (fuel & b & E).
  - intros m [<- |[]]. exists (0, env0, ts). split; [exact Sn|]. apply (chain_bound g HS Cy d 0 env0 ts [0]).
    + constructor; [intros []|constructor].
    + intros x [<- |[]]. exact (some_state g HS).
    + intros x [<- |[]]. exists []. split; constructor.
    + unfold d. simpl. lia.
  - destruct d; [reflexivity|intros m []].
  - exists fuel, b. rewrite K. exact E.
Qed.
Print Assumptions C41_answers.

(** ** Where the full claim fails *)
(** A cycle of epsilons: the checker goes round it for ever if the text is no word. *)
Definition spin_ex : graph :=
  Graph [[Arc 0 (B "@_EPSILON_SYMBOL_@") (B "@_EPSILON_SYMBOL_@") 0; Arc 1 (B "a") (B "a") 0]; []] [(1, 0%Z)] (symbols_of [B "a"]).
Theorem C41_epsilon_cycle_refuted : exists enc dec g tr en,
  setting enc dec g true tr /\ fresh_encoder tr en /\ ~ word_of g [] /\ forall fuel, check_word dec tr fuel en [] = Diverge.
Proof.
  destruct (to_ol enc0 spin_ex true) as [tr| | |] eqn:E; try (vm_compute in E; discriminate E).
  assert (SG : structure_ok spin_ex) by (apply An_Props.small_structure; [reflexivity|discriminate]).
  assert (ST : setting enc0 dec0 spin_ex true tr) by (apply small_setting; [exact SG|vm_compute; reflexivity|exact E|]; vm_compute in E; injection E as <-; vm_compute; reflexivity).
  destruct (new_encoder (tr_alphabet tr) (N.to_nat (h_input_symbols (tr_header tr)))) as [en| | |] eqn:En; try (vm_compute in E; injection E as <-; vm_compute in En; discriminate En).
  exists enc0, dec0, spin_ex, tr, en. split; [exact ST|]. split; [exact En|]. split.
  - intros (ts & r & t & fw & Ht & _ & L & M). assert (ts = []) as ->.
    { inversion Ht as [|w r0 ts0 (Hw & _) _ Ew|c r0 ts0 _ OC _ Ew]; [reflexivity| |].
      - apply app_eq_nil in Ew. destruct Ew as (-> & _). exfalso. destruct Hw as [(q & a & Ha & Hi & _)|C]; [|discriminate].
        destruct q as [|[|[|q]]]; [destruct Ha as [<- |[<- |[]]]; discriminate Hi|destruct Ha|destruct Ha|destruct Ha].
      - apply app_eq_nil in Ew. destruct Ew as (-> & _). destruct OC. }
    clear Ht. revert M.
    assert (K : forall s e r ts t, lookup_run spin_ex s e r ts t -> s = 0 -> ts = [] -> t = 0).
    { clear. induction 1 as [s e|s e a r ts t Ha Ei L IH|s e a x r ts t Ha D _ L IH|s e a x r ts t Ha Ei Ix L IH|s e a x r ts t Ha Ei Nx L IH]; intros -> Z; try discriminate Z; [reflexivity| |].
      - destruct Ha as [<- |[<- |[]]]; [apply IH; auto|discriminate Ei].
      - destruct Ha as [<- |[<- |[]]]; apply denotes_code in D; destruct D as (D & _); discriminate D. }
    rewrite (K _ _ _ _ _ L eq_refl eq_refl). discriminate.
  - assert (K : forall fuel str w, check_loop dec0 (tr_alphabet tr) (tr_tables tr) fuel [] [Node str 0 0 0 (fdstate_new (a_fd (tr_alphabet tr))) w] = Diverge).
    { clear ST En. vm_compute in E. injection E as <-. induction fuel as [|fuel IH]; intros str w; [reflexivity|].
      cbn [check_loop]. 
      match goal with |- rbind ?m ?k = _ => let v := eval vm_compute in m in change m with v end. cbn [rbind].
      match goal with |- rbind (lexicon_epsilons ?d ?a ?t ?n) _ = _ => assert (X : exists str' w', lexicon_epsilons d a t n = Ok [Node str' 0 0 0 (fdstate_new (a_fd a)) w']) by (eexists _, _; vm_compute; reflexivity); destruct X as (str' & w' & ->) end.
      cbn [rbind]. apply IH. }
    intros fuel. unfold check_word, check. exact (K fuel [] 0%Z).
Qed.
Print Assumptions C41_epsilon_cycle_refuted.

(** The name of epsilon in the text is taken for an epsilon transition. *)
Definition eps_ex : graph := Graph [[Arc 1 (B "@_EPSILON_SYMBOL_@") (B "@_EPSILON_SYMBOL_@") 0]; []] [(1, 0%Z)] (symbols_of []).
Theorem C41_epsilon_text_refuted : exists enc dec g tr en s fuel,
  setting enc dec g true tr /\ fresh_encoder tr en /\ no_nul s /\ ~ word_of g s /\ check_word dec tr fuel en s = Ok true.
Proof.
  destruct (to_ol enc0 eps_ex true) as [tr| | |] eqn:E; try (vm_compute in E; discriminate E).
  assert (SG : structure_ok eps_ex) by (apply An_Props.small_structure; [reflexivity|discriminate]).
  assert (ST : setting enc0 dec0 eps_ex true tr) by (apply small_setting; [exact SG|vm_compute; reflexivity|exact E|]; vm_compute in E; injection E as <-; vm_compute; reflexivity).
  destruct (new_encoder (tr_alphabet tr) (N.to_nat (h_input_symbols (tr_header tr)))) as [en| | |] eqn:En; try (vm_compute in E; injection E as <-; vm_compute in En; discriminate En).
  exists enc0, dec0, eps_ex, tr, en, EPSILON, 10. split; [exact ST|]. split; [exact En|]. split; [vm_compute; intuition discriminate|]. split.
  - intros (ts & r & t & fw & Ht & Its & _). destruct ts as [|x ts]; [apply tokens_concat in Ht; discriminate Ht|].
    destruct (Its x (or_introl eq_refl)) as (q & a & Ha & Hi & Fr). destruct q as [|[|[|q]]]; [destruct Ha as [<- |[]]; subst x; discriminate Fr|destruct Ha|destruct Ha|destruct Ha].
  - vm_compute in E. injection E as <-. vm_compute in En. injection En as <-. vm_compute. reflexivity.
Qed.
Print Assumptions C41_epsilon_text_refuted.

(** A lexicon with flags: "ab" is a word by the path through the flags, "bb" is refused by the second flag. *)
Definition flag_ex : graph :=
  Graph [[Arc 1 (B "@P.F.A@") (B "@P.F.A@") 0; Arc 2 (B "b") (B "b") 1]; [Arc 2 (B "a") (B "a") 0; Arc 3 (B "@_EPSILON_SYMBOL_@") (B "x") 0];
         [Arc 3 (B "@R.F.A@") (B "@R.F.A@") 0]; [Arc 4 (B "b") (B "b") 0]; []] [(4, 0%Z)] (symbols_of [B "@P.F.A@"; B "@R.F.A@"; B "a"; B "b"; B "x"]).
Example C41_witness : exists tr en, setting enc0 dec0 flag_ex true tr /\ fresh_encoder tr en
  /\ (forall q c, ~ An_Spec.cycle An_Spec.free_arc flag_ex q c)
  /\ check_word dec0 tr 20 en (B "ab") = Ok true /\ check_word dec0 tr 20 en (B "b") = Ok true /\ check_word dec0 tr 20 en (B "bb") = Ok false
  /\ check_word dec0 tr 20 en (B "z") = Ok false.
Proof.
  destruct (to_ol enc0 flag_ex true) as [tr| | |] eqn:E; try (vm_compute in E; discriminate E).
  assert (SG : structure_ok flag_ex) by (apply An_Props.small_structure; [reflexivity|discriminate]).
  assert (ST : setting enc0 dec0 flag_ex true tr) by (apply small_setting; [exact SG|vm_compute; reflexivity|exact E|]; vm_compute in E; injection E as <-; vm_compute; reflexivity).
  destruct (new_encoder (tr_alphabet tr) (N.to_nat (h_input_symbols (tr_header tr)))) as [en| | |] eqn:En; try (vm_compute in E; injection E as <-; vm_compute in En; discriminate En).
  exists tr, en. split; [exact ST|]. split; [exact En|]. split.
  - assert (K : forall s c t, path flag_ex s c t -> c <> [] -> s < t).
    { induction 1 as [s|s a c t Ha P IH]; intros N; [congruence|].
      assert (s < tgt a). { destruct s as [|[|[|[|[|[|s]]]]]]; cbn in Ha; repeat (destruct Ha as [<- |Ha]; [simpl; lia|]); destruct Ha. }
      destruct c as [|b c]; [inversion P; subst; assumption|]. specialize (IH ltac:(discriminate)). lia. }
    intros q c (N & P & _). specialize (K q c q P N). lia.
  - vm_compute in E. injection E as <-. vm_compute in En. injection En as <-. vm_compute. auto.
Qed.

(** * Corrections *)

(** A new speller (whose alphabet translator is built first) asked for corrections of [s]. *)
Definition corrections (dec : N -> Z) (lexicon mutator : transducer) (fuel : nat) (en : Tok_Model.encoder) (s : bstr) : res (list (bstr * Z)) :=
  rbind (build_alphabet_translator (tr_alphabet mutator) (tr_alphabet lexicon)) (fun translator =>
  correct dec (tr_alphabet lexicon) (tr_tables lexicon) (tr_tables mutator) translator fuel en (a_unknown (tr_alphabet mutator)) s).

(** The error model [m] reads no flags and writes only epsilons and symbols that the lexicon [g] reads. *)
Definition error_model (m g : graph) : Prop := forall p a, In a (nth p (sts m) []) ->
  is_diacritic (isy a) = false /\ (osy a = EPSILON \/ input_symbol g (osy a) /\ osy a <> UNKNOWN).
(** The tokens of [s] are symbols the error model reads, unless it reads unknown symbols. *)
Definition readable (m : graph) (s : bstr) : Prop := forall ts x, tokens m s ts -> In x ts -> input_symbol m x \/ input_symbol m UNKNOWN.

Definition speller_setting (enc : Z -> N) (dec : N -> Z) (g m : graph) (lexicon mutator : transducer) (en : Tok_Model.encoder) (s : bstr) : Prop :=
  setting enc dec g true lexicon /\ setting enc dec m true mutator /\ fresh_encoder mutator en /\ error_model m g /\ no_nul s /\ no_epsilon s /\ readable m s.

Lemma corrections_cases enc dec g m tr trm en s translator : speller_setting enc dec g m tr trm en s ->
  build_alphabet_translator (tr_alphabet trm) (tr_alphabet tr) = Ok translator ->
  (exists ts, tokens m s ts) ->
  exists addr addrm input ts, tokens m s ts
    /\ (forall fuel, corrections dec tr trm fuel en s = search node (visit3 dec tr trm translator input) fuel [start_node (tr_alphabet tr)] [])
    /\ sits3 tr g addr trm m addrm input (start_node (tr_alphabet tr)) (0, 0, env0, ts)
    /\ structure_ok g /\ structure_ok m
    /\ (forall n, good3 tr g addr trm m addrm input n -> exists o cs, visit3 dec tr trm translator input n = Ok (o, cs)
         /\ (forall c, In c cs -> good3 tr g addr trm m addrm input c)
         /\ forall str w, outcome3 tr g addr trm m addrm input n str w <-> o = Some (str, w) \/ exists c, In c cs /\ outcome3 tr g addr trm m addrm input c str w)
    /\ (forall w out, joint g m (0, 0, env0, ts) w out <-> correction m g 0 0 env0 ts w out)
    /\ (forall c w out, joint g m c w out -> sits3 tr g addr trm m addrm input (start_node (tr_alphabet tr)) c -> joint g m (0, 0, env0, ts) w out)
    /\ (forall d n o cs, good3 tr g addr trm m addrm input n -> height3 tr g addr trm m addrm input d n -> visit3 dec tr trm translator input n = Ok (o, cs) ->
         forall c, In c cs -> match d with O => False | S d' => height3 tr g addr trm m addrm input d' c end).
Proof.
  intros (Se & Sm & Hen & EM & Ns & NE & Rd) Tr Tk.
  pose proof Se as (_ & _ & _ & _ & _ & SM). destruct (setting_facts _ _ _ _ _ Se) as (addr & R & HS & HA & HW & Hsym & Hsmall & Hdef & Hval & Hin & Hpos).
  pose proof Sm as (_ & _ & _ & _ & _ & SMM). destruct (setting_facts _ _ _ _ _ Sm) as (addrm & RM & HSM & HAM & HWM & HsymM & HsmallM & HdefM & HvalM & HinM & HposM).
  assert (NF : forall p a, In a (nth p (sts m) []) -> is_diacritic (isy a) = false) by (intros p a Ha; apply (EM p a Ha)).
  assert (WK : forall p a, In a (nth p (sts m) []) -> osy a = EPSILON \/ input_symbol g (osy a) /\ osy a <> UNKNOWN) by (intros p a Ha; apply (EM p a Ha)).
  pose proof (translator_spec dec tr g trm m addrm RM HAM HsmallM HsymM translator Tr) as TR.
  pose proof (input_spec dec trm m addrm RM HsymM HsmallM HinM HposM en Hen (a_unknown (tr_alphabet trm)) (length s) s (le_n _) Ns) as I.
  unfold corrections, correct. rewrite Tr. cbn [rbind].
  destruct (input_initialize (length s) en s (a_unknown (tr_alphabet trm))) as [[input|]| | |]; [| |destruct I| |destruct I].
  2:{ exfalso. destruct Tk as (ts & Ht). destruct (I ts Ht) as (No & x & Hx & Nx). destruct (Rd ts x Ht Hx) as [C|C]; [apply Nx; left; exact C|].
      exact (unknown_numbered dec trm m addrm RM HAM HsmallM C No). }
  2:{ exfalso. destruct Tk as (ts & Ht). exact (proj2 I ts Ht). }
  destruct I as (ts & Ht & FT). pose proof (no_epsilon_tokens m s ts NE Ht) as Nts.
  assert (TK : Forall2 (tokm trm m) input ts).
  { assert (Rd' : forall x, In x ts -> input_symbol m x \/ input_symbol m UNKNOWN) by (intros x Hx; exact (Rd ts x Ht Hx)). clear Ht.
    induction FT as [|k x ks ts H FT IH]; constructor.
    - apply (tokm_of dec trm m addrm RM HAM); [exact H| |apply Rd'; left; reflexivity]. intros ->. apply Nts. left. reflexivity.
    - apply IH; [intros C; apply Nts; right; exact C|intros y Hy; apply Rd'; right; exact Hy]. }
  assert (St : sits3 tr g addr trm m addrm input (start_node (tr_alphabet tr)) (0, 0, env0, ts)).
  { unfold sits3, start_node. cbn [n_mutator n_lexicon n_flags n_input n_string]. split; [symmetry; apply (rep_start _ _ _ _ RM)|]. split; [exact (some_state m HSM)|].
    split; [symmetry; apply (rep_start _ _ _ _ R)|]. split; [exact (some_state g HS)|]. split; [exact (fd_env0 dec tr g addr R HA Hsmall Hdef Hin)|].
    split; [exact TK|]. split; [lia|constructor]. }
  exists addr, addrm, input, ts. split; [exact Ht|]. split; [|split; [exact St|split; [exact HS|split; [exact HSM|split; [|split; [|split]]]]]].
  - intros fuel. apply correct_loop_search.
  - intros n. exact (visit3_outcome dec tr g addr R HS SM HA HW Hsmall Hdef Hval Hin trm m addrm RM HSM SMM HWM HsmallM NF WK translator TR input n).
  - intros w out. apply joint_correction.
  - intros c w out J S0. exact (joint_same dec tr g addr R HS SM HA HW Hsmall Hdef Hval Hin trm m addrm RM HSM SMM HWM HsmallM NF WK translator TR input c w out J _ _ S0 St).
  - exact (height3_down dec tr g addr R HS SM HA HW Hsmall Hdef Hval Hin trm m addrm RM HSM SMM HWM HsmallM NF WK translator TR input).
Qed.

(** C66.  The corrections are exactly the strings some joint run of the error model over the text
    and of the lexicon over what the error model writes shows, each with the least weight of such
    a run.  Partial: an epsilon is shown by its name (see C66_epsilon_shown_refuted), and the
    setting excludes error models with flags, with unknown outputs, and unreadable texts. *)
Theorem C66_corrections_partial : forall enc dec g m lexicon mutator en s fuel found,
  speller_setting enc dec g m lexicon mutator en s -> corrections dec lexicon mutator fuel en s = Ok found ->
  forall str, match mget bcmp str found with
              | Some w => best_correction m g s str w
              | None => forall w, ~ corrects m g s str w
              end.
Proof.
  intros enc dec g m tr trm en s fuel found SS E.
  destruct (build_alphabet_translator (tr_alphabet trm) (tr_alphabet tr)) as [translator| | |] eqn:Tr; try (unfold corrections in E; rewrite Tr in E; discriminate E).
  destruct (input_initialize (length s) en s (a_unknown (tr_alphabet trm))) as [[input0|]| | |] eqn:Ei.
  - assert (Tk : exists ts, tokens m s ts).
    { pose proof SS as (_ & Sm & Hen & _ & Ns & _). destruct (setting_facts _ _ _ _ _ Sm) as (addrm & RM & HSM & HAM & HWM & HsymM & HsmallM & HdefM & HvalM & HinM & HposM).
      pose proof (input_spec dec trm m addrm RM HsymM HsmallM HinM HposM en Hen (a_unknown (tr_alphabet trm)) (length s) s (le_n _) Ns) as I. rewrite Ei in I. destruct I as (ts & Ht & _). eauto. }
    destruct (corrections_cases enc dec g m tr trm en s translator SS Tr Tk) as (addr & addrm & input & ts & Ht & Es & St & _ & _ & V & JC & JS & _).
    rewrite Es in E. apply (search_found _ _ _ _ V _ _ (fun _ _ => False)) in E; [|intros n [<- |[]]; exists (0, 0, env0, ts); exact St|intros str w C; exact C].
    assert (TF : forall ts', tokens m s ts' -> ts' = ts).
    { pose proof SS as (_ & Sm & _). destruct (setting_facts _ _ _ _ _ Sm) as (addrm0 & RM & HSM & HAM & HWM & HsymM & HsmallM & HdefM & HvalM & HinM & HposM).
      intros ts' Ht'. symmetry. exact (tokens_fun dec trm m addrm0 RM HsymM HinM HposM s ts Ht ts' Ht'). }
    assert (Eq : forall str w, (False \/ exists n, In n [start_node (tr_alphabet tr)] /\ outcome3 tr g addr trm m addrm input n str w) <-> corrects m g s str w).
    { intros str w. split.
      - intros [[]|(n & [<- |[]] & c & w' & out & S0 & J & -> & ->)]. exists ts, out. split; [exact Ht|]. unfold start_node, spelling. cbn [n_weight n_string map concat app]. rewrite Z.add_0_l.
        split; [|reflexivity]. apply JC. exact (JS c w' out J S0).
      - intros (ts' & out & Ht' & C & ->). rewrite (TF ts' Ht') in C. right. eexists. split; [left; reflexivity|]. exists (0, 0, env0, ts), w, out. split; [exact St|]. split; [apply JC, C|].
        unfold start_node, spelling. cbn [n_weight n_string map concat app]. split; [reflexivity|lia]. }
    pose proof (Found_ext _ _ _ Eq E) as Fo. intros str. exact (Fo str).
  - unfold corrections, correct in E. rewrite Tr in E. cbn [rbind] in E. rewrite Ei in E. cbn [rbind] in E. injection E as <-. intros str w (ts & out & Ht & _).
    pose proof SS as (_ & Sm & Hen & _ & Ns & _ & Rd). destruct (setting_facts _ _ _ _ _ Sm) as (addrm & RM & HSM & HAM & HWM & HsymM & HsmallM & HdefM & HvalM & HinM & HposM).
    pose proof (input_spec dec trm m addrm RM HsymM HsmallM HinM HposM en Hen (a_unknown (tr_alphabet trm)) (length s) s (le_n _) Ns) as I. rewrite Ei in I.
    destruct (I ts Ht) as (No & x & Hx & Nx). destruct (Rd ts x Ht Hx) as [C|C]; [apply Nx; left; exact C|]. exact (unknown_numbered dec trm m addrm RM HAM HsmallM C No).
  - unfold corrections, correct in E. rewrite Tr in E. cbn [rbind] in E. rewrite Ei in E. discriminate E.
  - unfold corrections, correct in E. rewrite Tr in E. cbn [rbind] in E. rewrite Ei in E. discriminate E.
  - unfold corrections, correct in E. rewrite Tr in E. cbn [rbind] in E. rewrite Ei in E. discriminate E.
Qed.
Print Assumptions C66_corrections_partial.

(** If the symbols of the error model are symbols of the lexicon, the translator can be built. *)
Lemma translator_total from to : forall l i, (forall x, In x l -> mget bcmp x to <> None) -> exists tr, translator_loop from to i l = Ok tr.
Proof.
  induction l as [|x l IH]; intros i H; [exists []; reflexivity|]. cbn [translator_loop]. destruct (IH (i + 1)%N) as (r & ->); [intros y Hy; apply H; right; exact Hy|].
  destruct (is_flag_symbol from i || (i =? a_unknown from)%N); [eexists; reflexivity|]. specialize (H x (or_introl eq_refl)). destruct (mget bcmp x to); [eexists; reflexivity|congruence].
Qed.
Lemma translator_built enc dec g m tr trm : setting enc dec g true tr -> setting enc dec m true trm -> (forall x, In x (alpha m) -> In x (alpha g)) ->
  exists translator, build_alphabet_translator (tr_alphabet trm) (tr_alphabet tr) = Ok translator.
Proof.
  intros (_ & _ & _ & _ & E & _) (Wm & Pm & _ & _ & Em & _) H. destruct (converted_facts enc m true trm Wm Pm Em) as (_ & _ & H3 & _).
  destruct (OLC_Proofs5.to_ol_Ok enc g true tr E) as (k & ix & al & _ & _ & HA & ->). cbn [tr_alphabet]. destruct (OLC_Proofs5.alphabet_of_table_Ok _ al HA (OLC_Proofs.symbol_table_NoDup g)) as (EN & _).
  unfold build_alphabet_translator. rewrite EN. destruct (translator_total (tr_alphabet trm) (string_symbol_map (symbol_table g)) (tl (a_table (tr_alphabet trm))) 1%N) as (r & ->).
  - intros x Hx. pose proof (symbol_map_spec (symbol_table g) x) as S. destruct (mget bcmp x (string_symbol_map (symbol_table g))); [discriminate|]. exfalso. apply S.
    apply OLC_Proofs.symbol_table_In. right. left. apply H, H3. destruct (a_table (tr_alphabet trm)); [exact Hx|right; exact Hx].
  - eexists. reflexivity.
Qed.

(** C66, answers: nothing goes wrong on the way, and without cycles of epsilons and flags the
    corrections are found in finitely many turns. *)
Theorem C66_answers : forall enc dec g m lexicon mutator en s ts,
  speller_setting enc dec g m lexicon mutator en s -> (forall x, In x (alpha m) -> In x (alpha g)) -> tokens m s ts ->
  (forall fuel, corrections dec lexicon mutator fuel en s = Diverge \/ exists found, corrections dec lexicon mutator fuel en s = Ok found)
  /\ ((forall q c, ~ An_Spec.cycle An_Spec.free_arc g q c) -> (forall p c, ~ An_Spec.cycle An_Spec.free_arc m p c) ->
      exists fuel found, corrections dec lexicon mutator fuel en s = Ok found).
Proof.
  intros enc dec g m tr trm en s ts0 SS Al Ht0. pose proof SS as (Se & Sm & _). destruct (translator_built enc dec g m tr trm Se Sm Al) as (translator & Tr).
  destruct (corrections_cases enc dec g m tr trm en s translator SS Tr (ex_intro _ ts0 Ht0)) as (addr & addrm & input & ts & Ht & Es & St & HS & HSM & V & _ & _ & Hh).
  assert (G : forall n, In n [start_node (tr_alphabet tr)] -> good3 tr g addr trm m addrm input n) by (intros n [<- |[]]; exists (0, 0, env0, ts); exact St).
  split.
  - intros fuel. rewrite Es. exact (search_safe _ _ _ _ V fuel _ [] G).
  - intros Cy CyM.
    destruct (search_ends _ _ _ _ V _ Hh (meas g m ts [0] [0]) [start_node (tr_alphabet tr)] [] []) as (fuel & found & E).
    + intros n [<- |[]]. split; [apply G; left; reflexivity|]. exists (0, 0, env0, ts). split; [exact St|].
      apply (low3_bound g m HS HSM Cy CyM _ 0 0 env0 ts [0] [0]); [apply trail_start, some_state, HSM|apply trail_start, some_state, HS|apply some_state, HS|lia].
    + destruct (meas g m ts [0] [0]); [reflexivity|intros ? []].
    + exists fuel, found. rewrite Es. exact E.
Qed.
Print Assumptions C66_answers.

(** ** Where the full claim fails *)
Ltac spell G tr E SG ST en En :=
  destruct (to_ol enc0 G true) as [tr| | |] eqn:E; try (vm_compute in E; discriminate E);
  assert (SG : structure_ok G) by (apply An_Props.small_structure; [reflexivity|discriminate]);
  assert (ST : setting enc0 dec0 G true tr) by (apply small_setting; [exact SG|vm_compute; reflexivity|exact E|]; vm_compute in E; injection E as <-; vm_compute; reflexivity);
  destruct (new_encoder (tr_alphabet tr) (N.to_nat (h_input_symbols (tr_header tr)))) as [en| | |] eqn:En; try (vm_compute in E; injection E as <-; vm_compute in En; discriminate En).
Lemma readable_of enc dec m tr s ts : setting enc dec m true tr -> tokens m s ts -> (forall x, In x ts -> input_symbol m x) -> readable m s.
Proof.
  intros Sm Ht H ts' x Ht' Hx. left. apply H. destruct (setting_facts _ _ _ _ _ Sm) as (addr & R & _ & _ & _ & Hsym & _ & _ & _ & Hin & Hpos).
  rewrite (tokens_fun dec tr m addr R Hsym Hin Hpos s ts Ht ts' Ht'). exact Hx.
Qed.

(** The lexicon has the word a; the error model may drop a b. *)
Definition word_ex : graph := Graph [[Arc 1 (B "a") (B "a") 0; Arc 1 (B "b") (B "b") 2]; []] [(1, 0%Z)] (symbols_of [B "a"; B "b"]).
Definition drop_ex : graph := Graph [[Arc 0 (B "a") (B "a") 0; Arc 0 (B "b") (B "@_EPSILON_SYMBOL_@") 1; Arc 0 (B "b") (B "a") 5]] [(0, 0%Z)] (symbols_of [B "a"; B "b"]).
Lemma drop_symbols x : input_symbol drop_ex x <-> x = B "a" \/ x = B "b".
Proof.
  split.
  - intros (q & a & Ha & Hi & Fr). destruct q as [|[|q]]; [|destruct Ha|destruct Ha]. destruct Ha as [<- |[<- |[<- |[]]]]; subst x; auto.
  - intros [-> | ->]; exists 0; [exists (Arc 0 (B "a") (B "a") 0)|exists (Arc 0 (B "b") (B "a") 5)]; (split; [simpl; auto|split; reflexivity]).
Qed.
Lemma word_symbols x : x = B "a" \/ x = B "b" -> input_symbol word_ex x.
Proof. intros [-> | ->]; exists 0; [exists (Arc 1 (B "a") (B "a") 0)|exists (Arc 1 (B "b") (B "b") 2)]; (split; [simpl; auto|split; reflexivity]). Qed.
Lemma drop_model : error_model drop_ex word_ex.
Proof.
  intros p a Ha. destruct p as [|[|p]]; [|destruct Ha|destruct Ha].
  destruct Ha as [<- |[<- |[<- |[]]]]; (split; [reflexivity|]); [right|left; reflexivity|right]; (split; [apply word_symbols; left; reflexivity|discriminate]).
Qed.
Lemma drop_tokens : tokens drop_ex (B "ba") [B "b"; B "a"].
Proof. apply (ascii_tokens drop_ex (B "ba")); reflexivity. Qed.
Lemma no_at_no_epsilon s : ~ In "@"%char s -> no_epsilon s.
Proof. intros H (u & v & ->). apply H, in_or_app. right. left. reflexivity. Qed.

(** The epsilon left by a dropped b is shown: a correction of "ba" is "@_EPSILON_SYMBOL_@a", which
    no run of the lexicon writes. *)
Theorem C66_epsilon_shown_refuted : exists enc dec g m tr trm en s fuel found str w,
  speller_setting enc dec g m tr trm en s /\ corrections dec tr trm fuel en s = Ok found /\ mget bcmp str found = Some w
  /\ ~ exists ts out w', tokens m s ts /\ correction m g 0 0 env0 ts w' out /\ str = concat (map show out).
Proof.
  spell word_ex tr E SG ST en0 En0. spell drop_ex trm Em SGm STm en En. clear en0 En0.
  exists enc0, dec0, word_ex, drop_ex, tr, trm, en, (B "ba"), 30.
  assert (X : exists found, corrections dec0 tr trm 30 en (B "ba") = Ok found /\ mget bcmp (B "@_EPSILON_SYMBOL_@a") found = Some 1%Z).
  { clear ST STm. vm_compute in E. injection E as <-. vm_compute in Em. injection Em as <-. vm_compute in En. injection En as <-. eexists. split; [vm_compute; reflexivity|vm_compute; reflexivity]. }
  destruct X as (found & E1 & E2). exists found, (B "@_EPSILON_SYMBOL_@a"), 1%Z. split; [|split; [exact E1|split; [exact E2|]]].
  - split; [exact ST|]. split; [exact STm|]. split; [exact En|]. split; [exact drop_model|]. split; [vm_compute; intuition discriminate|].
    split; [apply no_at_no_epsilon; vm_compute; intuition discriminate|]. apply (readable_of _ _ _ _ _ _ STm drop_tokens). intros x [<- |[<- |[]]]; apply drop_symbols; auto.
  - intros (ts & out & w' & _ & C & Es).
    assert (K : forall p q e ts w out, correction drop_ex word_ex p q e ts w out -> ~ In "@"%char (concat (map show out))).
    { clear. assert (A : forall q b, In b (nth q (sts word_ex) []) -> show (osy b) = B "a" \/ show (osy b) = B "b").
      { intros q b Hb. destruct q as [|[|[|q]]]; [|destruct Hb|destruct Hb|destruct Hb]. destruct Hb as [<- |[<- |[]]]; auto. }
      induction 1; cbn [map concat]; [intros []| | | |]; intros H'; apply in_app_or in H'; destruct H' as [H'|H']; try (apply IHcorrection; exact H').
      1, 2, 4: destruct (A _ _ ltac:(eassumption)) as [Eq|Eq]; rewrite Eq in H'; destruct H' as [H'|[]]; discriminate H'.
      vm_compute in H'. exact H'. }
    apply (K _ _ _ _ _ _ C). rewrite <- Es. left. reflexivity.
Qed.
Print Assumptions C66_epsilon_shown_refuted.

(** The number of the unknown symbol, written by the error model, is not looked up in the lexicon
    but read outside the tables. *)
Definition unknown_ex : graph := Graph [[Arc 0 (B "a") (B "@_UNKNOWN_SYMBOL_@") 0]] [(0, 0%Z)] (symbols_of [B "a"; B "b"]).
Theorem C66_unknown_output_refuted : exists enc dec g m tr trm en,
  setting enc dec g true tr /\ setting enc dec m true trm /\ fresh_encoder trm en /\ input_symbol g UNKNOWN
  /\ (forall p a, In a (nth p (sts m) []) -> is_diacritic (isy a) = false /\ input_symbol g (osy a))
  /\ tokens m (B "a") [B "a"] /\ input_symbol m (B "a")
  /\ corrections dec tr trm 30 en (B "a") = Ub.
Proof.
  set (L := Graph [[Arc 1 (B "a") (B "a") 0; Arc 1 (B "@_UNKNOWN_SYMBOL_@") (B "b") 2]; []] [(1, 0%Z)] (symbols_of [B "a"; B "b"])).
  spell L tr E SG ST en0 En0. spell unknown_ex trm Em SGm STm en En. clear en0 En0.
  exists enc0, dec0, L, unknown_ex, tr, trm, en.
  assert (U : input_symbol L UNKNOWN) by (exists 0, (Arc 1 (B "@_UNKNOWN_SYMBOL_@") (B "b") 2); split; [simpl; auto|split; reflexivity]).
  split; [exact ST|]. split; [exact STm|]. split; [exact En|]. split; [exact U|]. split; [|split; [|split]].
  - intros p a Ha. destruct p as [|[|p]]; [|destruct Ha|destruct Ha]. destruct Ha as [<- |[]]. split; [reflexivity|exact U].
  - apply (ascii_tokens unknown_ex (B "a")); reflexivity.
  - exists 0, (Arc 0 (B "a") (B "@_UNKNOWN_SYMBOL_@") 0). split; [simpl; auto|split; reflexivity].
  - clear ST STm. vm_compute in E. injection E as <-. vm_compute in Em. injection Em as <-. vm_compute in En. injection En as <-. vm_compute. reflexivity.
Qed.
Print Assumptions C66_unknown_output_refuted.

(** A concrete speller: corrections of "ba" and "b"; both graphs are free of cycles of epsilons. *)
Example C66_witness : exists tr trm en, speller_setting enc0 dec0 word_ex drop_ex tr trm en (B "ba") /\ tokens drop_ex (B "ba") [B "b"; B "a"]
  /\ (forall x, In x (alpha drop_ex) -> In x (alpha word_ex))
  /\ (forall q c, ~ An_Spec.cycle An_Spec.free_arc word_ex q c) /\ (forall q c, ~ An_Spec.cycle An_Spec.free_arc drop_ex q c)
  /\ corrections dec0 tr trm 30 en (B "ba") = Ok [(B "@_EPSILON_SYMBOL_@a", 1%Z)]
  /\ corrections dec0 tr trm 30 en (B "b") = Ok [(B "a", 5%Z)].
Proof.
  spell word_ex tr E SG ST en0 En0. spell drop_ex trm Em SGm STm en En. clear en0 En0.
  exists tr, trm, en. split; [|split; [exact drop_tokens|split; [intros x Hx; exact Hx|split; [|split]]]].
  - split; [exact ST|]. split; [exact STm|]. split; [exact En|]. split; [exact drop_model|]. split; [vm_compute; intuition discriminate|].
    split; [apply no_at_no_epsilon; vm_compute; intuition discriminate|]. apply (readable_of _ _ _ _ _ _ STm drop_tokens). intros x [<- |[<- |[]]]; apply drop_symbols; auto.
  - intros q c (N & P & Fa). destruct P as [|s a r t Ha P]; [congruence|]. inversion Fa as [|? ? Fr _]; subst. destruct s as [|[|[|s]]]; [|destruct Ha|destruct Ha|destruct Ha].
    destruct Ha as [<- |[<- |[]]]; destruct Fr as [C|C]; discriminate C.
  - intros q c (N & P & Fa). destruct P as [|s a r t Ha P]; [congruence|]. inversion Fa as [|? ? Fr _]; subst. destruct s as [|[|s]]; [|destruct Ha|destruct Ha].
    destruct Ha as [<- |[<- |[<- |[]]]]; destruct Fr as [C|C]; discriminate C.
  - clear ST STm. vm_compute in E. injection E as <-. vm_compute in Em. injection Em as <-. vm_compute in En. injection En as <-. vm_compute. auto.
Qed.
