(** Properties C36 and C37: lookup in optimized-lookup transducers. *)
From Coq Require Import Permutation NArith.
From Verif Require Import Base OrdMap Flags_Model Flags_Spec Flags_Proofs BT_Model BT_Spec An_Model An_Spec An_Props LK_Model OLF_Model OLC_Model OLL_Model OLC_Spec OLC_Proofs OLC_Proofs7 OLC_Props OLL_Spec OLL_Proofs OLL_Proofs2 OLL_Proofs3.
From Verif Require LK_Spec LK_Props Tok_Spec Tok_Model.

(** A transducer, its conversion, and the text: what all theorems below assume. *)
Definition setting (enc : Z -> N) (dec : N -> Z) (g : graph) (weighted : bool) (tr : transducer) : Prop :=
  well_formed g /\ plain g /\ no_insertions g /\ faithful enc dec g /\ to_ol enc g weighted = Ok tr /\ small tr.
Definition text (al : alphabet) (s : bstr) : Prop :=
  no_nul s /\ no_epsilon s /\ (N.of_nat (length (a_table al) + length s) <= 65535)%N.

Lemma setting_facts enc dec g weighted tr : setting enc dec g weighted tr -> exists addr,
  represents dec tr g addr /\ structure_ok g
  /\ alphabet_of_table (a_table (tr_alphabet tr)) = Ok (tr_alphabet tr) /\ t_wclass (tr_tables tr) = true
  /\ (forall x, In x (a_table (tr_alphabet tr)) -> x <> [] /\ no_nul x)
  /\ (N.of_nat (length (a_table (tr_alphabet tr))) < 32767)%N
  /\ ~ In DEFAULT (a_table (tr_alphabet tr))
  /\ (forall x f, In x (a_table (tr_alphabet tr)) -> denotes x f -> nonempty_value f)
  /\ N.to_nat (h_input_symbols (tr_header tr)) <= length (a_table (tr_alphabet tr))
  /\ 0 < N.to_nat (h_input_symbols (tr_header tr)).
Proof.
  intros (W & P & NI & FF & E & SM). destruct (converted enc dec g weighted tr (proj1 W) NI FF E SM) as (addr & R). exists addr.
  destruct (converted_facts enc g weighted tr W P E) as (H1 & H2 & H3 & H4 & H5 & H6). destruct P as (P1 & P2 & P3 & _).
  split; [exact R|]. split; [exact (proj1 W)|]. split; [exact H1|]. split; [exact H2|]. split; [intros x Hx; apply P3, H3, Hx|].
  split; [exact H4|]. split; [intros C; apply P2, H3, C|]. split; [intros x f Hx; apply P1, H3, Hx|]. split; [exact H5|exact H6].
Qed.

(** C36, soundness: after any history of lookups, every result is a run over the tokens of the
    text that the flags allow, with its weight and symbols, shorter than the recursion limit. *)
Theorem C36_sound : forall enc dec g weighted tr al en depth limit s res al' en',
  setting enc dec g weighted tr -> used dec tr al en -> text al s ->
  lookup_fd_pairs dec depth limit (tr_tables tr) al en s = Ok (res, al', en') ->
  forall w ps, In (w, ps) res -> exists ts r, tokens g s ts /\ length r < depth /\ result g ts r w ps.
Proof.
  intros enc dec g weighted tr al en depth limit s res al' en' ST U (N1 & N2 & L) E w ps H.
  destruct (setting_facts _ _ _ _ _ ST) as (addr & R & F1 & F2 & F3 & F4 & F5 & F6 & F7 & F8 & F9).
  destruct (lookup_spec dec tr g addr R F1 F2 F3 F4 F5 F6 F7 F8 F9 al en depth limit s res al' en' U N1 N2 L E) as (S & _). exact (S (w, ps) H).
Qed.
Print Assumptions C36_sound.

(** C36, completeness.  Partial: only runs that between two tokens take no two flag transitions
    to the same state from the same flag values are promised (others are lost, see below). *)
Theorem C36_complete_partial : forall enc dec g weighted tr al en depth limit s res al' en',
  setting enc dec g weighted tr -> used dec tr al en -> text al s ->
  lookup_fd_pairs dec depth limit (tr_tables tr) al en s = Ok (res, al', en') ->
  match limit with Some m => length res < m | None => True end ->
  forall ts r w ps, tokens g s ts -> result g ts r w ps -> length r < depth -> unrepeated [] env0 r -> In (w, ps) res.
Proof.
  intros enc dec g weighted tr al en depth limit s res al' en' ST U (N1 & N2 & L) E LM ts r w ps Ht Hr Ld UR.
  destruct (setting_facts _ _ _ _ _ ST) as (addr & R & F1 & F2 & F3 & F4 & F5 & F6 & F7 & F8 & F9).
  destruct (lookup_spec dec tr g addr R F1 F2 F3 F4 F5 F6 F7 F8 F9 al en depth limit s res al' en' U N1 N2 L E) as (_ & C & _). eauto.
Qed.
Print Assumptions C36_complete_partial.

(** Without flag arcs nothing is lost. *)
Lemma no_flags_unrepeated g s e r ts t : (forall q a x, In a (nth q (sts g) []) -> ~ denotes (isy a) x) ->
  lookup_run g s e r ts t -> forall seen, unrepeated seen e r.
Proof.
  intros NF H. induction H; intros seen; [constructor|apply ur_epsilon; auto|exfalso; eapply NF; eassumption|constructor; auto|constructor; auto].
Qed.
Theorem C36_complete_without_flags : forall enc dec g weighted tr al en depth limit s res al' en',
  setting enc dec g weighted tr -> used dec tr al en -> text al s ->
  (forall q a x, In a (nth q (sts g) []) -> ~ denotes (isy a) x) ->
  lookup_fd_pairs dec depth limit (tr_tables tr) al en s = Ok (res, al', en') ->
  match limit with Some m => length res < m | None => True end ->
  forall ts r w ps, tokens g s ts -> result g ts r w ps -> length r < depth -> In (w, ps) res.
Proof.
  intros. eapply C36_complete_partial; try eassumption. destruct H6 as (t & fw & LR & _). eapply no_flags_unrepeated; eassumption.
Qed.
Print Assumptions C36_complete_without_flags.

(** C36, limit: at most as many results as asked for, and fewer only when there are no more. *)
Theorem C36_limit : forall enc dec g weighted tr al en depth m s res al' en',
  setting enc dec g weighted tr -> used dec tr al en -> text al s ->
  lookup_fd_pairs dec depth (Some m) (tr_tables tr) al en s = Ok (res, al', en') -> length res <= m.
Proof.
  intros enc dec g weighted tr al en depth m s res al' en' ST U (N1 & N2 & L) E.
  destruct (setting_facts _ _ _ _ _ ST) as (addr & R & F1 & F2 & F3 & F4 & F5 & F6 & F7 & F8 & F9).
  destruct (lookup_spec dec tr g addr R F1 F2 F3 F4 F5 F6 F7 F8 F9 al en depth _ s res al' en' U N1 N2 L E) as (_ & _ & M). exact (M m eq_refl).
Qed.
Print Assumptions C36_limit.

(** C37.  Partial: the text has a tokenization, and each token is an input symbol of the
    transducer or both unknown and identity are. *)
Theorem C37_inside_partial : forall enc dec g weighted tr al en depth limit s ts,
  setting enc dec g weighted tr -> used dec tr al en -> text al s -> tokens g s ts ->
  (forall x, In x ts -> input_symbol g x) \/ input_symbol g UNKNOWN /\ input_symbol g IDENTITY ->
  exists res al' en', lookup_fd_pairs dec depth limit (tr_tables tr) al en s = Ok (res, al', en').
Proof.
  intros enc dec g weighted tr al en depth limit s ts ST U (N1 & N2 & L) Ht Hr.
  destruct (setting_facts _ _ _ _ _ ST) as (addr & R & F1 & F2 & F3 & F4 & F5 & F6 & F7 & F8 & F9).
  exact (lookup_inside dec tr g addr R F1 F2 F4 F5 F6 F7 F8 F9 al en depth limit s ts U N1 N2 L Ht Hr).
Qed.
Print Assumptions C37_inside_partial.

(** * Where the full claims fail *)

(** Deciding the hypotheses on concrete transducers. *)
Definition plain_b (g : graph) : bool :=
  forallb (fun x => match snd (split_feature_value x) with Some [] => negb (is_diacritic x) | _ => true end) (alpha g)
  && negb (existsb (bstr_eqb DEFAULT) (alpha g))
  && forallb (fun x => negb (bstr_eqb x []) && negb (existsb (Ascii.eqb "000"%char) x)) (alpha g)
  && (N.of_nat (length (alpha g)) <? 32767)%N.
Lemma small_plain g : NoDup (alpha g) -> plain_b g = true -> plain g.
Proof.
  intros ND H. unfold plain_b in H. rewrite !andb_true_iff in H. destruct H as (((H1 & H2) & H3) & H4). rewrite forallb_forall in H1, H3.
  split; [|split; [|split; [|split; [exact ND|apply N.ltb_lt, H4]]]].
  - intros x f Hx D. specialize (H1 x Hx). cbv beta in H1. apply denotes_code in D. destruct D as (D & c & o & _ & _ & K). rewrite D in H1.
    destruct (snd (split_feature_value x)) as [[|b v]|]; [discriminate| |]; unfold flag_code in K; destruct f as [? ?|? ?|? [?|]|? [?|]|?|? ?]; cbn [nonempty_value];
      try exact I; destruct K as (_ & _ & K); congruence.
  - intros C. apply negb_true_iff in H2. assert (X : existsb (bstr_eqb DEFAULT) (alpha g) = true) by (apply existsb_exists; exists DEFAULT; split; [exact C|apply bstr_eqb_refl]). congruence.
  - intros x Hx. specialize (H3 x Hx). apply andb_true_iff in H3. destruct H3 as (H3 & H5). split.
    + intros ->. discriminate.
    + intros C. apply negb_true_iff in H5. assert (X : existsb (Ascii.eqb "000"%char) x = true) by (apply existsb_exists; exists "000"%char; split; [exact C|apply Ascii.eqb_refl]). congruence.
Qed.
Definition setting_b (g : graph) : bool :=
  wf_b g && plain_b g && forallb (forallb (fun a => negb (is_insertion (isy a)))) (sts g)
  && (forallb (forallb (fun a => ((-1000 <=? wt a) && (wt a <? 1000))%Z)) (sts g) && forallb (fun q => ((-1000 <=? snd q) && (snd q <? 1000))%Z) (fin g))
  && (fix go l := match l with [] => true | x :: r => negb (existsb (bstr_eqb x) r) && go r end) (alpha g).
Lemma small_setting g tr : structure_ok g -> setting_b g = true -> to_ol enc0 g true = Ok tr ->
  (N.of_nat (length (t_index (tr_tables tr))) <? 100)%N && (N.of_nat (length (t_trans (tr_tables tr))) <? 100)%N = true -> setting enc0 dec0 g true tr.
Proof.
  intros S H E L. unfold setting_b in H. apply andb_true_iff in H. destruct H as (H & H5). apply andb_true_iff in H. destruct H as (H & H4). apply andb_true_iff in H. destruct H as (H & H3).
  apply andb_true_iff in H. destruct H as (H1 & H2).
  split; [apply small_wf; assumption|]. split; [apply small_plain; [apply small_nodup, H5|exact H2]|]. split; [apply small_no_insertions, H3|]. split; [apply small_faithful, H4|].
  split; [exact E|]. apply andb_true_iff in L. destruct L as (L1 & L2). apply N.ltb_lt in L1, L2. unfold small, TA_OFFSET in *. split; lia.
Qed.

(** A fresh lookup in the conversion of [g]. *)
Definition fresh_lookup (g : graph) (s : bstr) : res (list tlp) :=
  rbind (to_ol enc0 g true) (fun tr =>
  rbind (new_encoder (tr_alphabet tr) (N.to_nat (h_input_symbols (tr_header tr)))) (fun en =>
  rmap (fun '(r, _, _) => r) (lookup_fd_pairs dec0 MAX_RECURSION_DEPTH None (tr_tables tr) (tr_alphabet tr) en s))).

(** The run sets F to A, checks it, clears it, sets it to B in the same state, and checks that:
    five transitions, in five different configurations, but nothing is found. *)
Definition lost_ex : graph :=
  Graph [[Arc 1 (B "@P.F.A@") (B "@P.F.A@") 0]; [Arc 2 (B "@R.F.A@") (B "@R.F.A@") 0; Arc 4 (B "@R.F.B@") (B "@R.F.B@") 0];
         [Arc 3 (B "@C.F@") (B "@C.F@") 0]; [Arc 1 (B "@P.F.B@") (B "@P.F.B@") 0]; []] [(4, 0%Z)]
    (symbols_of [B "@P.F.A@"; B "@R.F.A@"; B "@R.F.B@"; B "@C.F@"; B "@P.F.B@"]).
Definition lost_run : list step :=
  [(Arc 1 (B "@P.F.A@") (B "@P.F.A@") 0, None); (Arc 2 (B "@R.F.A@") (B "@R.F.A@") 0, None); (Arc 3 (B "@C.F@") (B "@C.F@") 0, None);
   (Arc 1 (B "@P.F.B@") (B "@P.F.B@") 0, None); (Arc 4 (B "@R.F.B@") (B "@R.F.B@") 0, None)].
Lemma text_short al s : (N.of_nat (length (a_table al)) <? 100)%N = true -> (length s <? 18) = true -> existsb (Ascii.eqb "000"%char) s = false -> text al s.
Proof.
  intros H1 H2 H3. apply N.ltb_lt in H1. apply Nat.ltb_lt in H2. split; [|split; [|lia]].
  - intros C. assert (X : existsb (Ascii.eqb "000"%char) s = true) by (apply existsb_exists; exists "000"%char; split; [exact C|apply Ascii.eqb_refl]). congruence.
  - intros (u & v & ->). rewrite !app_length in H2. change (length EPSILON) with 18 in H2. lia.
Qed.
Theorem C36_complete_refuted : exists enc dec g tr en al' en' r,
  setting enc dec g true tr /\ used dec tr (tr_alphabet tr) en /\ text (tr_alphabet tr) [] /\ tokens g [] []
  /\ result g [] r 0 (map shown r) /\ length r = 5
  /\ lookup_fd_pairs dec MAX_RECURSION_DEPTH None (tr_tables tr) (tr_alphabet tr) en [] = Ok ([], al', en').
Proof.
  destruct (to_ol enc0 lost_ex true) as [tr| | |] eqn:E; try (vm_compute in E; discriminate E).
  assert (SG : structure_ok lost_ex) by (apply small_structure; [reflexivity|discriminate]).
  assert (ST : setting enc0 dec0 lost_ex true tr) by (apply small_setting; [exact SG|vm_compute; reflexivity|exact E|]; vm_compute in E; injection E as <-; vm_compute; reflexivity).
  destruct (new_encoder (tr_alphabet tr) (N.to_nat (h_input_symbols (tr_header tr)))) as [en| | |] eqn:En; try (vm_compute in E; injection E as <-; vm_compute in En; discriminate En).
  destruct (lookup_fd_pairs dec0 MAX_RECURSION_DEPTH None (tr_tables tr) (tr_alphabet tr) en []) as [[[r al'] en']| | |] eqn:L;
    try (vm_compute in E; injection E as <-; vm_compute in En; injection En as <-; vm_compute in L; discriminate L).
  exists enc0, dec0, lost_ex, tr, en, al', en', lost_run.
  split; [exact ST|]. split; [constructor; exact En|]. split; [apply text_short; vm_compute in E; injection E as <-; vm_compute; reflexivity|]. split; [constructor|].
  split; [|split; [reflexivity|]].
  - exists 4, 0%Z. split; [|split; [reflexivity|split; reflexivity]]. unfold lost_run.
    eapply (lr_flag _ _ _ _ (FP (B "F") (B "A"))); [left; reflexivity|apply (den_P (B "F") (B "A")); vm_compute; intuition discriminate|reflexivity|].
    eapply (lr_flag _ _ _ _ (FR (B "F") (Some (B "A")))); [left; reflexivity|apply (den_Rv (B "F") (B "A")); vm_compute; intuition discriminate|reflexivity|].
    eapply (lr_flag _ _ _ _ (FC (B "F"))); [left; reflexivity|apply (den_C (B "F")); [vm_compute; intuition discriminate|discriminate]|reflexivity|].
    eapply (lr_flag _ _ _ _ (FP (B "F") (B "B"))); [left; reflexivity|apply (den_P (B "F") (B "B")); vm_compute; intuition discriminate|reflexivity|].
    eapply (lr_flag _ _ _ _ (FR (B "F") (Some (B "B")))); [right; left; reflexivity|apply (den_Rv (B "F") (B "B")); vm_compute; intuition discriminate|reflexivity|].
    constructor.
  - vm_compute in E. injection E as <-. vm_compute in En. injection En as <-. vm_compute in L. injection L as <- <- <-. vm_compute. reflexivity.
Qed.
Print Assumptions C36_complete_refuted.

(** C37 in full is false.  When neither unknown nor identity is an input symbol, looking up any
    unknown character reads behind the end of the index table ... *)
Definition outside_ex : graph := Graph [[Arc 1 (B "a") (B "0") 0]; []] [(1, 0%Z)] (symbols_of [B "a"; B "0"]).
(** Texts of ASCII characters, when all input symbols are single bytes or begin with [@]. *)
Lemma ascii_tokens g s :
  forallb (forallb (fun a => match isy a with [] => false | [c] => true | c :: _ => Ascii.eqb c "@"%char end)) (sts g) = true ->
  forallb (fun b => (N_of_ascii b <? 128)%N && negb (Ascii.eqb b "@"%char)) s = true -> tokens g s (map (fun b => [b]) s).
Proof.
  intros HG. assert (K : forall w, input_symbol g w \/ w = EPSILON -> exists b w', w = b :: w' /\ (w' = [] \/ b = "@"%char)).
  { intros w [(q & a & Ha & Hi & _)| ->]; [|exists "@"%char; eexists; split; [reflexivity|auto]].
    pose proof (state_In g HG q a Ha) as X. cbv beta in X. rewrite Hi in X. destruct w as [|b [|c w]]; [discriminate|exists b, []; auto|].
    exists b, (c :: w). split; [reflexivity|]. right. apply Ascii.eqb_eq. exact X. }
  induction s as [|b s IH]; intros H; [constructor|]. cbn [forallb] in H. apply andb_true_iff in H. destruct H as (H & Hs). apply andb_true_iff in H. destruct H as (H1 & H2). cbn [map].
  assert (P : forall w, (input_symbol g w \/ w = EPSILON) -> Tok_Spec.prefix_of w (b :: s) -> w = [b]).
  { intros w Hw (r & E). destruct (K w Hw) as (c & w' & -> & [-> | ->]); injection E as -> _; [reflexivity|discriminate]. }
  assert (D : input_symbol g [b] \/ ~ input_symbol g [b]).
  { destruct (existsb (existsb (fun a => bstr_eqb (isy a) [b])) (sts g)) eqn:X.
    - apply existsb_exists in X. destruct X as (l & Hl & X). apply existsb_exists in X. destruct X as (a & Ha & X). apply bstr_eqb_eq in X.
      apply (In_nth _ _ []) in Hl. destruct Hl as (q & _ & <-). left. exists q, a. split; [exact Ha|]. split; [exact X|].
      unfold free_input. destruct (is_diacritic [b]) eqn:Y; [apply is_diacritic_denotes in Y; destruct Y as (y & Y); inversion Y|]. rewrite orb_false_r. apply bstr_eqb_neq. discriminate.
    - right. intros (q & a & Ha & Hi & _). assert (Y : existsb (existsb (fun a => bstr_eqb (isy a) [b])) (sts g) = true); [|congruence].
      apply existsb_exists. exists (nth q (sts g) []). split; [destruct (Nat.lt_ge_cases q (length (sts g))) as [L|L]; [apply nth_In, L|rewrite nth_overflow in Ha by exact L; destruct Ha]|].
      apply existsb_exists. exists a. split; [exact Ha|]. apply bstr_eqb_eq. exact Hi. }
  destruct D as [D|D].
  - apply (Tok_Spec.seg_sym _ _ [b] s); [|apply IH, Hs]. split; [left; exact D|]. split; [exists s; reflexivity|]. intros w Hw Pw. rewrite (P w Hw Pw). reflexivity.
  - apply (Tok_Spec.seg_chr _ _ [b] s); [|cbn [one_char length]; unfold char_length; rewrite H1; reflexivity|apply IH, Hs].
    intros w Hw Pw. rewrite (P w Hw Pw) in Hw. destruct Hw as [Hw|Hw]; [exact (D Hw)|discriminate].
Qed.
Theorem C37_unknown_character_refuted : exists enc dec g tr en,
  setting enc dec g true tr /\ used dec tr (tr_alphabet tr) en /\ text (tr_alphabet tr) (B "z") /\ tokens g (B "z") [B "z"]
  /\ lookup_fd_pairs dec MAX_RECURSION_DEPTH None (tr_tables tr) (tr_alphabet tr) en (B "z") = Ub.
Proof.
  destruct (to_ol enc0 outside_ex true) as [tr| | |] eqn:E; try (vm_compute in E; discriminate E).
  assert (SG : structure_ok outside_ex) by (apply small_structure; [reflexivity|discriminate]).
  assert (ST : setting enc0 dec0 outside_ex true tr) by (apply small_setting; [exact SG|vm_compute; reflexivity|exact E|]; vm_compute in E; injection E as <-; vm_compute; reflexivity).
  destruct (new_encoder (tr_alphabet tr) (N.to_nat (h_input_symbols (tr_header tr)))) as [en| | |] eqn:En; try (vm_compute in E; injection E as <-; vm_compute in En; discriminate En).
  exists enc0, dec0, outside_ex, tr, en.
  split; [exact ST|]. split; [constructor; exact En|]. split; [apply text_short; vm_compute in E; injection E as <-; vm_compute; reflexivity|].
  split.
  - apply (ascii_tokens outside_ex (B "z")); reflexivity.
  - vm_compute in E. injection E as <-. vm_compute in En. injection En as <-. vm_compute. reflexivity.
Qed.
Print Assumptions C37_unknown_character_refuted.

(** ... and a character cut off by the end of the text is read past that end. *)
Theorem C37_cut_off_character_refuted : exists enc dec g tr en,
  setting enc dec g true tr /\ used dec tr (tr_alphabet tr) en /\ text (tr_alphabet tr) ["195"%char] /\ (forall ts, ~ tokens g ["195"%char] ts)
  /\ lookup_fd_pairs dec MAX_RECURSION_DEPTH None (tr_tables tr) (tr_alphabet tr) en ["195"%char] = Ub.
Proof.
  destruct (to_ol enc0 outside_ex true) as [tr| | |] eqn:E; try (vm_compute in E; discriminate E).
  assert (SG : structure_ok outside_ex) by (apply small_structure; [reflexivity|discriminate]).
  assert (ST : setting enc0 dec0 outside_ex true tr) by (apply small_setting; [exact SG|vm_compute; reflexivity|exact E|]; vm_compute in E; injection E as <-; vm_compute; reflexivity).
  destruct (new_encoder (tr_alphabet tr) (N.to_nat (h_input_symbols (tr_header tr)))) as [en| | |] eqn:En; try (vm_compute in E; injection E as <-; vm_compute in En; discriminate En).
  exists enc0, dec0, outside_ex, tr, en.
  split; [exact ST|]. split; [constructor; exact En|]. split; [apply text_short; vm_compute in E; injection E as <-; vm_compute; reflexivity|].
  split.
  - intros ts H. remember ["195"%char] as s eqn:Es. destruct H as [|w r ts (Hw & _) H|c r ts NP OC H].
    + discriminate.
    + assert (Hin : (exists b w', w = b :: w' /\ (b = "a"%char \/ b = "@"%char))).
      { destruct Hw as [(q & a & Ha & Hi & _)| ->]; [|exists "@"%char; eexists; split; [reflexivity|auto]].
        destruct q as [|[|q]]; [destruct Ha as [<- |[]]|destruct Ha|destruct q; destruct Ha]. subst w. exists "a"%char, []. auto. }
      destruct Hin as (b & w' & -> & Hb). injection Es as Eb _. subst b. destruct Hb; discriminate.
    + destruct c as [|b c]; [destruct OC|]. injection Es as -> Ec. apply app_eq_nil in Ec. destruct Ec as (-> & _). vm_compute in OC. discriminate.
  - vm_compute in E. injection E as <-. vm_compute in En. injection En as <-. vm_compute. reflexivity.
Qed.
Print Assumptions C37_cut_off_character_refuted.

(** * C65: lookup in a transducer and in its conversion *)
Definition hide (p : bstr * bstr) : bstr * bstr := (show (fst p), show (snd p)).

Definition plain_arc (a : arc) : Prop :=
  (forall x, ~ denotes (isy a) x) /\ isy a <> UNKNOWN /\ isy a <> IDENTITY /\ osy a <> UNKNOWN /\ osy a <> IDENTITY.
Lemma show_other x : x <> EPSILON -> show x = x.
Proof. intros H. unfold show. rewrite (proj2 (bstr_eqb_neq _ _) H). reflexivity. Qed.
Lemma read_shown a : plain_arc a -> isy a <> EPSILON -> shown (a, Some (isy a)) = hide (LK_Spec.shown (a, Some (isy a))).
Proof.
  intros (_ & H1 & H2 & H3 & H4) NE. unfold shown, LK_Spec.shown. rewrite (proj2 (bstr_eqb_neq _ _) H3), (proj2 (bstr_eqb_neq _ _) H4). cbn [orb].
  rewrite (proj2 (bstr_eqb_neq (isy a) (B "@_IDENTITY_SYMBOL_@")) H2), (proj2 (bstr_eqb_neq (isy a) (B "@_UNKNOWN_SYMBOL_@")) H1). unfold hide. cbn [fst snd]. rewrite (show_other (isy a) NE). reflexivity.
Qed.
Lemma input_not_epsilon g x : input_symbol g x -> x <> EPSILON.
Proof. intros (s & a & _ & _ & F) ->. discriminate. Qed.
Lemma run_matches g : (forall q a, In a (nth q (sts g) []) -> plain_arc a) -> forall s e r ts t, lookup_run g s e r ts t ->
  (forall x, In x ts -> input_symbol g x) -> LK_Spec.matches g s r ts t /\ map shown r = map hide (map LK_Spec.shown r).
Proof.
  intros PA s e r ts t H. induction H as [s e|s e a r ts t Ha Ei H IH|s e a x r ts t Ha D _ H IH|s e a x r ts t Ha Ei Ix H IH|s e a x r ts t Ha Ei Nx H IH]; intros Hts.
  - split; [constructor|reflexivity].
  - destruct (IH Hts) as (M & E). split; [|cbn [map]; rewrite E; reflexivity].
    apply LK_Spec.ma_free; [exact Ha|left; exact Ei| |exact M]. intros x i -> C. apply (input_not_epsilon g x); [apply Hts; left; reflexivity|congruence].
  - destruct (proj1 (PA _ _ Ha) x D).
  - destruct (IH (fun y Hy => Hts y (or_intror Hy))) as (M & E). split; [apply LK_Spec.ma_read; [exact Ha|left; exact Ei|exact M]|].
    cbn [map]. rewrite E. rewrite <- Ei, (read_shown a (PA _ _ Ha)); [reflexivity|]. rewrite Ei. exact (input_not_epsilon g x Ix).
  - destruct (Nx (Hts x (or_introl eq_refl))).
Qed.
Lemma matches_run g : (forall q a, In a (nth q (sts g) []) -> plain_arc a) -> forall s r ts t, LK_Spec.matches g s r ts t ->
  (forall x, In x ts -> input_symbol g x) -> forall e, lookup_run g s e r ts t /\ map shown r = map hide (map LK_Spec.shown r).
Proof.
  intros PA s r ts t H. induction H as [s|s a r ts t Ha Fa _ H IH|s a x r ts t Ha Cr H IH]; intros Hts e.
  - split; [constructor|reflexivity].
  - destruct (IH Hts e) as (M & E). split; [|cbn [map]; rewrite E; reflexivity].
    destruct Fa as [Ei|D]; [apply lr_epsilon; assumption|]. apply is_diacritic_denotes in D. destruct D as (x & D). destruct (proj1 (PA _ _ Ha) x D).
  - destruct (IH (fun y Hy => Hts y (or_intror Hy)) e) as (M & E). assert (Ix : input_symbol g x) by (apply Hts; left; reflexivity).
    destruct Cr as [Ei|([Ei|Ei] & _)]; [|destruct (PA _ _ Ha) as (_ & C & _); contradiction|destruct (PA _ _ Ha) as (_ & _ & C & _); contradiction].
    split; [apply lr_known; assumption|]. cbn [map]. rewrite E. rewrite <- Ei, (read_shown a (PA _ _ Ha)); [reflexivity|]. rewrite Ei. exact (input_not_epsilon g x Ix).
Qed.

(** Partial: every token is an input symbol; there are no flags, unknown or identity symbols on
    the arcs, no epsilon cycles, and the results considered are shorter than the recursion
    limit. *)
Theorem C65_lookups_agree_partial : forall enc dec g weighted tr al en depth s ts fuel cutoff basic ol al' en',
  setting enc dec g weighted tr -> used dec tr al en -> text al s -> tokens g s ts -> (forall x, In x ts -> input_symbol g x) ->
  (forall q a, In a (nth q (sts g) []) ->
     (forall x, ~ denotes (isy a) x) /\ isy a <> UNKNOWN /\ isy a <> IDENTITY /\ osy a <> UNKNOWN /\ osy a <> IDENTITY) ->
  (forall q c, ~ cycle free_arc g q c) ->
  LK_Props.lookup_bound g cutoff ts < fuel ->
  LK_Model.lookup fuel g (Limits None None) cutoff ts = Ok basic ->
  lookup_fd_pairs dec depth None (tr_tables tr) al en s = Ok (ol, al', en') ->
  (forall w ps, In (w, ps) ol -> exists ps', In (w, ps') basic /\ ps = map hide ps')
  /\ (forall w ps, In (w, ps) basic -> length ps < depth -> In (w, map hide ps) ol).
Proof.
  intros enc dec g weighted tr al en depth s ts fuel cutoff basic ol al' en' ST U TX Ht Hts PA NC Hf EB EO.
  assert (SG : structure_ok g) by apply ST.
  assert (PA' : forall q a, In a (nth q (sts g) []) -> plain_arc a) by exact PA.
  split.
  - intros w ps H. destruct (C36_sound _ _ _ _ _ _ _ _ _ _ _ _ _ ST U TX EO w ps H) as (ts' & r & Ht' & Ld & t & fw & LR & Hfw & -> & ->).
    destruct (setting_facts _ _ _ _ _ ST) as (addr & R & F1 & F2 & F3 & F4 & F5 & F6 & F7 & F8 & F9).
    rewrite <- (tokens_fun dec tr g addr R F4 F8 F9 s ts Ht ts' Ht') in LR.
    destruct (run_matches g PA' _ _ _ _ _ LR Hts) as (M & E). exists (map LK_Spec.shown r). split; [|exact E].
    destruct (LK_Props.C30_complete_without_cycles g cutoff ts fuel r (run_weight r + fw)%Z (map LK_Spec.shown r) SG Hf NC) as (res & E1 & I).
    { exists t, fw. auto. }
    rewrite E1 in EB. injection EB as <-. exact I.
  - intros w ps H Ld. destruct (LK_Props.C30_lookup_sound g (Limits None None) cutoff ts fuel basic SG Hf EB w ps H) as (r & (t & fw & M & Hfw & -> & ->) & _).
    destruct (matches_run g PA' _ _ _ _ M Hts env0) as (LR & E). rewrite <- E. rewrite map_length in Ld.
    apply (C36_complete_without_flags _ _ _ _ _ _ _ _ _ _ _ _ _ ST U TX (fun q a x Ha => proj1 (PA q a Ha) x) EO I ts r); [exact Ht| |exact Ld].
    exists t, fw. auto.
Qed.
Print Assumptions C65_lookups_agree_partial.

(** C65 in full is false: the symbol [b] occurs on an output side only, so lookup in the
    converted transducer takes it for an unknown symbol, which identity reads; lookup in the
    transducer itself does not. *)
Definition disagree_ex : graph :=
  Graph [[Arc 1 (B "a") (B "b") 0; Arc 1 (B "@_IDENTITY_SYMBOL_@") (B "@_IDENTITY_SYMBOL_@") 0; Arc 1 (B "@_UNKNOWN_SYMBOL_@") (B "c") 1]; []] [(1, 0%Z)]
    (symbols_of [B "a"; B "b"; B "c"]).
Theorem C65_output_symbol_refuted : exists enc dec g tr en al' en',
  setting enc dec g true tr /\ used dec tr (tr_alphabet tr) en /\ text (tr_alphabet tr) (B "b") /\ tokens g (B "b") [B "b"]
  /\ LK_Props.lookup_bound g 5 [B "b"] < N.to_nat 1000 /\ LK_Model.lookup (N.to_nat 1000) g (Limits None None) 5 [B "b"] = Ok []
  /\ lookup_fd_pairs dec MAX_RECURSION_DEPTH None (tr_tables tr) (tr_alphabet tr) en (B "b")
     = Ok ([(0%Z, [(B "@_IDENTITY_SYMBOL_@", B "b")]); (1%Z, [(B "@_UNKNOWN_SYMBOL_@", B "c")])], al', en').
Proof.
  destruct (to_ol enc0 disagree_ex true) as [tr| | |] eqn:E; try (vm_compute in E; discriminate E).
  assert (SG : structure_ok disagree_ex) by (apply small_structure; [reflexivity|discriminate]).
  assert (ST : setting enc0 dec0 disagree_ex true tr) by (apply small_setting; [exact SG|vm_compute; reflexivity|exact E|]; vm_compute in E; injection E as <-; vm_compute; reflexivity).
  destruct (new_encoder (tr_alphabet tr) (N.to_nat (h_input_symbols (tr_header tr)))) as [en| | |] eqn:En; try (vm_compute in E; injection E as <-; vm_compute in En; discriminate En).
  destruct (lookup_fd_pairs dec0 MAX_RECURSION_DEPTH None (tr_tables tr) (tr_alphabet tr) en (B "b")) as [[[r al'] en']| | |] eqn:L;
    try (vm_compute in E; injection E as <-; vm_compute in En; injection En as <-; vm_compute in L; discriminate L).
  exists enc0, dec0, disagree_ex, tr, en, al', en'.
  split; [exact ST|]. split; [constructor; exact En|]. split; [apply text_short; vm_compute in E; injection E as <-; vm_compute; reflexivity|].
  split; [|split; [|split]].
  - apply (ascii_tokens disagree_ex (B "b")); reflexivity.
  - apply Nat.ltb_lt. vm_compute. reflexivity.
  - vm_compute. reflexivity.
  - rewrite L. do 3 f_equal. vm_compute in E. injection E as <-. vm_compute in En. injection En as <-. vm_compute in L. injection L as <- _ _. vm_compute. reflexivity.
Qed.
Print Assumptions C65_output_symbol_refuted.

(** * Witnesses *)
(** 0 -a:b/1-> 1, 0 -eps:x/2-> 1, 1 -P.F.V-> 2, 2 -id/3-> 3, 2 -unk:c/4-> 3, 3 -R.F.V-> 4, 3 -R.F.W-> 4; 4 is final with weight 5. *)
Definition oll_ex : graph :=
  Graph [[Arc 1 (B "a") (B "b") 1; Arc 1 (B "@_EPSILON_SYMBOL_@") (B "x") 2]; [Arc 2 (B "@P.F.V@") (B "@P.F.V@") 0];
         [Arc 3 (B "@_IDENTITY_SYMBOL_@") (B "@_IDENTITY_SYMBOL_@") 3; Arc 3 (B "@_UNKNOWN_SYMBOL_@") (B "c") 4];
         [Arc 4 (B "@R.F.V@") (B "@R.F.V@") 0; Arc 4 (B "@R.F.W@") (B "@R.F.W@") 0]; []] [(4, 5%Z)]
    (symbols_of [B "a"; B "b"; B "c"; B "x"; B "@P.F.V@"; B "@R.F.V@"; B "@R.F.W@"]).
Definition oll_run : list step :=
  [(Arc 1 (B "a") (B "b") 1, Some (B "a")); (Arc 2 (B "@P.F.V@") (B "@P.F.V@") 0, None);
   (Arc 3 (B "@_IDENTITY_SYMBOL_@") (B "@_IDENTITY_SYMBOL_@") 3, Some (B "z")); (Arc 4 (B "@R.F.V@") (B "@R.F.V@") 0, None)].
Definition oll_pairs : list (bstr * bstr) :=
  [(B "a", B "b"); (B "@P.F.V@", B "@P.F.V@"); (B "@_IDENTITY_SYMBOL_@", B "z"); (B "@R.F.V@", B "@R.F.V@")].
(** A second lookup, with an unknown symbol; the first one has added another. *)
Example C36_witness : exists tr al en res al' en',
  setting enc0 dec0 oll_ex true tr /\ used dec0 tr al en /\ text al (B "az") /\ tokens oll_ex (B "az") [B "a"; B "z"] /\ length (a_table al) = length (a_table (tr_alphabet tr)) + 1
  /\ lookup_fd_pairs dec0 MAX_RECURSION_DEPTH None (tr_tables tr) al en (B "az") = Ok (res, al', en')
  /\ length res = 2 /\ In (9%Z, oll_pairs) res
  /\ result oll_ex [B "a"; B "z"] oll_run 9 oll_pairs /\ unrepeated [] env0 oll_run
  /\ input_symbol oll_ex UNKNOWN /\ input_symbol oll_ex IDENTITY.
Proof.
  destruct (to_ol enc0 oll_ex true) as [tr| | |] eqn:E; try (vm_compute in E; discriminate E).
  assert (SG : structure_ok oll_ex) by (apply small_structure; [reflexivity|discriminate]).
  assert (ST : setting enc0 dec0 oll_ex true tr) by (apply small_setting; [exact SG|vm_compute; reflexivity|exact E|]; vm_compute in E; injection E as <-; vm_compute; reflexivity).
  destruct (new_encoder (tr_alphabet tr) (N.to_nat (h_input_symbols (tr_header tr)))) as [en0| | |] eqn:En; try (vm_compute in E; injection E as <-; vm_compute in En; discriminate En).
  destruct (lookup_fd_pairs dec0 MAX_RECURSION_DEPTH None (tr_tables tr) (tr_alphabet tr) en0 (B "q")) as [[[res0 al] en]| | |] eqn:L0;
    try (vm_compute in E; injection E as <-; vm_compute in En; injection En as <-; vm_compute in L0; discriminate L0).
  destruct (lookup_fd_pairs dec0 MAX_RECURSION_DEPTH None (tr_tables tr) al en (B "az")) as [[[res al'] en']| | |] eqn:L;
    try (vm_compute in E; injection E as <-; vm_compute in En; injection En as <-; vm_compute in L0; injection L0 as <- <- <-; vm_compute in L; discriminate L).
  exists tr, al, en, res, al', en'.
  split; [exact ST|]. split.
  { eapply used_again; [constructor; exact En| | |exact L0]; [intros [C|[]]; discriminate|]. vm_compute in E. injection E as <-. vm_compute. discriminate. }
  split; [apply text_short; vm_compute in E; injection E as <-; vm_compute in En; injection En as <-; vm_compute in L0; injection L0 as <- <- <-; vm_compute; reflexivity|].
  split; [apply (ascii_tokens oll_ex (B "az")); reflexivity|].
  split; [vm_compute in E; injection E as <-; vm_compute in En; injection En as <-; vm_compute in L0; injection L0 as <- <- <-; vm_compute; reflexivity|].
  split; [exact L|].
  assert (K : res = [(9%Z, oll_pairs); (10%Z, [(B "a", B "b"); (B "@P.F.V@", B "@P.F.V@"); (B "@_UNKNOWN_SYMBOL_@", B "c"); (B "@R.F.V@", B "@R.F.V@")])]).
  { vm_compute in E. injection E as <-. vm_compute in En. injection En as <-. vm_compute in L0. injection L0 as <- <- <-. vm_compute in L. injection L as <- <- <-. reflexivity. }
  split; [rewrite K; reflexivity|]. split; [rewrite K; left; reflexivity|].
  assert (IU : input_symbol oll_ex UNKNOWN) by (exists 2; eexists; split; [right; left; reflexivity|split; reflexivity]).
  assert (II : input_symbol oll_ex IDENTITY) by (exists 2; eexists; split; [left; reflexivity|split; reflexivity]).
  split; [|split; [|split; [exact IU|exact II]]].
  - exists 4, 5%Z. split; [|split; [reflexivity|split; reflexivity]]. unfold oll_run.
    apply lr_known; [left; reflexivity|reflexivity|exists 0; eexists; split; [left; reflexivity|split; reflexivity]|].
    apply (lr_flag _ _ _ _ (FP (B "F") (B "V"))); [left; reflexivity|apply (den_P (B "F") (B "V")); vm_compute; intuition discriminate|reflexivity|].
    apply lr_unknown; [left; reflexivity|right; reflexivity| |].
    { intros (s & a & Ha & Hi & _). destruct s as [|[|[|[|[|s]]]]]; simpl in Ha; repeat (destruct Ha as [<- |Ha]; [discriminate Hi|]); try destruct Ha. destruct s; destruct Ha. }
    apply (lr_flag _ _ _ _ (FR (B "F") (Some (B "V")))); [left; reflexivity|apply (den_Rv (B "F") (B "V")); vm_compute; intuition discriminate|reflexivity|]. constructor.
  - unfold oll_run. apply ur_read. apply (ur_flag _ _ _ (FP (B "F") (B "V"))); [apply (den_P (B "F") (B "V")); vm_compute; intuition discriminate|intros e' []|].
    apply ur_read. apply (ur_flag _ _ _ (FR (B "F") (Some (B "V")))); [apply (den_Rv (B "F") (B "V")); vm_compute; intuition discriminate|intros e' []|]. constructor.
Qed.

(** 0 -a:b/1-> 1, 0 -eps:x-> 2, 2 -a:eps/2-> 1, 1 -c:c-> 1; both lookups find two results for "ac". *)
Definition agree_ex : graph :=
  Graph [[Arc 1 (B "a") (B "b") 1; Arc 2 (B "@_EPSILON_SYMBOL_@") (B "x") 0]; [Arc 1 (B "c") (B "c") 0]; [Arc 1 (B "a") (B "@_EPSILON_SYMBOL_@") 2]] [(1, 0%Z)]
    (symbols_of [B "a"; B "b"; B "c"; B "x"]).
Lemma agree_arcs q a : In a (nth q (sts agree_ex) []) ->
  a = Arc 1 (B "a") (B "b") 1 \/ a = Arc 2 (B "@_EPSILON_SYMBOL_@") (B "x") 0 \/ a = Arc 1 (B "c") (B "c") 0 \/ a = Arc 1 (B "a") (B "@_EPSILON_SYMBOL_@") 2.
Proof. destruct q as [|[|[|q]]]; simpl; intros H; [| | |destruct q; destruct H]; intuition (subst; auto). Qed.
Example C65_witness : exists tr en al' en',
  setting enc0 dec0 agree_ex true tr /\ used dec0 tr (tr_alphabet tr) en /\ text (tr_alphabet tr) (B "ac") /\ tokens agree_ex (B "ac") [B "a"; B "c"]
  /\ (forall x, In x [B "a"; B "c"] -> input_symbol agree_ex x)
  /\ (forall q a, In a (nth q (sts agree_ex) []) -> plain_arc a)
  /\ (forall q c, ~ cycle free_arc agree_ex q c)
  /\ LK_Props.lookup_bound agree_ex 5 [B "a"; B "c"] < N.to_nat 2000
  /\ LK_Model.lookup (N.to_nat 2000) agree_ex (Limits None None) 5 [B "a"; B "c"]
     = Ok [(1%Z, [(B "a", B "b"); (B "c", B "c")]); (2%Z, [(B "@_EPSILON_SYMBOL_@", B "x"); (B "a", B "@_EPSILON_SYMBOL_@"); (B "c", B "c")])]
  /\ lookup_fd_pairs dec0 MAX_RECURSION_DEPTH None (tr_tables tr) (tr_alphabet tr) en (B "ac")
     = Ok ([(1%Z, [(B "a", B "b"); (B "c", B "c")]); (2%Z, [([], B "x"); (B "a", []); (B "c", B "c")])], al', en').
Proof.
  destruct (to_ol enc0 agree_ex true) as [tr| | |] eqn:E; try (vm_compute in E; discriminate E).
  assert (SG : structure_ok agree_ex) by (apply small_structure; [reflexivity|discriminate]).
  assert (ST : setting enc0 dec0 agree_ex true tr) by (apply small_setting; [exact SG|vm_compute; reflexivity|exact E|]; vm_compute in E; injection E as <-; vm_compute; reflexivity).
  destruct (new_encoder (tr_alphabet tr) (N.to_nat (h_input_symbols (tr_header tr)))) as [en| | |] eqn:En; try (vm_compute in E; injection E as <-; vm_compute in En; discriminate En).
  destruct (lookup_fd_pairs dec0 MAX_RECURSION_DEPTH None (tr_tables tr) (tr_alphabet tr) en (B "ac")) as [[[r al'] en']| | |] eqn:L;
    try (vm_compute in E; injection E as <-; vm_compute in En; injection En as <-; vm_compute in L; discriminate L).
  exists tr, en, al', en'.
  split; [exact ST|]. split; [constructor; exact En|]. split; [apply text_short; vm_compute in E; injection E as <-; vm_compute; reflexivity|].
  split; [apply (ascii_tokens agree_ex (B "ac")); reflexivity|].
  split; [|split; [|split; [|split; [|split]]]].
  - intros x [<- |[<- |[]]]; [exists 0|exists 1]; eexists; (split; [left; reflexivity|split; reflexivity]).
  - intros q a Ha. apply agree_arcs in Ha.
    assert (K : is_diacritic (isy a) = false /\ isy a <> UNKNOWN /\ isy a <> IDENTITY /\ osy a <> UNKNOWN /\ osy a <> IDENTITY).
    { destruct Ha as [-> |[-> |[-> | ->]]]; repeat split; vm_compute; congruence. }
    destruct K as (K & K'). split; [|exact K']. intros x D. assert (C : is_diacritic (isy a) = true) by (apply is_diacritic_denotes; eauto). congruence.
  - intros q c (N & P & F). destruct c as [|a c]; [congruence|]. inversion P as [|? ? ? ? Ha P']; subst. inversion F as [|? ? Fa F']; subst.
    assert (Ea : a = Arc 2 (B "@_EPSILON_SYMBOL_@") (B "x") 0 /\ q = 0).
    { destruct Fa as [Fa|Fa]; destruct q as [|[|[|q]]]; simpl in Ha; [| | |destruct q; destruct Ha| | | |destruct q; destruct Ha]; repeat (destruct Ha as [<- |Ha]; [try discriminate Fa; auto|]); destruct Ha. }
    destruct Ea as (-> & ->). cbn [tgt] in P'. inversion P' as [|? b ? ? Hb P2]; subst. inversion F' as [|? ? Fb _]; subst.
    simpl in Hb. destruct Hb as [<- |[]]. destruct Fb as [Fb|Fb]; discriminate Fb.
  - apply Nat.ltb_lt. vm_compute. reflexivity.
  - vm_compute. reflexivity.
  - rewrite L. do 3 f_equal. vm_compute in E. injection E as <-. vm_compute in En. injection En as <-. vm_compute in L. injection L as <- _ _. vm_compute. reflexivity.
Qed.
