(** Property C142: is_lookup_infinitely_ambiguous in the optimized-lookup format. *)
From Coq Require Import Permutation NArith.
From Verif Require Import Base OrdMap Flags_Model Flags_Spec Flags_Proofs BT_Model BT_Spec An_Model An_Spec An_Props LK_Model OLF_Model OLC_Model OLL_Model OLC_Spec OLC_Proofs OLC_Proofs7 OLC_Props OLL_Spec OLL_Proofs OLL_Proofs2 OLL_Proofs3 OLL_Props FL_Spec FL_Model FL_Proofs.
From Verif Require Tok_Spec Tok_Model.

(** The search on the tokens of a text. *)
Lemma search_of enc dec g weighted tr al en s ts : setting enc dec g weighted tr -> used dec tr al en -> text al s -> tokens g s ts -> exists addr extra input al' en',
  represents dec tr g addr /\ tokens_ok tr g extra input ts /\ al' = set_table (tr_alphabet tr) (a_table (tr_alphabet tr) ++ extra) /\
  forall fuel, is_lookup_infinitely_ambiguous fuel (tr_tables tr) al en s =
    rmap (fun r => (match r with None => true | Some _ => false end, al', en')) (find_loop al' (tr_tables tr) fuel input (fdstate_new (a_fd (tr_alphabet tr))) (addr 0) (FState [] false)).
Proof.
  intros ST U (N1 & N2 & L) Ht. destruct (setting_facts _ _ _ _ _ ST) as (addr & R & F1 & F2 & F3 & F4 & F5 & F6 & F7 & F8 & F9).
  destruct (used_grown dec tr g addr R F2 F4 F5 F6 F7 F8 F9 al en U) as (extra & G).
  pose proof (initialize_spec dec tr g addr R F4 F8 F9 (length s) s al en extra (le_n _) G N1 L) as I. unfold is_lookup_infinitely_ambiguous.
  destruct (initialize_input (length s) s al en) as [((o & al1) & en1)| | |]; [|destruct I|destruct (I ts Ht)|destruct I].
  destruct I as ((extra' & G' & _) & _ & I). destruct o as [input|]; [|destruct (I ts Ht)]. destruct I as (ts2 & Ht2 & FT). rewrite <- (tokens_fun dec tr g addr R F4 F8 F9 s ts Ht ts2 Ht2) in FT. rewrite (gr_al _ _ _ _ _ G') in *.
  exists addr, extra', input, (set_table (tr_alphabet tr) (a_table (tr_alphabet tr) ++ extra')), en1. split; [exact R|].
  split; [apply (tokens_all_ok tr g extra' input ts (no_epsilon_tokens g s ts N2 Ht) FT)|]. split; [reflexivity|]. intros fuel. rewrite (rep_start _ _ _ _ R). reflexivity.
Qed.

(** C142: no loop is missed: if the answer is no, then no walk over some of the tokens comes to a
    loop that reads nothing.  Partial: all tokens are input symbols (C142_unknown_refuted). *)
Theorem C142_no_partial enc dec g weighted tr al en s ts fuel al' en' : setting enc dec g weighted tr -> used dec tr al en -> text al s -> tokens g s ts ->
  (forall x, In x ts -> input_symbol g x) ->
  is_lookup_infinitely_ambiguous fuel (tr_tables tr) al en s = Ok (false, al', en') -> ~ loops g ts.
Proof.
  intros ST U TX Ht Ai E NL. destruct (setting_facts _ _ _ _ _ ST) as (_ & _ & F1 & F2 & F3 & F4 & F5 & F6 & F7 & F8 & F9).
  destruct (search_of _ _ _ _ _ _ _ _ _ ST U TX Ht) as (addr & extra & input & al1 & en1 & R & TO & -> & Q). rewrite Q in E.
  destruct (find_loop _ _ _ _ _ _ _) as [[st'|]| | |] eqn:EF; cbn [rmap rbind] in E; try discriminate.
  destruct (loops_unbounded g ts NL fuel) as (n & ts1 & ts2 & c & Ets & W & Ln).
  pose proof (returned_short dec tr g addr R F1 F2 F5 F6 F7 F8 extra fuel input ts _ env0 0 TO Ai (fd_env0 dec tr g addr R F2 F5 F6 F8) (states_nonempty tr g F1 F5 F8 F9)
    (ex_intro _ _ (ex_intro _ _ EF)) n ts1 ts2 c Ets W). lia.
Qed.
Print Assumptions C142_no_partial.

(** C142: if the answer is yes, there is such a loop.  Partial: all tokens are input symbols, and
    there are no flags (C142_flags_refuted). *)
Theorem C142_yes_partial enc dec g weighted tr al en s ts fuel al' en' : setting enc dec g weighted tr -> used dec tr al en -> text al s -> tokens g s ts ->
  (forall x, In x ts -> input_symbol g x) -> no_flags g ->
  is_lookup_infinitely_ambiguous fuel (tr_tables tr) al en s = Ok (true, al', en') -> loops g ts.
Proof.
  intros ST U TX Ht Ai NF E. destruct (setting_facts _ _ _ _ _ ST) as (_ & _ & F1 & F2 & F3 & F4 & F5 & F6 & F7 & F8 & F9).
  destruct (search_of _ _ _ _ _ _ _ _ _ ST U TX Ht) as (addr & extra & input & al1 & en1 & R & TO & -> & Q). rewrite Q in E.
  destruct (find_loop _ _ _ _ _ _ _) as [[st'|]| | |] eqn:EF; cbn [rmap rbind] in E; try discriminate.
  destruct (find_loop_sound dec tr g addr R F1 F2 F5 F6 F7 F8 extra NF fuel input ts _ env0 0 (FState [] false) None TO Ai (fd_env0 dec tr g addr R F2 F5 F6 F8) (states_nonempty tr g F1 F5 F8 F9) (fun p H => match H with end) EF)
    as (ts1 & ts2 & n & m & q & Ets & W1 & W2).
  exists ts1, ts2, n, m, q, env0, env0. split; [exact Ets|]. split; [exact W1|]. split; [exact W2|]. intros f. reflexivity.
Qed.
Print Assumptions C142_yes_partial.

(** C142: for a text that cannot be divided into tokens (it is no UTF-8) the answer is never yes. *)
Theorem C142_unreadable enc dec g weighted tr al en s fuel : setting enc dec g weighted tr -> used dec tr al en -> text al s -> (forall ts, ~ tokens g s ts) ->
  is_lookup_infinitely_ambiguous fuel (tr_tables tr) al en s = Ub \/ exists al' en', is_lookup_infinitely_ambiguous fuel (tr_tables tr) al en s = Ok (false, al', en').
Proof.
  intros ST U (N1 & N2 & L) Ht. destruct (setting_facts _ _ _ _ _ ST) as (addr & R & F1 & F2 & F3 & F4 & F5 & F6 & F7 & F8 & F9).
  destruct (used_grown dec tr g addr R F2 F4 F5 F6 F7 F8 F9 al en U) as (extra & G).
  pose proof (initialize_spec dec tr g addr R F4 F8 F9 (length s) s al en extra (le_n _) G N1 L) as I. unfold is_lookup_infinitely_ambiguous.
  destruct (initialize_input (length s) s al en) as [((o & al1) & en1)| | |]; [|destruct I|left; reflexivity|destruct I].
  destruct I as (_ & _ & I). destruct o as [input|]; [|right; exists al1, en1; reflexivity]. destruct I as (ts & Ht2 & _). destruct (Ht ts Ht2).
Qed.
Print Assumptions C142_unreadable.

(** C142: without loops the search ends and answers no.  Partial: as above; with loops it may not
    end (C142_endless_refuted). *)
Theorem C142_ends_partial enc dec g weighted tr al en s ts : setting enc dec g weighted tr -> used dec tr al en -> text al s -> tokens g s ts ->
  (forall x, In x ts -> input_symbol g x) -> no_flags g -> ~ loops g ts ->
  forall fuel, (length ts + 1) * (length (sts g) + 1) <= fuel -> exists al' en', is_lookup_infinitely_ambiguous fuel (tr_tables tr) al en s = Ok (false, al', en').
Proof.
  intros ST U TX Ht Ai NF NL fuel Lf. destruct (setting_facts _ _ _ _ _ ST) as (_ & _ & F1 & F2 & F3 & F4 & F5 & F6 & F7 & F8 & F9).
  destruct (search_of _ _ _ _ _ _ _ _ _ ST U TX Ht) as (addr & extra & input & al1 & en1 & R & TO & -> & Q).
  assert (NL' : ~ loop_from g 0 env0 ts).
  { intros (ts1 & ts2 & n & m & q & Ets & W1 & W2). apply NL. exists ts1, ts2, n, m, q, env0, env0. split; [exact Ets|]. split; [exact W1|]. split; [exact W2|]. intros f. reflexivity. }
  destruct (short_total dec tr g addr R F1 F2 F5 F6 F7 F8 extra fuel input ts _ env0 0 TO Ai (fd_env0 dec tr g addr R F2 F5 F6 F8) (states_nonempty tr g F1 F5 F8 F9)) with (st := FState [] false) as (o & EF).
  { intros n ts1 ts2 c Ets W. pose proof (no_loop_bound g F1 NF ts n 0 env0 ts1 ts2 c (states_nonempty tr g F1 F5 F8 F9) Ets W NL') as B. rewrite Ets, app_length in Lf. nia. }
  destruct o as [st'|].
  - exists (set_table (tr_alphabet tr) (a_table (tr_alphabet tr) ++ extra)), en1. rewrite Q, EF. reflexivity.
  - exfalso. apply NL'. exact (find_loop_sound dec tr g addr R F1 F2 F5 F6 F7 F8 extra NF fuel input ts _ env0 0 (FState [] false) None TO Ai (fd_env0 dec tr g addr R F2 F5 F6 F8) (states_nonempty tr g F1 F5 F8 F9) (fun p H => match H with end) EF).
Qed.
Print Assumptions C142_ends_partial.

(** ** Examples *)
Definition arc_of (x : bstr) (t : nat) : arc := Arc t x x 0.
Lemma no_flags_b g : forallb (forallb (fun a => negb (is_diacritic (isy a)))) (sts g) = true -> no_flags g.
Proof.
  intros H s a x Ha D. pose proof (state_In g H s a Ha) as K. cbv beta in K. rewrite (proj2 (is_diacritic_denotes (isy a)) (ex_intro _ x D)) in K. discriminate K.
Qed.
Lemma input_here g s a x : In a (nth s (sts g) []) -> isy a = x -> free_input x = false -> input_symbol g x.
Proof. intros Ha E Fr. exists s, a. auto. Qed.
(** 0 -a-> 1, 1 -epsilon-> 1; 0 -b-> 2. *)
Definition loop_ex : graph := Graph [[arc_of (B "a") 1; arc_of (B "b") 2]; [arc_of EPSILON 1]; []] [(1, 0%Z); (2, 0%Z)] (symbols_of [B "a"; B "b"]).
Definition fresh_answer (g : graph) (s : bstr) (fuel : nat) : res bool :=
  rbind (to_ol enc0 g true) (fun tr =>
  rbind (new_encoder (tr_alphabet tr) (N.to_nat (h_input_symbols (tr_header tr)))) (fun en =>
  rmap (fun '(r, _, _) => r) (is_lookup_infinitely_ambiguous fuel (tr_tables tr) (tr_alphabet tr) en s))).
Example C142_witness : exists tr en, setting enc0 dec0 loop_ex true tr /\ used dec0 tr (tr_alphabet tr) en /\ text (tr_alphabet tr) (B "b") /\
  no_flags loop_ex /\ tokens loop_ex (B "a") [B "a"] /\ tokens loop_ex (B "b") [B "b"] /\ (forall x, In x [B "a"; B "b"] -> input_symbol loop_ex x) /\
  loops loop_ex [B "a"] /\ ~ loops loop_ex [B "b"] /\ fresh_answer loop_ex (B "a") 10 = Ok true /\ fresh_answer loop_ex (B "b") 10 = Ok false.
Proof.
  destruct (to_ol enc0 loop_ex true) as [tr| | |] eqn:E; try (vm_compute in E; discriminate E).
  assert (SG : structure_ok loop_ex) by (apply small_structure; [reflexivity|discriminate]).
  assert (ST : setting enc0 dec0 loop_ex true tr) by (apply small_setting; [exact SG|vm_compute; reflexivity|exact E|]; vm_compute in E; injection E as <-; vm_compute; reflexivity).
  destruct (new_encoder (tr_alphabet tr) (N.to_nat (h_input_symbols (tr_header tr)))) as [en| | |] eqn:En; try (vm_compute in E; injection E as <-; vm_compute in En; discriminate En).
  exists tr, en. split; [exact ST|]. assert (US : used dec0 tr (tr_alphabet tr) en) by (constructor; exact En). split; [exact US|].
  assert (TX : text (tr_alphabet tr) (B "b")) by (apply text_short; vm_compute in E; injection E as <-; vm_compute; reflexivity). split; [exact TX|].
  split; [apply no_flags_b; vm_compute; reflexivity|]. split; [exact (ascii_tokens loop_ex (B "a") eq_refl eq_refl)|]. assert (Tb : tokens loop_ex (B "b") [B "b"]) by exact (ascii_tokens loop_ex (B "b") eq_refl eq_refl). split; [exact Tb|].
  assert (Ia : input_symbol loop_ex (B "a")) by (apply (input_here loop_ex 0 (arc_of (B "a") 1)); [left; reflexivity|reflexivity|reflexivity]).
  assert (Ib : input_symbol loop_ex (B "b")) by (apply (input_here loop_ex 0 (arc_of (B "b") 2)); [right; left; reflexivity|reflexivity|reflexivity]).
  split; [intros x [<-|[<-|[]]]; assumption|]. split; [|split; [|split; vm_compute; reflexivity]].
  - exists [B "a"], [], 1, 0, 1, env0, env0. split; [reflexivity|]. split; [apply (wk_known loop_ex 0 env0 (arc_of (B "a") 1)); [left; reflexivity|reflexivity|exact Ia|constructor]|].
    split; [apply (wk_epsilon loop_ex 1 env0 (arc_of EPSILON 1)); [left; reflexivity|reflexivity|constructor]|intros f; reflexivity].
  - destruct (is_lookup_infinitely_ambiguous 10 (tr_tables tr) (tr_alphabet tr) en (B "b")) as [[[[] al'] en']| | |] eqn:L; try (vm_compute in E; injection E as <-; vm_compute in En; injection En as <-; vm_compute in L; discriminate L).
    apply (C142_no_partial enc0 dec0 loop_ex true tr (tr_alphabet tr) en (B "b") [B "b"] 10 al' en' ST US TX Tb); [|exact L]. intros x [<-|[]]. exact Ib.
Qed.

(** C142: there may be no answer.  In the first state an epsilon leads to a state that reads a, and
    another one back to the first state.  Reading a forgets the states on the way, so the loop is
    not seen and the search goes ever deeper. *)
Definition endless_ex : graph := Graph [[arc_of EPSILON 1; arc_of EPSILON 0]; [arc_of (B "a") 2]; []] [(2, 0%Z)] (symbols_of [B "a"]).
Theorem C142_endless_refuted : exists enc dec g tr en, setting enc dec g true tr /\ used dec tr (tr_alphabet tr) en /\ text (tr_alphabet tr) (B "a") /\ tokens g (B "a") [B "a"] /\
  input_symbol g (B "a") /\ no_flags g /\ loops g [B "a"] /\ forall fuel, is_lookup_infinitely_ambiguous fuel (tr_tables tr) (tr_alphabet tr) en (B "a") = Diverge.
Proof.
  destruct (to_ol enc0 endless_ex true) as [tr| | |] eqn:E; try (vm_compute in E; discriminate E).
  assert (SG : structure_ok endless_ex) by (apply small_structure; [reflexivity|discriminate]).
  assert (ST : setting enc0 dec0 endless_ex true tr) by (apply small_setting; [exact SG|vm_compute; reflexivity|exact E|]; vm_compute in E; injection E as <-; vm_compute; reflexivity).
  destruct (new_encoder (tr_alphabet tr) (N.to_nat (h_input_symbols (tr_header tr)))) as [en| | |] eqn:En; try (vm_compute in E; injection E as <-; vm_compute in En; discriminate En).
  exists enc0, dec0, endless_ex, tr, en. split; [exact ST|]. split; [constructor; exact En|]. split; [apply text_short; vm_compute in E; injection E as <-; vm_compute; reflexivity|].
  split; [exact (ascii_tokens endless_ex (B "a") eq_refl eq_refl)|]. split; [apply (input_here endless_ex 1 (arc_of (B "a") 2)); [left; reflexivity|reflexivity|reflexivity]|]. split; [apply no_flags_b; vm_compute; reflexivity|]. split.
  { exists [], [B "a"], 0, 0, 0, env0, env0. split; [reflexivity|]. split; [constructor|]. split; [|intros f; reflexivity]. apply (wk_epsilon endless_ex 0 env0 (arc_of EPSILON 0)); [right; left; reflexivity|reflexivity|constructor]. }
  intros fuel. unfold is_lookup_infinitely_ambiguous.
  destruct (initialize_input (length (B "a")) (B "a") (tr_alphabet tr) en) as [[[o al] en1]| | |] eqn:I; try (vm_compute in E; injection E as <-; vm_compute in En; injection En as <-; vm_compute in I; discriminate I).
  vm_compute in E. injection E as <-. vm_compute in En. injection En as <-. vm_compute in I. injection I as <- <- <-. cbn [rbind tr_tables].
  match goal with |- rmap _ (find_loop ?al ?T fuel ?i ?fs ?a ?st) = _ => set (al0 := al); set (T0 := T); set (fs0 := fs) end.
  assert (Q2 : forall f st, find_loop al0 T0 (S f) [] fs0 2147483652 st = Ok (Some (f_set false st))) by (intros; reflexivity).
  assert (Q1 : forall f st, find_loop al0 T0 (S (S f)) [1%N] fs0 2147483650 st = Ok (Some (FState [] true))) by (intros; reflexivity).
  assert (Q0 : forall n f st, f <= n -> f_travs st = [] \/ f_travs st = [(0%N, [])] -> find_loop al0 T0 f [1%N] fs0 0 st = Diverge).
  { induction n as [|n IH]; intros f st Lf Hst; [replace f with 0 by lia; reflexivity|]. destruct f as [|f]; [reflexivity|].
    assert (H1 : f_has (2147483650%N, fs_values fs0) (f_set false st) = false) by (unfold f_has, f_set; cbn [f_travs]; destruct Hst as [->| ->]; reflexivity).
    assert (Ef : exists es r, free_entries al0 T0 0 = Ok (true, es) /\ es = {| te_input := 0; te_output := 0; te_target := 2147483650; te_weight := 1000 |} :: {| te_input := 0; te_output := 0; te_target := 0; te_weight := 1000 |} :: r) by (eexists _, _; split; vm_compute; reflexivity).
    destruct Ef as (es & r & Ef & ->). cbn [find_loop]. rewrite Ef. cbn [rbind loop_free te_input te_target N.eqb]. cbv zeta. rewrite H1.
    destruct f as [|[|f]]; [reflexivity|reflexivity|]. rewrite Q1. cbn [fbind rbind].
    assert (H2 : f_has (0%N, fs_values fs0) (f_set true (f_del (2147483650%N, fs_values fs0) (FState [] true))) = false) by reflexivity. rewrite H2.
    rewrite (IH (S (S f))); [reflexivity|lia|right; reflexivity]. }
  pose proof (Q0 fuel fuel (FState [] false) (le_n _) (or_introl eq_refl)) as Z. match goal with |- rmap ?k _ = _ => exact (f_equal (rmap k) Z) end.
Qed.
Print Assumptions C142_endless_refuted.

(** C142: with flags the answer may be yes although there is no loop: what is remembered are the
    values before a flag, so a state may seem to come again with the same values. *)
Definition flags_ex : graph := Graph [[arc_of EPSILON 1]; [arc_of (B "@D.F@") 2]; [arc_of (B "@P.F.A@") 1]] [(2, 0%Z)] (symbols_of [B "@D.F@"; B "@P.F.A@"]).
Lemma flags_ex_short n c c' : walk flags_ex n c [] c' -> c = (0, env0) -> n <= 3.
Proof.
  assert (DD : forall x, denotes (B "@D.F@") x -> x = FD (B "F") None) by (intros x D; apply (denotes_fun (B "@D.F@")); [exact D|apply (den_D (B "F")); vm_compute; intuition discriminate]).
  assert (DP : forall x, denotes (B "@P.F.A@") x -> x = FP (B "F") (B "A")) by (intros x D; apply (denotes_fun (B "@P.F.A@")); [exact D|apply (den_P (B "F") (B "A")); vm_compute; intuition discriminate]).
  assert (NE : forall x, ~ denotes EPSILON x) by (intros x D; apply denotes_code in D; destruct D as (C & _); discriminate C).
  assert (S1 : forall m e c, walk flags_ex (S m) (1, e) [] c -> exists k, m = k /\ e (B "F") = Unset /\ walk flags_ex k (2, e) [] c).
  { intros m e c0 W. inversion W as [|? ? a k ts' ? Ha Ea W'|? ? a x k ts' ? Ha D Sx W'| |]; subst; destruct Ha as [<-|[]]; cbn [isy arc_of tgt] in *; [discriminate Ea|]. rewrite (DD x D) in *. cbn [Flags_Spec.step fst snd] in *.
    exists m. split; [reflexivity|]. split; [destruct (e (B "F")); [reflexivity|discriminate Sx|discriminate Sx]|exact W']. }
  intros W ->. destruct n as [|n]; [lia|]. inversion W as [|? ? a k ts' ? Ha Ea W'|? ? a x k ts' ? Ha D Sx W'| |]; subst; destruct Ha as [<-|[]]; cbn [isy arc_of tgt] in *; [|destruct (NE x D)].
  destruct n as [|n]; [lia|]. destruct (S1 _ _ _ W') as (k & <- & _ & W2). destruct n as [|n]; [lia|].
  inversion W2 as [|? ? a k ts' ? Ha Ea' W3|? ? a x k ts' ? Ha D Sx W3| |]; subst; destruct Ha as [<-|[]]; cbn [isy arc_of tgt] in *; [discriminate Ea'|]. rewrite (DP x D) in *. cbn [Flags_Spec.step fst snd] in *.
  destruct n as [|n]; [lia|]. destruct (S1 _ _ _ W3) as (k & _ & C & _). unfold env_set in C. rewrite bstr_eqb_refl in C. discriminate C.
Qed.
Theorem C142_flags_refuted : exists enc dec g tr en, setting enc dec g true tr /\ used dec tr (tr_alphabet tr) en /\ text (tr_alphabet tr) [] /\ tokens g [] [] /\
  ~ loops g [] /\ exists al' en', is_lookup_infinitely_ambiguous 10 (tr_tables tr) (tr_alphabet tr) en [] = Ok (true, al', en').
Proof.
  destruct (to_ol enc0 flags_ex true) as [tr| | |] eqn:E; try (vm_compute in E; discriminate E).
  assert (SG : structure_ok flags_ex) by (apply small_structure; [reflexivity|discriminate]).
  assert (ST : setting enc0 dec0 flags_ex true tr) by (apply small_setting; [exact SG|vm_compute; reflexivity|exact E|]; vm_compute in E; injection E as <-; vm_compute; reflexivity).
  destruct (new_encoder (tr_alphabet tr) (N.to_nat (h_input_symbols (tr_header tr)))) as [en| | |] eqn:En; try (vm_compute in E; injection E as <-; vm_compute in En; discriminate En).
  exists enc0, dec0, flags_ex, tr, en. split; [exact ST|]. split; [constructor; exact En|]. split; [apply text_short; vm_compute in E; injection E as <-; vm_compute; reflexivity|]. split; [constructor|]. split.
  - intros L. destruct (loops_unbounded _ _ L 4) as (n & ts1 & ts2 & c & Ets & W & Ln). symmetry in Ets. apply app_eq_nil in Ets. destruct Ets as (-> & _). pose proof (flags_ex_short n _ c W eq_refl). lia.
  - destruct (is_lookup_infinitely_ambiguous 10 (tr_tables tr) (tr_alphabet tr) en []) as [[[[] al'] en']| | |] eqn:L; try (vm_compute in E; injection E as <-; vm_compute in En; injection En as <-; vm_compute in L; discriminate L). eauto.
Qed.
Print Assumptions C142_flags_refuted.

(** C142: loops behind an unknown character are missed, although lookup follows them. *)
Definition behind_ex : graph := Graph [[arc_of IDENTITY 1]; [arc_of EPSILON 1]] [(1, 0%Z)] (symbols_of []).
Theorem C142_unknown_refuted : exists enc dec g tr en, setting enc dec g true tr /\ used dec tr (tr_alphabet tr) en /\ text (tr_alphabet tr) (B "z") /\ tokens g (B "z") [B "z"] /\
  loops g [B "z"] /\ exists al' en', is_lookup_infinitely_ambiguous 10 (tr_tables tr) (tr_alphabet tr) en (B "z") = Ok (false, al', en').
Proof.
  destruct (to_ol enc0 behind_ex true) as [tr| | |] eqn:E; try (vm_compute in E; discriminate E).
  assert (SG : structure_ok behind_ex) by (apply small_structure; [reflexivity|discriminate]).
  assert (ST : setting enc0 dec0 behind_ex true tr) by (apply small_setting; [exact SG|vm_compute; reflexivity|exact E|]; vm_compute in E; injection E as <-; vm_compute; reflexivity).
  destruct (new_encoder (tr_alphabet tr) (N.to_nat (h_input_symbols (tr_header tr)))) as [en| | |] eqn:En; try (vm_compute in E; injection E as <-; vm_compute in En; discriminate En).
  exists enc0, dec0, behind_ex, tr, en. split; [exact ST|]. split; [constructor; exact En|]. split; [apply text_short; vm_compute in E; injection E as <-; vm_compute; reflexivity|].
  split; [exact (ascii_tokens behind_ex (B "z") eq_refl eq_refl)|]. split.
  - exists [B "z"], [], 1, 0, 1, env0, env0. split; [reflexivity|]. split; [|split; [|intros f; reflexivity]].
    + apply (wk_unknown behind_ex 0 env0 (arc_of IDENTITY 1)); [left; reflexivity|right; reflexivity| |constructor]. intros (q & a & Ha & Hi & _). destruct q as [|[|q]]; cbn in Ha; [destruct Ha as [<-|[]]; discriminate Hi|destruct Ha as [<-|[]]; discriminate Hi|destruct q; destruct Ha].
    + apply (wk_epsilon behind_ex 1 env0 (arc_of EPSILON 1)); [left; reflexivity|reflexivity|constructor].
  - destruct (is_lookup_infinitely_ambiguous 10 (tr_tables tr) (tr_alphabet tr) en (B "z")) as [[[[] al'] en']| | |] eqn:L; try (vm_compute in E; injection E as <-; vm_compute in En; injection En as <-; vm_compute in L; discriminate L). eauto.
Qed.
Print Assumptions C142_unknown_refuted.
