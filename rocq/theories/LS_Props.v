(** Properties C110 and C111: the lookup state of hfst-proc and the choice among the analyses. *)
From Coq Require Import Sorted NArith.
From Verif Require Import Base Flags_Model Flags_Spec Flags_Proofs BT_Model BT_Spec An_Spec An_Props OLF_Model OLC_Model OLC_Spec OLC_Props OLL_Model OLL_Spec
  OLC_Proofs OLC_Proofs7 OLL_Proofs2 OLL_Proofs3 OLL_Props LS_Model LS_Spec LS_Proofs LS_Proofs2 LS_Proofs3.
From Verif Require HP_Model HP_Spec.

Lemma setting_laid_out enc dec g weighted tr : setting enc dec g weighted tr -> exists addr, represents dec tr g addr /\ laid_out tr g addr.
Proof. intros (W & P & NI & FF & E & SM). eapply converted_laid_out; eauto. exact (proj1 W). Qed.
Lemma setting_paths enc dec g weighted tr c fuel ks ps : setting enc dec g weighted tr -> Forall (ordinary tr c) ks ->
  lookup dec (tr_alphabet tr) (tr_tables tr) c fuel ks = Ok ps -> exists addr, represents dec tr g addr /\ (N.of_nat (length (a_table (tr_alphabet tr))) < 32767)%N /\
    N.to_nat (h_input_symbols (tr_header tr)) <= length (a_table (tr_alphabet tr)) /\ all_paths tr g addr (map (symbols_for tr c) ks) ps.
Proof.
  intros ST HO H. destruct (setting_facts _ _ _ _ _ ST) as (_ & _ & F1 & F2 & F3 & F4 & F5 & F6 & F7 & F8 & F9).
  destruct (setting_laid_out _ _ _ _ _ ST) as (addr & R & LO). exists addr. split; [exact R|]. split; [exact F5|]. split; [exact F8|].
  assert (L : 0 < length (sts g)) by (destruct F1 as (NE & _); destruct (sts g); [congruence|cbn [length]; lia]).
  eapply lookup_paths; eassumption.
Qed.

(** C110: after reading symbols, the state is active exactly if the transducer has a run over
    them that the flags allow (or an unfinished one), and final exactly if such a run ends in a
    final state. *)
Theorem C110_runs_partial : forall enc dec g weighted tr c fuel ks ps, setting enc dec g weighted tr -> Forall (ordinary tr c) ks ->
  lookup dec (tr_alphabet tr) (tr_tables tr) c fuel ks = Ok ps ->
  (is_active ps = true <-> exists r s e, reached g (map (symbols_for tr c) ks) r s e) /\
  exists b, is_final dec (tr_tables tr) ps = Ok b /\
    (b = true <-> exists r s e w, reached g (map (symbols_for tr c) ks) r s e /\ mget Nat.compare s (fin g) = Some w).
Proof.
  intros enc dec g weighted tr c fuel ks ps ST HO H. destruct (setting_paths _ _ _ _ _ _ _ _ _ ST HO H) as (addr & R & SM & SI & A). split.
  - destruct A as (Sd & Cm). split.
    + destruct ps as [|p ps]; [discriminate|]. intros _. destruct (Sd p (or_introl eq_refl)) as (s & e & r & Hr & _). eauto.
    + intros (r & s & e & Hr). destruct (Cm r s e Hr) as (p & Hp & _). destruct ps; [destruct Hp|reflexivity].
  - destruct (is_final_spec dec (tr_tables tr) ps) as (b & E & I); [intros p Hp; destruct (all_final dec tr g addr R SM SI _ _ A p Hp) as (b & E & _); eauto|].
    exists b. split; [exact E|]. rewrite I. split.
    + intros (p & Hp & Fp). destruct (all_final dec tr g addr R SM SI _ _ A p Hp) as (b' & E' & K). rewrite Fp in E'. injection E' as <-.
      destruct (K eq_refl) as (r & s & e & w & Hr & Hw & _). eauto 6.
    + intros (r & s & e & w & Hr & Hw). destruct (proj2 A r s e Hr) as (p & Hp & Ap). exists p. split; [exact Hp|].
      rewrite (at_final_state dec tr g addr R p s e r Ap), Hw. reflexivity.
Qed.
Print Assumptions C110_runs_partial.

(** C110: the final paths, wherever the paths are in memory: no output twice; each is what an
    accepting run has written, with the weight of that run; and every accepting run's output is
    there. *)
Theorem C110_finals_partial : forall enc dec g weighted tr c fuel ks ps before, setting enc dec g weighted tr -> Forall (ordinary tr c) ks -> ks <> [] ->
  lookup dec (tr_alphabet tr) (tr_tables tr) c fuel ks = Ok ps ->
  exists fs, get_finals_set before dec (tr_tables tr) ps = Ok fs /\ NoDup (map lp_out fs) /\
    (forall p, In p fs -> exists r s e w, reached g (map (symbols_for tr c) ks) r s e /\ mget Nat.compare s (fin g) = Some w /\
       named tr (lp_out p) (written r) /\ get_weight p = (path_weight r + w)%Z) /\
    (forall r s e w, reached g (map (symbols_for tr c) ks) r s e -> mget Nat.compare s (fin g) = Some w ->
       exists p, In p fs /\ named tr (lp_out p) (written r)).
Proof.
  intros enc dec g weighted tr c fuel ks ps before ST HO NE H. destruct (setting_paths _ _ _ _ _ _ _ _ _ ST HO H) as (addr & R & SM & SI & A).
  destruct (finals_spec before dec (tr_tables tr) ps) as (fs & E & ND & I1 & I2); [intros p Hp; destruct (all_final dec tr g addr R SM SI _ _ A p Hp) as (b & E & _); eauto|].
  exists fs. split; [exact E|]. split; [exact ND|]. split.
  - intros p Hp. destruct (I1 p Hp) as (Hps & Fp). destruct (all_final dec tr g addr R SM SI _ _ A p Hps) as (b' & E' & K). rewrite Fp in E'. injection E' as <-.
    destruct (K eq_refl) as (r & s & e & w & Hr & Hw & Ap). exists r, s, e, w. split; [exact Hr|]. split; [exact Hw|]. split; [exact (proj2 (proj2 (proj1 (proj2 (proj2 Ap)))))|].
    apply (final_weights tr g addr p s e r w Ap Hw). eapply reached_nonempty; [exact Hr|]. destruct ks; [congruence|discriminate].
  - intros r s e w Hr Hw. destruct (proj2 A r s e Hr) as (p & Hp & Ap). destruct (I2 p Hp) as (q & Hq & Eq).
    + rewrite (at_final_state dec tr g addr R p s e r Ap), Hw. reflexivity.
    + exists q. split; [exact Hq|]. rewrite Eq. exact (proj2 (proj2 (proj1 (proj2 (proj2 Ap))))).
Qed.
Print Assumptions C110_finals_partial.

(** C110: the program answers, if no circle of arcs can be taken without reading input and the
    symbols are input symbols of the transducer (or unknown). *)
Theorem C110_answers_partial : forall enc dec g weighted tr c ks, setting enc dec g weighted tr -> no_free_cycle g -> Forall (readable tr c) ks ->
  Forall (ordinary tr c) ks /\
  exists n ps, forall fuel, n <= fuel -> lookup dec (tr_alphabet tr) (tr_tables tr) c fuel ks = Ok ps.
Proof.
  intros enc dec g weighted tr c ks ST NC RD. destruct (setting_facts _ _ _ _ _ ST) as (_ & _ & F1 & F2 & F3 & F4 & F5 & F6 & F7 & F8 & F9).
  destruct (setting_laid_out _ _ _ _ _ ST) as (addr & R & LO).
  assert (L : 0 < length (sts g)) by (destruct F1 as (NE & _); destruct (sts g); [congruence|cbn [length]; lia]). split.
  - rewrite Forall_forall in *. intros k Hk. eapply readable_ordinary; eauto.
  - eapply lookup_total; eassumption.
Qed.
Print Assumptions C110_answers_partial.

(** * The lookup state in the analysis of running text *)
(** The lookup state as the lexicon of C108; [process] stands for the formatter's process_finals. *)
Definition lookup_machine (dec : N -> Z) (tr : transducer) (c : casing) (fuel : nat) (before : path -> path -> bool)
    (process : list path -> list HP_Model.token -> list bstr) : HP_Model.machine :=
  HP_Model.Machine (res (list path)) (init dec (tr_alphabet tr) (tr_tables tr) fuel)
    (fun st k => rbind st (fun ps => LS_Model.step dec (tr_alphabet tr) (tr_tables tr) c fuel ps (match k with Some k => N.of_nat k | None => OLF_Model.NO_SYMBOL end)))
    (fun st => match st with Ok ps => is_active ps | _ => false end)
    (fun st => match st with Ok ps => match is_final dec (tr_tables tr) ps with Ok b => b | _ => false end | _ => false end)
    (fun st w => match st with Ok ps => match get_finals_set before dec (tr_tables tr) ps with Ok fs => process fs w | _ => [] end | _ => [] end).
Definition numbers (a : HP_Model.alphabet) (w : list HP_Model.token) : list N :=
  map (fun t => match HP_Model.to_symbol a t with Some k => N.of_nat k | None => OLF_Model.NO_SYMBOL end) w.
Lemma after_steps dec tr c fuel before process a w : forall st,
  fold_left (fun s t => HP_Model.mstep (m := lookup_machine dec tr c fuel before process) s (HP_Model.to_symbol a t)) w st =
  rbind st (fun ps => steps dec (tr_alphabet tr) (tr_tables tr) c fuel ps (numbers a w)).
Proof.
  induction w as [|t w IH]; intros st; cbn [fold_left numbers map steps]; [destruct st; reflexivity|]. rewrite IH. cbn [lookup_machine HP_Model.mstep]. fold (numbers a w).
  destruct st as [ps| | |]; reflexivity.
Qed.
(** C110: so the words that the analysis of running text (C108) finds in it are those of the
    transducer: where it can follow the tokens, where it accepts them, and the analyses. *)
Theorem C110_lexicon_partial : forall enc dec g weighted tr c before process a w, setting enc dec g weighted tr -> no_free_cycle g -> Forall (readable tr c) (numbers a w) ->
  exists n, forall fuel, n <= fuel ->
  let M := lookup_machine dec tr c fuel before process in
  let input := map (symbols_for tr c) (numbers a w) in
  (HP_Model.is_active (HP_Spec.after M a w) = true <-> exists r s e, reached g input r s e) /\
  (HP_Model.is_final (HP_Spec.after M a w) = true <-> exists r s e x, reached g input r s e /\ mget Nat.compare s (fin g) = Some x) /\
  (w <> [] -> exists fs, HP_Model.finals (HP_Spec.after M a w) w = process fs w /\ NoDup (map lp_out fs) /\
    (forall p, In p fs -> exists r s e x, reached g input r s e /\ mget Nat.compare s (fin g) = Some x /\ named tr (lp_out p) (written r) /\ get_weight p = (path_weight r + x)%Z) /\
    (forall r s e x, reached g input r s e -> mget Nat.compare s (fin g) = Some x -> exists p, In p fs /\ named tr (lp_out p) (written r))).
Proof.
  intros enc dec g weighted tr c before process a w ST NC RD. destruct (C110_answers_partial _ _ _ _ _ _ _ ST NC RD) as (HO & n & ps & E). exists n. intros fuel L M input.
  specialize (E fuel L). assert (EA : HP_Spec.after M a w = Ok ps) by (unfold HP_Spec.after, M; rewrite after_steps; exact E).
  destruct (C110_runs_partial _ _ _ _ _ _ _ _ _ ST HO E) as (A & b & Eb & B). rewrite EA. cbn [M lookup_machine HP_Model.is_active HP_Model.is_final HP_Model.finals].
  split; [exact A|]. split; [rewrite Eb; exact B|]. intros NW.
  destruct (C110_finals_partial _ _ _ _ _ _ _ _ _ before ST HO (fun Q => NW (map_eq_nil _ _ Q)) E) as (fs & Ef & K). exists fs. rewrite Ef. split; [reflexivity|exact K].
Qed.
Print Assumptions C110_lexicon_partial.

(** * The choice among the analyses *)
(** C111: of the analyses (with compound filtering, those with the fewest compound boundaries)
    those whose weight is among the lowest [max_classes] weights are kept, lightest first and
    then by their symbols, and of them the first [max_analyses]. *)
Theorem C111_choice : forall compounds boundaries max_classes max_analyses finals, NoDup (map lp_out finals) ->
  exists cands best,
    (forall p, In p cands <-> In p finals /\ (compounds = true -> forall q, In q finals -> boundaries p <= boundaries q)) /\
    (forall p, In p best <-> In p cands /\ among_best max_classes cands p) /\
    NoDup best /\ StronglySorted (fun p q => (get_weight p <= get_weight q)%Z) best /\
    preprocess_finals compounds boundaries max_classes max_analyses finals = firstn (Z.to_nat max_analyses) best.
Proof.
  intros co b mc ma finals N. destruct (preprocess_spec co b mc ma finals N) as (cands & best & A & B & S & E). exists cands, best. split; [exact A|]. split; [exact B|]. split; [|split; [|exact E]].
  - clear - S. induction S as [|p l S IH F]; constructor; [|exact IH]. intros H. rewrite Forall_forall in F. specialize (F p H). unfold wlt in F.
    unfold wcmp in F. rewrite Z.compare_refl in F. assert (X : ncmp (lp_out p) (lp_out p) = Eq) by (apply ncmp_eq; reflexivity). congruence.
  - clear - S. induction S as [|p l S IH F]; constructor; [exact IH|]. rewrite Forall_forall in *. intros q Hq. apply wlt_le, F, Hq.
Qed.
Print Assumptions C111_choice.
(** C111: with limits that are not reached nothing is lost. *)
Theorem C111_no_limit : forall boundaries max_classes max_analyses finals, NoDup (map lp_out finals) ->
  (Z.of_nat (length finals) <= max_classes)%Z -> (Z.of_nat (length finals) <= max_analyses)%Z ->
  forall p, In p (preprocess_finals false boundaries max_classes max_analyses finals) <-> In p finals.
Proof.
  intros b mc ma finals N L1 L2 p. destruct (C111_choice false b mc ma finals N) as (cands & best & A & B & ND & _ & ->).
  assert (AC : forall q, In q cands <-> In q finals) by (intros q; rewrite A; split; [intros (H & _); exact H|intros H; split; [exact H|discriminate]]).
  assert (IB : forall q, In q best <-> In q finals).
  { intros q. rewrite B, AC. split; [intros (H & _); exact H|]. intros H. split; [exact H|]. apply among_best_below.
    assert (X : length (below cands (get_weight q)) < length finals); [|lia].
    replace (length finals) with (length (map get_weight finals)) by apply map_length.
    assert (X : length (get_weight q :: below cands (get_weight q)) <= length (map get_weight finals)); [|cbn [length] in X; lia].
    apply NoDup_incl_length; [constructor; [intros C; apply below_In in C; lia|apply below_NoDup]|].
    intros w [<- |Hw]; [apply in_map, H|]. apply below_In in Hw. destruct Hw as (_ & x & Hx & <-). apply in_map, AC, Hx. }
  rewrite firstn_all2; [apply IB|]. pose proof (NoDup_incl_length ND (fun q Hq => proj1 (IB q) Hq)). lia.
Qed.
Print Assumptions C111_no_limit.

(** * Witnesses *)
(** 0 -a:b/1-> 1, 0 -A:c-> 1, 0 -eps:x/2-> 1, 1 -P.F.V-> 2, 2 -z:y/3-> 3, 3 -R.F.V-> 4,
    3 -R.F.W-> 4; 4 is final with weight 5.  Number 1 is A, number 2 is a, 3 is z. *)
Definition ls_ex : graph :=
  Graph [[Arc 1 (B "a") (B "b") 1; Arc 1 (B "@_EPSILON_SYMBOL_@") (B "x") 2; Arc 1 (B "A") (B "c") 0]; [Arc 2 (B "@P.F.V@") (B "@P.F.V@") 0];
         [Arc 3 (B "z") (B "y") 3]; [Arc 4 (B "@R.F.V@") (B "@R.F.V@") 0; Arc 4 (B "@R.F.W@") (B "@R.F.W@") 0]; []] [(4, 5%Z)]
    (symbols_of [B "a"; B "A"; B "b"; B "c"; B "x"; B "y"; B "z"; B "@P.F.V@"; B "@R.F.V@"; B "@R.F.W@"]).
Definition case_ex : casing := Casing (fun _ => true) (fun k => negb (k =? 1)%N) (fun _ => 2%N) false.
Definition no_case : casing := Casing (fun _ => false) (fun _ => true) (fun k => k) true.
Ltac small_conversion g tr E ST :=
  destruct (to_ol enc0 g true) as [tr| | |] eqn:E; try (vm_compute in E; discriminate E);
  assert (ST : setting enc0 dec0 g true tr)
    by (apply small_setting; [apply small_structure; [reflexivity|discriminate]|vm_compute; reflexivity|exact E|]; vm_compute in E; injection E as <-; vm_compute; reflexivity);
  vm_compute in E; injection E as <-.
Lemma upward_no_cycle g : (forall s a, In a (nth s (sts g) []) -> free_input (isy a) = true -> s < tgt a) -> no_free_cycle g.
Proof. intros H s F. assert (G : forall s t, free_path g s t -> s < t) by (induction 1 as [s' a Ha Fa|s' a t Ha Fa _ IH]; specialize (H _ _ Ha Fa); lia). specialize (G _ _ F). lia. Qed.
Definition ls_run : list arc :=
  [Arc 1 (B "a") (B "b") 1; Arc 2 (B "@P.F.V@") (B "@P.F.V@") 0; Arc 3 (B "z") (B "y") 3; Arc 4 (B "@R.F.V@") (B "@R.F.V@") 0].
Lemma ls_reached : exists e, reached ls_ex [[B "A"; B "a"]; [B "z"]] ls_run 4 e.
Proof.
  pose proof (by_symbol ls_ex [] [] 0 env0 (Arc 1 (B "a") (B "b") 1) [B "A"; B "a"] (at_start _) (or_introl eq_refl) (or_intror (or_introl eq_refl)) eq_refl) as R1.
  assert (D1 : denotes (B "@P.F.V@") (FP (B "F") (B "V"))) by (apply (den_P (B "F") (B "V")); vm_compute; intuition discriminate).
  pose proof (by_flag ls_ex _ _ _ _ (Arc 2 (B "@P.F.V@") (B "@P.F.V@") 0) _ R1 (or_introl eq_refl) D1 eq_refl) as R2.
  pose proof (by_symbol ls_ex _ _ _ _ (Arc 3 (B "z") (B "y") 3) [B "z"] R2 (or_introl eq_refl) (or_introl eq_refl) eq_refl) as R3.
  assert (D2 : denotes (B "@R.F.V@") (FR (B "F") (Some (B "V")))) by (apply (den_Rv (B "F") (B "V")); vm_compute; intuition discriminate).
  pose proof (by_flag ls_ex _ _ _ _ (Arc 4 (B "@R.F.V@") (B "@R.F.V@") 0) _ R3 (or_introl eq_refl) D2 eq_refl) as R4.
  eexists. exact R4.
Qed.
(** Reading A and z: two analyses, the second by the lower case. *)
Example C110_witness : exists tr, setting enc0 dec0 ls_ex true tr /\ no_free_cycle ls_ex /\ Forall (readable tr case_ex) [1; 3]%N /\ Forall (ordinary tr case_ex) [1; 3]%N /\
  map (symbols_for tr case_ex) [1; 3]%N = [[B "A"; B "a"]; [B "z"]] /\
  (exists e, reached ls_ex [[B "A"; B "a"]; [B "z"]] ls_run 4 e) /\ written ls_run = [B "b"; B "y"] /\ path_weight ls_run = 4%Z /\
  exists ps, lookup dec0 (tr_alphabet tr) (tr_tables tr) case_ex 20 [1; 3]%N = Ok ps /\ is_active ps = true /\ is_final dec0 (tr_tables tr) ps = Ok true /\
    exists p q, get_finals_set (fun _ _ => false) dec0 (tr_tables tr) ps = Ok [p; q] /\ named tr (lp_out p) [B "b"; B "y"] /\ get_weight p = 9%Z /\
      named tr (lp_out q) [B "c"; B "y"] /\ get_weight q = 8%Z.
Proof.
  assert (NC : no_free_cycle ls_ex).
  { apply upward_no_cycle. intros s a Ha Fa. destruct s as [|[|[|[|[|s]]]]]; simpl in Ha; repeat (destruct Ha as [<- |Ha]; [try discriminate Fa; simpl; lia|]); try destruct Ha. destruct s; destruct Ha. }
  small_conversion ls_ex tr E ST. eexists. split; [exact ST|]. split; [exact NC|].
  match type of ST with setting _ _ _ _ ?tr => assert (RD : Forall (readable tr case_ex) [1; 3]%N) end.
  { constructor; [|constructor; [|constructor]]; right; (split; [split; reflexivity|]); vm_compute; [right; split; reflexivity|left; reflexivity]. }
  split; [exact RD|]. split; [exact (proj1 (C110_answers_partial _ _ _ _ _ _ _ ST NC RD))|]. split; [vm_compute; reflexivity|]. split.
  { exact ls_reached. }
  split; [reflexivity|]. split; [reflexivity|]. eexists. split; [vm_compute; reflexivity|]. split; [reflexivity|]. split; [vm_compute; reflexivity|].
  eexists; eexists. split; [vm_compute; reflexivity|]. split; [repeat constructor|]. split; [reflexivity|]. split; [repeat constructor|]. reflexivity.
Qed.

(** * Where it fails *)
(** C110: a circle of epsilons: the vector of paths grows without end. *)
Definition ls_cycle : graph :=
  Graph [[Arc 0 (B "@_EPSILON_SYMBOL_@") (B "@_EPSILON_SYMBOL_@") 0; Arc 1 (B "a") (B "b") 1]; []] [(1, 0%Z)] (symbols_of [B "a"; B "b"]).
Lemma forever dec a t (P : path -> Prop) : (forall p, P p -> exists q, epsilons dec a t p = Ok [q] /\ P q) -> forall fuel p, P p -> try_epsilons dec a t fuel [p] = Diverge.
Proof.
  intros H. induction fuel as [|fuel IH]; intros p Hp; [reflexivity|]. cbn [try_epsilons]. destruct (H p Hp) as (q & E & Hq). rewrite E. cbn [rbind app]. rewrite (IH q Hq). reflexivity.
Qed.
Theorem C110_cycle_refuted : exists tr, setting enc0 dec0 ls_cycle true tr /\
  forall c fuel ks, lookup dec0 (tr_alphabet tr) (tr_tables tr) c fuel ks = Diverge.
Proof.
  small_conversion ls_cycle tr E ST. eexists. split; [exact ST|]. intros c fuel ks. unfold lookup, init.
  match goal with |- rbind (try_epsilons _ ?a ?t _ [initial_path _]) _ = _ =>
    let q := eval vm_compute in (epsilons dec0 a t (initial_path a)) in
    match q with Ok [?q0] =>
      let r := eval vm_compute in (epsilons dec0 a t q0) in
      match r with Ok [?r0] =>
        rewrite (forever dec0 a t (fun p => p = initial_path a \/ p = q0 \/ p = r0)) end end end.
  - reflexivity.
  - intros p [-> |[-> | ->]]; eexists; (split; [vm_compute; reflexivity|]); solve [left; reflexivity|right; left; reflexivity|right; right; reflexivity].
  - left. reflexivity.
Qed.
Print Assumptions C110_cycle_refuted.
(** C110: of two runs that write the same, the heavier may be the one that is kept: which one
    it is depends on where they are in memory. *)
Definition ls_dup : graph := Graph [[Arc 1 (B "a") (B "b") 1; Arc 1 (B "a") (B "b") 2]; []] [(1, 0%Z)] (symbols_of [B "a"; B "b"]).
Theorem C110_weight_refuted : exists tr ps, setting enc0 dec0 ls_dup true tr /\ Forall (readable tr no_case) [1]%N /\
  lookup dec0 (tr_alphabet tr) (tr_tables tr) no_case 5 [1]%N = Ok ps /\
  exists p q, get_finals_set (fun _ _ => true) dec0 (tr_tables tr) ps = Ok [p] /\ get_finals_set (fun _ _ => false) dec0 (tr_tables tr) ps = Ok [q] /\
    lp_out p = lp_out q /\ get_weight p = 2%Z /\ get_weight q = 1%Z.
Proof.
  small_conversion ls_dup tr E ST. eexists; eexists. split; [exact ST|]. split.
  { constructor; [|constructor]. right. split; [split; reflexivity|]. left. reflexivity. }
  split; [vm_compute; reflexivity|]. eexists; eexists. split; [vm_compute; reflexivity|]. split; [vm_compute; reflexivity|]. split; [reflexivity|]. split; reflexivity.
Qed.
Print Assumptions C110_weight_refuted.
(** C110: a symbol of the transducer that occurs only in output, found in a text, makes the
    program read beyond its table. *)
Definition ls_outside : graph := Graph [[Arc 1 (B "a") (B "b") 1]; []] [(1, 0%Z)] (symbols_of [B "a"; B "b"]).
Theorem C110_output_symbol_refuted : exists tr k, setting enc0 dec0 ls_outside true tr /\ nth_error (a_table (tr_alphabet tr)) (N.to_nat k) = Some (B "b") /\
  Forall (ordinary tr no_case) [k] /\
  lookup dec0 (tr_alphabet tr) (tr_tables tr) no_case 5 [k] = Ub.
Proof.
  small_conversion ls_outside tr E ST. eexists. exists 4%N. split; [exact ST|]. split; [reflexivity|]. split; [|vm_compute; reflexivity].
  constructor; [|constructor]. split; [vm_compute; discriminate|]. split; [reflexivity|]. split; [vm_compute; discriminate|]. split; [vm_compute; discriminate|vm_compute; reflexivity].
Qed.
Print Assumptions C110_output_symbol_refuted.
(** C110: for empty input the final weight of the initial state is not counted. *)
Definition ls_empty : graph := Graph [[Arc 1 (B "a") (B "b") 1]; []] [(0, 3%Z); (1, 0%Z)] (symbols_of [B "a"; B "b"]).
Theorem C110_empty_weight_refuted : exists tr ps p, setting enc0 dec0 ls_empty true tr /\ mget Nat.compare 0 (fin ls_empty) = Some 3%Z /\
  (forall c, lookup dec0 (tr_alphabet tr) (tr_tables tr) c 5 [] = Ok ps) /\ get_finals_set (fun _ _ => false) dec0 (tr_tables tr) ps = Ok [p] /\ get_weight p = 0%Z.
Proof.
  small_conversion ls_empty tr E ST. eexists; eexists; eexists. split; [exact ST|]. split; [reflexivity|]. split; [intros c; vm_compute; reflexivity|]. split; [vm_compute; reflexivity|reflexivity].
Qed.
Print Assumptions C110_empty_weight_refuted.

(** Three analyses of weights 1, 2, 2, at most two classes, two analyses. *)
Definition ls_path (o : N) (w : Z) : path := Path 0 true [o] w 0 (Build_fdstate [] false).
Example C111_witness :
  let finals := [ls_path 5 3; ls_path 7 2; ls_path 6 2; ls_path 9 1] in
  let boundaries p := if (nth 0 (lp_out p) 0 =? 9)%N then 1 else 0 in
  NoDup (map lp_out finals) /\ preprocess_finals false boundaries 2 2 finals = [ls_path 9 1; ls_path 6 2] /\
  preprocess_finals false boundaries 2 9 finals = [ls_path 9 1; ls_path 6 2; ls_path 7 2] /\
  preprocess_finals true boundaries 1 9 finals = [ls_path 6 2; ls_path 7 2].
Proof.
  cbv zeta. split; [repeat constructor; simpl; intuition discriminate|]. split; [vm_compute; reflexivity|]. split; vm_compute; reflexivity.
Qed.
