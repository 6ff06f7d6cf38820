(** Proofs about the search for epsilon loops. *)
From Coq Require Import NArith Permutation.
From Verif Require Import Base OrdMap Flags_Model Flags_Spec Flags_Proofs BT_Model BT_Spec LK_Model LK_Proofs OLF_Model OLF_Proofs OLC_Model OLL_Model OLC_Spec OLC_Proofs OLC_Proofs5 OLC_Proofs7 OLL_Spec.
From Verif Require Import Tok_Model Tok_Spec Tok_Proofs OLL_Proofs OLL_Proofs2 OLL_Proofs3 FL_Spec FL_Model.

Lemma fbind_Ok m k o : fbind m k = Ok o -> (m = Ok None /\ o = None) \/ exists st, m = Ok (Some st) /\ k st = Ok o.
Proof. unfold fbind. destruct m as [[st|]| | |]; cbn [rbind]; intros H; try discriminate; [right; eauto|left; injection H as <-; auto]. Qed.

(** * Walks *)
Lemma walk_app g n c ts c' : walk g n c ts c' -> forall m ts' c'', walk g m c' ts' c'' -> walk g (n + m) c (ts ++ ts') c''.
Proof.
  induction 1 as [c|s e a n ts c Ha E W IH|s e a x n ts c Ha D S W IH|s e a x n ts c Ha E I W IH|s e a x n ts c Ha E I W IH]; intros m ts' c'' W'; cbn [app Nat.add]; [exact W'| | | |].
  - apply (wk_epsilon g s e a); auto.
  - apply (wk_flag g s e a x); auto.
  - apply (wk_known g s e a); auto.
  - apply (wk_unknown g s e a); auto.
Qed.
Lemma step_same x e1 e2 : same_values e1 e2 -> same_values (fst (Flags_Spec.step x e1)) (fst (Flags_Spec.step x e2)) /\ snd (Flags_Spec.step x e1) = snd (Flags_Spec.step x e2).
Proof.
  intros H. assert (K : forall f v, same_values (env_set e1 f v) (env_set e2 f v)) by (intros f v f'; unfold env_set; destruct (bstr_eqb f' f); [reflexivity|apply H]).
  destruct x as [f v|f v|f [v|]|f [v|]|f|f v]; cbn [Flags_Spec.step fst snd]; rewrite ?(H f); auto. destruct (e2 f) as [|u|u]; cbn [fst snd]; [auto| |]; destruct (bstr_eqb u v); cbn [fst snd]; auto.
Qed.
Lemma walk_same g n c ts c' : walk g n c ts c' -> forall e, same_values (snd c) e -> exists e', walk g n (fst c, e) ts (fst c', e') /\ same_values (snd c') e'.
Proof.
  induction 1 as [c|s e a n ts c Ha E W IH|s e a x n ts c Ha D S W IH|s e a x n ts c Ha E I W IH|s e a x n ts c Ha E I W IH]; intros e' Q; cbn [fst snd] in *.
  - exists e'. split; [constructor|exact Q].
  - destruct (IH e' Q) as (e2 & W2 & Q2). exists e2. split; [apply (wk_epsilon g s e' a); assumption|exact Q2].
  - destruct (step_same x e e' Q) as (Q1 & Sx). destruct (IH _ Q1) as (e2 & W2 & Q2). exists e2. split; [apply (wk_flag g s e' a x); [exact Ha|exact D|congruence|exact W2]|exact Q2].
  - destruct (IH e' Q) as (e2 & W2 & Q2). exists e2. split; [apply (wk_known g s e' a); assumption|exact Q2].
  - destruct (IH e' Q) as (e2 & W2 & Q2). exists e2. split; [apply (wk_unknown g s e' a); assumption|exact Q2].
Qed.
Lemma same_trans e1 e2 e3 : same_values e1 e2 -> same_values e2 e3 -> same_values e1 e3.
Proof. intros H1 H2 f. rewrite H1. apply H2. Qed.
(** A loop can be taken any number of times. *)
Lemma cycle_repeat g m s e e' : walk g (S m) (s, e) [] (s, e') -> same_values e e' -> forall k, exists e'', walk g (k * S m) (s, e) [] (s, e'') /\ same_values e e''.
Proof.
  intros W Q k. induction k as [|k (e2 & W2 & Q2)]; [exists e; split; [constructor|intros f; reflexivity]|].
  destruct (walk_same _ _ _ _ _ W e2 Q2) as (e3 & W3 & Q3). cbn [fst snd] in *. exists e3. split; [|exact (same_trans _ _ _ Q Q3)].
  replace (S k * S m) with (k * S m + S m) by lia. exact (walk_app g _ _ _ _ W2 _ _ _ W3).
Qed.
Lemma loops_unbounded g ts : loops g ts -> forall b, exists n ts1 ts2 c, ts = ts1 ++ ts2 /\ walk g n (0, env0) ts1 c /\ b <= n.
Proof.
  intros (ts1 & ts2 & n & m & s & e & e' & -> & W1 & W2 & Q) b. destruct (cycle_repeat g m s e e' W2 Q b) as (e'' & W3 & _).
  exists (n + b * S m), ts1, ts2, (s, e''). split; [reflexivity|]. split; [rewrite <- (app_nil_r ts1); exact (walk_app g _ _ _ _ W1 _ _ _ W3)|]. lia.
Qed.

Section Find.
  Variables (dec : N -> Z) (tr : transducer) (g : graph) (addr : nat -> N).
  Hypothesis R : represents dec tr g addr.
  Hypothesis HS : structure_ok g.
  Let names := a_table (tr_alphabet tr).
  Let inputs := N.to_nat (h_input_symbols (tr_header tr)).
  Let T := tr_tables tr.
  Let F := a_fd (tr_alphabet tr).
  Hypothesis HA : alphabet_of_table names = Ok (tr_alphabet tr).
  Hypothesis Hsmall : (N.of_nat (length names) < 32767)%N.
  Hypothesis Hdef : ~ In DEFAULT names.
  Hypothesis Hval : forall x f, In x names -> denotes x f -> nonempty_value f.
  Hypothesis Hin : inputs <= length names.
  Variable extra : list bstr.
  Let al := set_table (tr_alphabet tr) (names ++ extra).

  Definition all_inputs (ts : list bstr) : Prop := forall x, In x ts -> input_symbol g x.
  Definition target_ok s a : In a (nth s (sts g) []) -> tgt a < length (sts g) := proj1 (proj2 HS) s a.
  Lemma default_none : a_default al = OLF_Model.NO_SYMBOL.
  Proof. destruct (al_facts dec tr g addr R HA Hdef extra) as (_ & _ & _ & _ & DF). exact DF. Qed.

  (** An entry that reads nothing. *)
  Inductive kind (fs : fdstate) (e : fenv) (a : arc) (en : trans_entry) : Prop :=
  | k_epsilon : te_input en = 0%N -> isy a = EPSILON -> kind fs e a en
  | k_flag op x fs' : te_input en <> 0%N -> denotes (isy a) x -> mget Nat.compare (N.to_nat (te_input en)) (operations (a_fd al)) = Some op ->
      apply_op op fs = Some (fs', snd (Flags_Spec.step x e)) -> fd_rel F (fst (Flags_Spec.step x e)) fs' -> kind fs e a en.
  Lemma kind_of fs e a en : fd_rel F e fs -> stands_for dec names addr a en -> free_input (isy a) = true -> kind fs e a en.
  Proof.
    intros HF (Hi & _) Hfree. destruct (N.eq_dec (te_input en) 0) as [Z|NZ]; [apply k_epsilon; [exact Z|apply (zero_eps dec tr g addr R _ _ Hi); rewrite Z; reflexivity]|].
    assert (Di : exists x, denotes (isy a) x).
    { apply is_diacritic_denotes. unfold free_input in Hfree. apply orb_true_iff in Hfree. destruct Hfree as [X|X]; [|exact X].
      apply bstr_eqb_eq in X. exfalso. apply NZ. apply (zero_eps dec tr g addr R _ _ Hi) in X. lia. }
    destruct Di as (x & Dx). destruct (flag_op dec tr g addr R HA Hdef nil _ _ _ Hi Dx) as (op & Eop & Mop).
    assert (Nx : nonempty_value x) by (apply (Hval (isy a)); [exact (nth_error_In _ _ Hi)|exact Dx]).
    destruct (F_ok dec tr g addr R HA Hsmall Hdef Hin nil) as (FO & FS & _). destruct (apply_op_step F FO FS e fs op x HF Mop Nx) as (fs' & Ea & HF').
    exact (k_flag fs e a en op x fs' NZ Dx Eop Ea HF').
  Qed.

  (** ** The search returns only if all walks are short *)
  Definition returned (rec : list N -> fdstate -> N -> fstate -> res (option fstate)) (input : list N) (fs : fdstate) (s : nat) : Prop :=
    exists st st', rec input fs (addr s) st = Ok (Some st').
  Lemma free_returned rec fs e input es : fd_rel F e fs -> forall arcs, Forall2 (stands_for dec names addr) arcs es -> (forall a, In a arcs -> free_input (isy a) = true) ->
    forall st st', loop_free al rec fs input es st = Ok (Some st') ->
    forall a, In a arcs -> (isy a = EPSILON -> returned rec input fs (tgt a)) /\
      (forall x, denotes (isy a) x -> snd (Flags_Spec.step x e) = true -> exists fs', fd_rel F (fst (Flags_Spec.step x e)) fs' /\ returned rec input fs' (tgt a)).
  Proof.
    intros HF. induction es as [|en es IH]; intros arcs H Ha st st' E a I; inversion H as [|b ? arcs' ? Hst H']; subst; [destruct I|].
    assert (Ha' : forall a, In a arcs' -> free_input (isy a) = true) by (intros a' H0; apply Ha; right; exact H0).
    pose proof Hst as (_ & _ & Htg & _). cbn [loop_free] in E. cbv zeta in E. rewrite Htg in E. destruct (kind_of fs e b en HF Hst (Ha b (or_introl eq_refl))) as [Z Eb|op x fs' NZ Dx Eop Ea HF'].
    - rewrite Z in E. change (0 =? 0)%N with true in E. cbv iota in E. destruct (f_has _ st); [discriminate|]. apply fbind_Ok in E. destruct E as [[_ C]|(st1 & E1 & E2)]; [discriminate|].
      destruct I as [<-|I]; [|exact (IH arcs' H' Ha' _ _ E2 a I)]. split; [intros _; eexists _, _; exact E1|]. intros x Dx. exfalso. rewrite Eb in Dx. apply denotes_code in Dx. destruct Dx as (C & _). discriminate C.
    - rewrite (proj2 (N.eqb_neq _ _) NZ), Eop, Ea in E. destruct (snd (Flags_Spec.step x e)) eqn:Sx.
      + destruct (f_has _ st); [discriminate|]. apply fbind_Ok in E. destruct E as [[_ C]|(st1 & E1 & E2)]; [discriminate|].
        destruct I as [<-|I]; [|exact (IH arcs' H' Ha' _ _ E2 a I)]. split; [intros Eb; exfalso; rewrite Eb in Dx; apply denotes_code in Dx; destruct Dx as (C & _); discriminate C|].
        intros y Dy _. rewrite (denotes_fun _ _ _ Dy Dx). exists fs'. split; [exact HF'|eexists _, _; exact E1].
      + destruct I as [<-|I]; [|exact (IH arcs' H' Ha' _ _ E a I)]. split; [intros Eb; exfalso; rewrite Eb in Dx; apply denotes_code in Dx; destruct Dx as (C & _); discriminate C|].
        intros y Dy K. rewrite (denotes_fun _ _ _ Dy Dx) in K. congruence.
  Qed.
  Lemma consume_returned rec fs rest es : forall arcs, Forall2 (stands_for dec names addr) arcs es ->
    forall st st', loop_consume rec fs rest es st = Ok (Some st') -> forall a, In a arcs -> returned rec rest fs (tgt a).
  Proof.
    induction es as [|en es IH]; intros arcs H st st' E a I; inversion H as [|b ? arcs' ? Hst H']; subst; [destruct I|]. pose proof Hst as (_ & _ & Htg & _).
    cbn [loop_consume] in E. rewrite Htg in E. apply fbind_Ok in E. destruct E as [[_ C]|(st1 & E1 & E2)]; [discriminate|]. destruct I as [<-|I]; [eexists _, _; exact E1|exact (IH arcs' H' _ _ E2 a I)].
  Qed.
  (** The arcs tried in a state. *)
  Lemma free_arcs s : s < length (sts g) -> exists hit es l, free_entries al T (addr s) = Ok (hit, es) /\ Forall2 (stands_for dec names addr) l es /\
    forall a, In a l <-> In a (nth s (sts g) []) /\ free_input (isy a) = true.
  Proof.
    intros Hs. destruct (rep_free _ _ _ _ R s Hs) as (hit & es & l & E & PL & FL & _). exists hit, es, l. split; [exact E|]. split; [exact FL|].
    intros a. rewrite <- (filter_In (fun a => free_input (isy a))). split; [apply (Permutation_in a PL)|apply (Permutation_in a (Permutation_sym PL))].
  Qed.
  Lemma token_arcs s k x : s < length (sts g) -> token tr g al k x -> x <> EPSILON -> input_symbol g x ->
    exists hit es, symbol_entries T (addr s) k = Ok (hit, es) /\ Forall2 (stands_for dec names addr) (filter (fun a => bstr_eqb (isy a) x) (nth s (sts g) [])) es.
  Proof.
    intros Hs (Ek & Hkk) Nx Ix. destruct Hkk as [(Sx & Lk)|(Sx & _)]; [|destruct Sx; left; exact Ix].
    assert (En' : nth_error names (N.to_nat k) = Some x).
    { unfold al in Ek. cbn [set_table a_table] in Ek. rewrite nth_error_app1 in Ek by (fold names inputs in Lk; fold names; lia). exact Ek. }
    destruct (symbol_found dec tr g addr R s (N.to_nat k) x Hs En' Ix) as (hit & es & E & H). rewrite N2Nat.id in E. eauto.
  Qed.
  Lemma free_of_epsilon a : isy a = EPSILON -> free_input (isy a) = true. Proof. intros ->. reflexivity. Qed.
  Lemma free_of_flag a x : denotes (isy a) x -> free_input (isy a) = true.
  Proof. intros D. unfold free_input. rewrite (proj2 (is_diacritic_denotes (isy a)) (ex_intro _ x D)). apply orb_true_r. Qed.

  Lemma returned_short fuel : forall input ts fs e s, tokens_ok tr g extra input ts -> all_inputs ts -> fd_rel F e fs -> s < length (sts g) -> returned (find_loop al T fuel) input fs s ->
    forall n ts1 ts2 c, ts = ts1 ++ ts2 -> walk g n (s, e) ts1 c -> n < fuel.
  Proof.
    induction fuel as [|fuel IH]; intros input ts fs e s Ht Ai HF Hs (st & st' & E) n ts1 ts2 c Ets W; [discriminate|].
    cbn [find_loop] in E. cbv zeta in E. destruct (free_arcs s Hs) as (hit & es & l & Ef & Fl & Il). rewrite Ef in E. cbn [rbind] in E.
    apply fbind_Ok in E. destruct E as [[_ C]|(st1 & E1 & E2)]; [discriminate|].
    pose proof (free_returned _ fs e input es HF l Fl (fun a H => proj2 (proj1 (Il a) H)) _ _ E1) as Fr.
    inversion W as [|? ? a m ts' ? Ha Ea W'|? ? a x m ts' ? Ha D Sx W'|? ? a x m ts' ? Ha Ea Ix W'|? ? a x m ts' ? Ha Ea Ix W']; subst; [lia| | | |].
    - apply -> Nat.succ_lt_mono. destruct (Fr a (proj2 (Il a) (conj Ha (free_of_epsilon a Ea)))) as (Re & _). exact (IH input (ts1 ++ ts2) fs e (tgt a) Ht Ai HF (target_ok s a Ha) (Re Ea) m ts1 ts2 c eq_refl W').
    - apply -> Nat.succ_lt_mono. destruct (Fr a (proj2 (Il a) (conj Ha (free_of_flag a x D)))) as (_ & Re). destruct (Re x D Sx) as (fs' & HF' & Re').
      exact (IH input (ts1 ++ ts2) fs' _ (tgt a) Ht Ai HF' (target_ok s a Ha) Re' m ts1 ts2 c eq_refl W').
    - apply -> Nat.succ_lt_mono. destruct input as [|k rest]; inversion Ht as [|? ? ? ? (Hk & Hx) Ht' EE]; subst. destruct (token_arcs s k (isy a) Hs Hk Hx Ix) as (h & es' & Es & Fs).
      apply fbind_Ok in E2. destruct E2 as [[_ C]|(st2 & E2 & E3)]; [discriminate|]. unfold loop_attempt in E2. rewrite Es in E2. cbn [rbind] in E2.
      apply fbind_Ok in E2. destruct E2 as [[_ C]|(st3 & E2 & _)]; [discriminate|].
      refine (IH rest (ts' ++ ts2) fs e (tgt a) Ht' (fun y Hy => Ai y (or_intror Hy)) HF (target_ok s a Ha) (consume_returned _ fs rest es' _ Fs _ _ E2 a _) m ts' ts2 c eq_refl W').
      apply filter_In. split; [exact Ha|apply bstr_eqb_eq; reflexivity].
    - destruct Ix. apply Ai. left. reflexivity.
  Qed.

  (** ** The search returns or throws if all walks are short *)
  Lemma free_total rec fs e input es : fd_rel F e fs -> forall arcs, Forall2 (stands_for dec names addr) arcs es -> (forall a, In a arcs -> free_input (isy a) = true) ->
    (forall a, In a arcs -> (isy a = EPSILON -> forall st, exists o, rec input fs (addr (tgt a)) st = Ok o) /\
      (forall x fs', denotes (isy a) x -> snd (Flags_Spec.step x e) = true -> fd_rel F (fst (Flags_Spec.step x e)) fs' -> forall st, exists o, rec input fs' (addr (tgt a)) st = Ok o)) ->
    forall st, exists o, loop_free al rec fs input es st = Ok o.
  Proof.
    intros HF. induction es as [|en es IH]; intros arcs H Ha Hr st; inversion H as [|b ? arcs' ? Hst H']; subst; cbn [loop_free]; [eauto|].
    assert (IH' : forall st, exists o, loop_free al rec fs input es st = Ok o) by (apply (IH arcs' H'); intros a Hb; [apply Ha|apply Hr]; right; exact Hb).
    pose proof Hst as (_ & _ & Htg & _). cbv zeta. rewrite Htg. destruct (Hr b (or_introl eq_refl)) as (Re & Rf). destruct (kind_of fs e b en HF Hst (Ha b (or_introl eq_refl))) as [Z Eb|op x fs' NZ Dx Eop Ea HF'].
    - rewrite Z. change (0 =? 0)%N with true. cbv iota. destruct (f_has _ st); [eauto|]. destruct (Re Eb (f_add (addr (tgt b), fs_values fs) st)) as ([st1|] & E1); rewrite E1; unfold fbind; cbn [rbind]; [apply IH'|eauto].
    - rewrite (proj2 (N.eqb_neq _ _) NZ), Eop, Ea. destruct (snd (Flags_Spec.step x e)) eqn:Sx; [|apply IH']. destruct (f_has _ st); [eauto|].
      destruct (Rf x fs' Dx Sx HF' (f_add (addr (tgt b), fs_values fs) st)) as ([st1|] & E1); rewrite E1; unfold fbind; cbn [rbind]; [apply IH'|eauto].
  Qed.
  Lemma consume_total rec fs rest es : forall arcs, Forall2 (stands_for dec names addr) arcs es ->
    (forall a, In a arcs -> forall st, exists o, rec rest fs (addr (tgt a)) st = Ok o) -> forall st, exists o, loop_consume rec fs rest es st = Ok o.
  Proof.
    induction es as [|en es IH]; intros arcs H Hr st; inversion H as [|b ? arcs' ? Hst H']; subst; cbn [loop_consume]; [eauto|]. pose proof Hst as (_ & _ & Htg & _). rewrite Htg.
    destruct (Hr b (or_introl eq_refl) (f_clear st)) as ([st1|] & E1); rewrite E1; unfold fbind; cbn [rbind]; [|eauto]. apply (IH arcs' H'). intros a Hb. apply Hr. right. exact Hb.
  Qed.
  Lemma short_total fuel : forall input ts fs e s, tokens_ok tr g extra input ts -> all_inputs ts -> fd_rel F e fs -> s < length (sts g) ->
    (forall n ts1 ts2 c, ts = ts1 ++ ts2 -> walk g n (s, e) ts1 c -> n < fuel) -> forall st, exists o, find_loop al T fuel input fs (addr s) st = Ok o.
  Proof.
    induction fuel as [|fuel IH]; intros input ts fs e s Ht Ai HF Hs Sh st; [specialize (Sh 0 [] ts (s, e) eq_refl (wk_stay g _)); lia|].
    cbn [find_loop]. cbv zeta. destruct (free_arcs s Hs) as (hit & es & l & Ef & Fl & Il). rewrite Ef. cbn [rbind].
    assert (Q : forall st, exists o, loop_free al (find_loop al T fuel) fs input es st = Ok o).
    { apply (free_total _ fs e input es HF l Fl (fun a H => proj2 (proj1 (Il a) H))). intros a Ia. apply Il in Ia. destruct Ia as (Ha & _). split.
      - intros Ea st0. apply (IH input ts fs e (tgt a) Ht Ai HF (target_ok s a Ha)). intros n ts1 ts2 c Ets W. specialize (Sh (S n) ts1 ts2 c Ets (wk_epsilon g s e a n ts1 c Ha Ea W)). lia.
      - intros x fs' D Sx HF' st0. apply (IH input ts fs' _ (tgt a) Ht Ai HF' (target_ok s a Ha)). intros n ts1 ts2 c Ets W. specialize (Sh (S n) ts1 ts2 c Ets (wk_flag g s e a x n ts1 c Ha D Sx W)). lia. }
    destruct (Q (f_set false st)) as ([st1|] & E1); rewrite E1; unfold fbind; cbn [rbind]; [|eauto].
    destruct input as [|k rest]; inversion Ht as [|? x ? ts' (Hk & Hx) Ht' EE]; subst; [eauto|].
    destruct (token_arcs s k x Hs Hk Hx (Ai x (or_introl eq_refl))) as (h & es' & Es & Fs). unfold loop_attempt at 1. rewrite Es. cbn [rbind].
    assert (Q2 : forall st, exists o, loop_consume (find_loop al T fuel) fs rest es' st = Ok o).
    { apply (consume_total _ fs rest es' _ Fs). intros a Ia st0. apply filter_In in Ia. destruct Ia as (Ha & Ea). apply bstr_eqb_eq in Ea.
      apply (IH rest ts' fs e (tgt a) Ht' (fun y Hy => Ai y (or_intror Hy)) HF (target_ok s a Ha)). intros n ts1 ts2 c -> W.
      specialize (Sh (S n) (x :: ts1) ts2 c eq_refl (wk_known g s e a x n ts1 c Ha Ea (Ai x (or_introl eq_refl)) W)). lia. }
    match goal with |- context [loop_consume _ _ _ _ ?st2] => destruct (Q2 st2) as ([st3|] & E3) end; unfold fbind; rewrite E3; cbn [rbind]; [|eauto].
    rewrite default_none. change (negb (OLF_Model.NO_SYMBOL =? OLF_Model.NO_SYMBOL)%N) with false. cbn [andb]. eauto.
  Qed.

  (** ** Without flags, what is thrown is a loop *)
  Hypothesis NF : no_flags g.
  (** The recorded traversals lead to [s]. *)
  Definition leading (fs : fdstate) (e : fenv) (s : nat) (travs : list trav) : Prop :=
    forall p, In p travs -> exists q k, p = (addr q, fs_values fs) /\ q < length (sts g) /\ walk g k (q, e) [] (s, e).
  Definition loop_from (s : nat) (e : fenv) (ts : list bstr) : Prop :=
    exists ts1 ts2 n m q, ts = ts1 ++ ts2 /\ walk g n (s, e) ts1 (q, e) /\ walk g (S m) (q, e) [] (q, e).
  Definition outcome (s : nat) (e : fenv) (ts : list bstr) (travs : list trav) (o : option fstate) : Prop :=
    match o with None => loop_from s e ts | Some st' => incl (f_travs st') travs end.
  Definition call_ok (rec : list N -> fdstate -> N -> fstate -> res (option fstate)) : Prop :=
    forall input ts fs e s st o, tokens_ok tr g extra input ts -> all_inputs ts -> fd_rel F e fs -> s < length (sts g) -> leading fs e s (f_travs st) ->
    rec input fs (addr s) st = Ok o -> outcome s e ts (f_travs st) o.
  Lemma trav_eqb_refl p : trav_eqb p p = true.
  Proof. unfold trav_eqb. rewrite N.eqb_refl. destruct (list_eq_dec _ _ _); [reflexivity|congruence]. Qed.
  Lemma free_sound rec fs e input ts s es : call_ok rec -> tokens_ok tr g extra input ts -> all_inputs ts -> fd_rel F e fs -> s < length (sts g) ->
    forall arcs, Forall2 (stands_for dec names addr) arcs es -> (forall a, In a arcs -> In a (nth s (sts g) []) /\ free_input (isy a) = true) ->
    forall st o, leading fs e s (f_travs st) -> loop_free al rec fs input es st = Ok o -> outcome s e ts (f_travs st) o.
  Proof.
    intros Hrec Ht Ai HF Hs. induction es as [|en es IH]; intros arcs H Ha st o Ld E; inversion H as [|b ? arcs' ? Hst H']; subst; [injection E as <-; intros p Hp; exact Hp|].
    assert (Ha' : forall a, In a arcs' -> In a (nth s (sts g) []) /\ free_input (isy a) = true) by (intros a' H0; apply Ha; right; exact H0). destruct (Ha b (or_introl eq_refl)) as (Hb & Hf).
    pose proof Hst as (_ & _ & Htg & _). cbn [loop_free] in E. cbv zeta in E. rewrite Htg in E. destruct (kind_of fs e b en HF Hst Hf) as [Z Eb|op x fs' NZ Dx Eop Ea HF']; [|destruct (NF s b x Hb Dx)].
    rewrite Z in E. change (0 =? 0)%N with true in E. cbv iota in E. destruct (f_has (addr (tgt b), fs_values fs) st) eqn:Eh.
    - injection E as <-. cbn [outcome]. unfold f_has in Eh. apply existsb_exists in Eh. destruct Eh as (p & Hp & Ep). destruct (Ld p Hp) as (q & k & -> & Lq & W). unfold trav_eqb in Ep. cbn [fst snd] in Ep.
      apply andb_true_iff in Ep. destruct Ep as (Ep & _). apply N.eqb_eq in Ep. assert (q = tgt b) by (symmetry; apply (rep_apart _ _ _ _ R); [exact (target_ok s b Hb)|exact Lq|exact Ep]). subst q.
      assert (W1 : walk g 1 (s, e) [] (tgt b, e)) by (apply (wk_epsilon g s e b); [exact Hb|exact Eb|constructor]).
      exists [], ts, 1, k, (tgt b). split; [reflexivity|]. split; [exact W1|]. replace (S k) with (k + 1) by lia. exact (walk_app g _ _ _ _ W _ _ _ W1).
    - assert (W1 : walk g 1 (s, e) [] (tgt b, e)) by (apply (wk_epsilon g s e b); [exact Hb|exact Eb|constructor]).
      assert (Ld' : leading fs e (tgt b) (f_travs (f_add (addr (tgt b), fs_values fs) st))).
      { intros p [<-|Hp]; [exists (tgt b), 0; split; [reflexivity|split; [exact (target_ok s b Hb)|constructor]]|]. destruct (Ld p Hp) as (q & k & -> & Lq & W). exists q, (k + 1). split; [reflexivity|]. split; [exact Lq|]. exact (walk_app g _ _ _ _ W _ _ _ W1). }
      apply fbind_Ok in E. destruct E as [[E ->]|(st1 & E1 & E2)].
      + destruct (Hrec input ts fs e (tgt b) _ _ Ht Ai HF (target_ok s b Hb) Ld' E) as (ts1 & ts2 & n & m & q & Ets & W2 & W3). exists ts1, ts2, (S n), m, q. split; [exact Ets|]. split; [|exact W3].
        apply (wk_epsilon g s e b); assumption.
      + pose proof (Hrec input ts fs e (tgt b) _ _ Ht Ai HF (target_ok s b Hb) Ld' E1) as In1. cbn [outcome] in In1.
        assert (In2 : incl (f_travs (f_set true (f_del (addr (tgt b), fs_values fs) st1))) (f_travs st)).
        { intros p Hp. cbn [f_set f_del f_travs] in Hp. apply filter_In in Hp. destruct Hp as (Hp & Np). destruct (In1 p Hp) as [<-|Hp']; [|exact Hp']. rewrite trav_eqb_refl in Np. discriminate Np. }
        assert (Ld2 : leading fs e s (f_travs (f_set true (f_del (addr (tgt b), fs_values fs) st1)))) by (intros p Hp; apply Ld, In2, Hp).
        pose proof (IH arcs' H' Ha' _ _ Ld2 E2) as Q. destruct o as [st'|]; [|exact Q]. cbn [outcome] in *. intros p Hp. apply In2, Q, Hp.
  Qed.
  Lemma consume_sound rec fs e k x rest ts s es : call_ok rec -> tokens_ok tr g extra (k :: rest) (x :: ts) -> all_inputs (x :: ts) -> fd_rel F e fs -> s < length (sts g) ->
    forall arcs, Forall2 (stands_for dec names addr) arcs es -> (forall a, In a arcs -> In a (nth s (sts g) []) /\ isy a = x) ->
    forall st o, loop_consume rec fs rest es st = Ok o -> outcome s e (x :: ts) (f_travs st) o.
  Proof.
    intros Hrec Ht Ai HF Hs. inversion Ht as [|? ? ? ? _ Ht' EE]; subst. induction es as [|en es IH]; intros arcs H Ha st o E; inversion H as [|b ? arcs' ? Hst H']; subst; [injection E as <-; intros p Hp; exact Hp|].
    assert (Ha' : forall a, In a arcs' -> In a (nth s (sts g) []) /\ isy a = x) by (intros a' H0; apply Ha; right; exact H0). destruct (Ha b (or_introl eq_refl)) as (Hb & Eb).
    pose proof Hst as (_ & _ & Htg & _). cbn [loop_consume] in E. rewrite Htg in E. assert (Ai' : all_inputs ts) by (intros y Hy; apply Ai; right; exact Hy).
    assert (Ld' : leading fs e (tgt b) (f_travs (f_clear st))) by (intros p []).
    apply fbind_Ok in E. destruct E as [[E ->]|(st1 & E1 & E2)].
    - destruct (Hrec rest ts fs e (tgt b) _ _ Ht' Ai' HF (target_ok s b Hb) Ld' E) as (ts1 & ts2 & n & m & q & -> & W2 & W3). exists (x :: ts1), ts2, (S n), m, q. split; [reflexivity|]. split; [|exact W3].
      apply (wk_known g s e b); [exact Hb|exact Eb|apply Ai; left; reflexivity|exact W2].
    - pose proof (Hrec rest ts fs e (tgt b) _ _ Ht' Ai' HF (target_ok s b Hb) Ld' E1) as In1. cbn [outcome] in In1. pose proof (IH arcs' H' Ha' _ _ E2) as Q. destruct o as [st'|]; [|exact Q].
      cbn [outcome] in *. intros p Hp. destruct (In1 p (Q p Hp)).
  Qed.
  Theorem find_loop_sound fuel : call_ok (find_loop al T fuel).
  Proof.
    induction fuel as [|fuel IH]; intros input ts fs e s st o Ht Ai HF Hs Ld E; [discriminate|].
    cbn [find_loop] in E. cbv zeta in E. destruct (free_arcs s Hs) as (hit & es & l & Ef & Fl & Il). rewrite Ef in E. cbn [rbind] in E.
    pose proof (free_sound _ fs e input ts s es IH Ht Ai HF Hs l Fl (fun a H => proj1 (Il a) H) (f_set false st)) as Fr.
    apply fbind_Ok in E. destruct E as [[E ->]|(st1 & E1 & E2)]; [exact (Fr _ Ld E)|]. pose proof (Fr _ Ld E1) as In1. cbn [outcome f_set f_travs] in In1.
    destruct input as [|k rest]; inversion Ht as [|? x ? ts' (Hk & Hx) Ht' EE]; subst.
    { injection E2 as <-. cbn [outcome]. destruct hit; exact In1. }
    rewrite default_none in E2. change (negb (OLF_Model.NO_SYMBOL =? OLF_Model.NO_SYMBOL)%N) with false in E2. cbn [andb] in E2.
    destruct (token_arcs s k x Hs Hk Hx (Ai x (or_introl eq_refl))) as (h & es' & Es & Fs). unfold loop_attempt in E2. rewrite Es in E2. cbn [rbind] in E2.
    set (st2 := if hit then f_set true st1 else st1) in *. assert (In2 : incl (f_travs st2) (f_travs st)) by (unfold st2; destruct hit; exact In1).
    assert (Fc : forall o, loop_consume (find_loop al T fuel) fs rest es' st2 = Ok o -> outcome s e (x :: ts') (f_travs st2) o).
    { intros o'. apply (consume_sound _ fs e k x rest ts' s es' IH Ht Ai HF Hs _ Fs). intros a Ia. apply filter_In in Ia. destruct Ia as (Ia & Ea). apply bstr_eqb_eq in Ea. auto. }
    apply fbind_Ok in E2. destruct E2 as [[E2 ->]|(st3 & E2 & E3)].
    - apply fbind_Ok in E2. destruct E2 as [[E2 _]|(st4 & _ & C)]; [|discriminate]. exact (Fc None E2).
    - injection E3 as <-. apply fbind_Ok in E2. destruct E2 as [[_ C]|(st4 & E2 & E3)]; [discriminate|]. injection E3 as <-. cbn [outcome]. pose proof (Fc _ E2) as Q. cbn [outcome] in Q.
      intros p Hp. apply In2, Q. destruct h; exact Hp.
  Qed.
End Find.

(** * Without flags, long walks have loops *)
Section Bound.
  Variable g : graph.
  Hypothesis HS : structure_ok g.
  Hypothesis NF : no_flags g.
  Lemma walk_env n c ts c' : walk g n c ts c' -> snd c' = snd c.
  Proof. induction 1; cbn [snd] in *; auto. destruct (NF _ _ _ H H0). Qed.
  Lemma walk_inside n c ts c' : walk g n c ts c' -> fst c < length (sts g) -> fst c' < length (sts g).
  Proof. induction 1; cbn [fst] in *; auto; intros _; apply IHwalk, (proj1 (proj2 HS) s a); assumption. Qed.
  (** The states of a walk that reads nothing. *)
  Lemma walk_states n : forall s e c, walk g n (s, e) [] c -> exists f, f 0 = s /\ f n = fst c /\ forall i j, i <= j -> j <= n -> walk g (j - i) (f i, e) [] (f j, e).
  Proof.
    induction n as [|n IH]; intros s e c W.
    - inversion W; subst. exists (fun _ => s). split; [reflexivity|]. split; [reflexivity|]. intros i j H1 H2. replace (j - i) with 0 by lia. constructor.
    - inversion W as [|? ? a m ts' ? Ha Ea W'|? ? a x m ts' ? Ha D Sx W'| |]; subst; [|destruct (NF _ _ _ Ha D)].
      destruct (IH _ _ _ W') as (f & F0 & Fn & Ff). exists (fun i => match i with 0 => s | S i => f i end). split; [reflexivity|]. split; [exact Fn|]. intros i j H1 H2.
      destruct i as [|i], j as [|j]; try lia; cbn [Nat.sub].
      + constructor.
      + apply (wk_epsilon g s e a); [exact Ha|exact Ea|]. rewrite <- F0. replace j with (j - 0) at 1 by lia. apply Ff; lia.
      + apply Ff; lia.
  Qed.
  Lemma NoDup_map_on {A C} (f : A -> C) l : NoDup l -> (forall x y, In x l -> In y l -> f x = f y -> x = y) -> NoDup (map f l).
  Proof.
    induction 1 as [|x l N D IH]; intros I; cbn [map]; constructor.
    - intros K. apply in_map_iff in K. destruct K as (y & E & Hy). apply N. rewrite (I x y (or_introl eq_refl) (or_intror Hy) (eq_sym E)). exact Hy.
    - apply IH. intros a b Ha Hb. apply I; right; assumption.
  Qed.
  Lemma free_bound n s e c : s < length (sts g) -> walk g n (s, e) [] c -> length (sts g) <= n -> exists i m q, walk g i (s, e) [] (q, e) /\ walk g (S m) (q, e) [] (q, e).
  Proof.
    intros Hs W L. destruct (walk_states n s e c W) as (f & F0 & Fn & Ff).
    destruct (ListDec.NoDup_dec Nat.eq_dec (map f (seq 0 (S n)))) as [D|D].
    - exfalso. assert (I : incl (map f (seq 0 (S n))) (seq 0 (length (sts g)))).
      { intros q Hq. apply in_map_iff in Hq. destruct Hq as (i & <- & Hi). apply in_seq in Hi. apply in_seq. split; [lia|]. cbn. pose proof (walk_inside _ _ _ _ (Ff 0 i ltac:(lia) ltac:(lia))) as K. cbn [fst] in K. rewrite F0 in K. exact (K Hs). }
      apply NoDup_incl_length in I; [|exact D]. rewrite map_length, !seq_length in I. lia.
    - assert (X : exists i j, i < j /\ j <= n /\ f i = f j).
      { destruct (existsb (fun p => (fst p <? snd p) && (f (fst p) =? f (snd p)))%nat (list_prod (seq 0 (S n)) (seq 0 (S n)))) eqn:Ex.
        - apply existsb_exists in Ex. destruct Ex as ((i, j) & I & E). apply in_prod_iff in I. destruct I as (I & J). apply in_seq in I, J. cbn [fst snd] in E. apply andb_true_iff in E. destruct E as (E1 & E2).
          apply Nat.ltb_lt in E1. apply Nat.eqb_eq in E2. exists i, j. split; [exact E1|]. split; [lia|exact E2].
        - exfalso. apply D. apply NoDup_map_on; [apply seq_NoDup|]. intros i j Hi Hj E. destruct (Nat.lt_trichotomy i j) as [K|[K|K]]; [|exact K|]; exfalso;
            [assert (C : existsb (fun p => (fst p <? snd p) && (f (fst p) =? f (snd p)))%nat (list_prod (seq 0 (S n)) (seq 0 (S n))) = true) by (apply existsb_exists; exists (i, j); split; [apply in_prod; assumption|cbn [fst snd]; rewrite (proj2 (Nat.ltb_lt i j) K), (proj2 (Nat.eqb_eq _ _) E); reflexivity])
            |assert (C : existsb (fun p => (fst p <? snd p) && (f (fst p) =? f (snd p)))%nat (list_prod (seq 0 (S n)) (seq 0 (S n))) = true) by (apply existsb_exists; exists (j, i); split; [apply in_prod; assumption|cbn [fst snd]; rewrite (proj2 (Nat.ltb_lt j i) K), (proj2 (Nat.eqb_eq _ _) (eq_sym E)); reflexivity])]; congruence. }
      destruct X as (i & j & Lij & Lj & E). exists i, (j - i - 1), (f i). split; [rewrite <- F0 at 1; replace i with (i - 0) at 1 by lia; apply Ff; lia|].
      replace (S (j - i - 1)) with (j - i) by lia. rewrite E at 2. apply Ff; lia.
  Qed.
  (** The part before the first token. *)
  Lemma walk_first n : forall c x ts c', walk g n c (x :: ts) c' -> exists i j c1 c2, n = i + S j /\ walk g i c [] c1 /\ walk g 1 c1 [x] c2 /\ walk g j c2 ts c'.
  Proof.
    induction n as [|n IH]; intros c x ts c' W; inversion W as [|s e a m ts' ? Ha Ea W'|s e a y m ts' ? Ha D Sx W'|s e a y m ts' ? Ha Ea Ix W'|s e a y m ts' ? Ha Ea Ix W']; subst; [| destruct (NF _ _ _ Ha D)| |].
    - destruct (IH _ _ _ _ W') as (i & j & c1 & c2 & -> & W1 & W2 & W3). exists (S i), j, c1, c2. split; [reflexivity|]. split; [apply (wk_epsilon g s e a); assumption|auto].
    - exists 0, n, (s, e), (tgt a, e). split; [reflexivity|]. split; [constructor|]. split; [apply (wk_known g s e a); [exact Ha|reflexivity|exact Ix|constructor]|exact W'].
    - exists 0, n, (s, e), (tgt a, e). split; [reflexivity|]. split; [constructor|]. split; [apply (wk_unknown g s e a); [exact Ha|exact Ea|exact Ix|constructor]|exact W'].
  Qed.
  Lemma no_loop_bound ts : forall n s e ts1 ts2 c, s < length (sts g) -> ts = ts1 ++ ts2 -> walk g n (s, e) ts1 c -> ~ loop_from g s e ts -> n < (length ts1 + 1) * (length (sts g) + 1).
  Proof.
    intros n s e ts1. revert ts n s e. induction ts1 as [|x ts1 IH]; intros ts n s e ts2 c Hs Ets W NL.
    - cbn [length Nat.add Nat.mul]. destruct (Nat.lt_ge_cases n (length (sts g))) as [L|L]; [lia|]. exfalso. apply NL. destruct (free_bound n s e c Hs W L) as (i & m & q & W1 & W2). exists [], ts, i, m, q. auto.
    - destruct (walk_first n _ _ _ _ W) as (i & j & c1 & c2 & -> & W1 & W2 & W3). destruct c1 as [s1 e1], c2 as [s2 e2].
      pose proof (walk_env _ _ _ _ W1) as K1. pose proof (walk_env _ _ _ _ W2) as K2. cbn [snd] in K1, K2. subst e1 e2.
      assert (Li : i < length (sts g)).
      { destruct (Nat.lt_ge_cases i (length (sts g))) as [L|L]; [exact L|]. exfalso. apply NL. destruct (free_bound i s e _ Hs W1 L) as (i' & m & q & W1' & W2'). exists [], ts, i', m, q. auto. }
      assert (W12 : walk g (i + 1) (s, e) [x] (s2, e)) by exact (walk_app g _ _ _ _ W1 _ _ _ W2).
      assert (Lj : j < (length ts1 + 1) * (length (sts g) + 1)).
      { apply (IH (ts1 ++ ts2) j s2 e ts2 c); [exact (walk_inside _ _ _ _ W12 Hs)|reflexivity|exact W3|]. intros (t1 & t2 & n' & m & q & E & A1 & A2). apply NL. exists (x :: t1), t2, ((i + 1) + n'), m, q.
        split; [rewrite Ets; cbn [app]; rewrite E; reflexivity|]. split; [exact (walk_app g _ _ _ _ W12 _ _ _ A1)|exact A2]. }
      cbn [length]. lia.
  Qed.
End Bound.
