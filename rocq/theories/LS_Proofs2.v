From Coq Require Import Permutation NArith.
From Verif Require Import Base Flags_Model Flags_Spec Flags_Proofs BT_Model OLF_Proofs BT_Spec An_Spec OLF_Model OLC_Model OLC_Spec OLL_Model OLL_Spec
  OLC_Proofs5 OLL_Proofs2 OLL_Proofs3 OLL_Props LS_Model LS_Spec LS_Proofs.
Local Open Scope N_scope.

Lemma alternative_lower_case c k : alternative c k = lower_case c k.
Proof. unfold alternative, lower_case. destruct (case_sensitive c), (k =? OLF_Model.NO_SYMBOL), (has_case c k), (is_lower c k); reflexivity. Qed.
Lemma lower_case_none c : lower_case c OLF_Model.NO_SYMBOL = OLF_Model.NO_SYMBOL.
Proof. unfold lower_case. rewrite N.eqb_refl. destruct (case_sensitive c); reflexivity. Qed.
Lemma path_weight_snoc r a : path_weight (r ++ [a]) = (path_weight r + wt a)%Z.
Proof. induction r as [|b r IH]; simpl; lia. Qed.

(** * Positions *)
Section Positions.
  Variable t : tables.
  Lemma pos_high i : TA_OFFSET <= i < 2 * TA_OFFSET -> table_pos (i - TA_OFFSET) = table_pos i.
  Proof. intros H. unfold table_pos. destruct (N.ltb_spec i TA_OFFSET); [lia|]. destruct (N.ltb_spec (i - TA_OFFSET) TA_OFFSET); lia. Qed.
  Lemma from_high i : TA_OFFSET <= i < 2 * TA_OFFSET -> transitions_from t (i - TA_OFFSET) = transitions_from t i.
  Proof. intros H. unfold transitions_from. rewrite (pos_high i H). reflexivity. Qed.
  Lemma get_high i : TA_OFFSET <= i < 2 * TA_OFFSET -> get_transition t (i - TA_OFFSET) = get_transition t i.
  Proof. intros H. unfold get_transition. rewrite (pos_high i H). reflexivity. Qed.
  Lemma head_of i e r : transitions_from t i = e :: r -> get_transition t i = Ok e.
  Proof.
    unfold transitions_from, get_transition. intros H. rewrite <- (firstn_skipn (table_pos i) (t_trans t)), H.
    assert (L : (table_pos i < length (t_trans t))%nat).
    { destruct (Nat.le_gt_cases (length (t_trans t)) (table_pos i)) as [C|C]; [|exact C]. rewrite skipn_all2 in H by exact C. discriminate. }
    rewrite nth_error_app2; rewrite firstn_length_le by lia; [|lia]. rewrite Nat.sub_diag. reflexivity.
  Qed.
  Lemma run_of_head test l e es : run_of test l = Ok (e :: es) -> exists r, l = e :: r /\ test e = true.
  Proof.
    destruct l as [|x r]; cbn [run_of]; [discriminate|]. destruct (test x) eqn:E; [|discriminate].
    destruct (run_of test r); try discriminate. intros H. injection H as -> _. eauto.
  Qed.
End Positions.

Section Paths.
  Variables (dec : N -> Z) (tr : transducer) (g : graph) (addr : nat -> N).
  Hypothesis R : represents dec tr g addr.
  Hypothesis LO : laid_out tr g addr.
  Hypothesis HS : structure_ok g.
  Let names := a_table (tr_alphabet tr).
  Let inputs := N.to_nat (h_input_symbols (tr_header tr)).
  Let T := tr_tables tr.
  Let al := tr_alphabet tr.
  Let F := a_fd (tr_alphabet tr).
  Hypothesis HA : alphabet_of_table names = Ok (tr_alphabet tr).
  Hypothesis HW : t_wclass (tr_tables tr) = true.
  Hypothesis Hnames : forall x, In x names -> x <> [] /\ no_nul x.
  Hypothesis Hsmall : (N.of_nat (length names) < 32767)%N.
  Hypothesis Hdef : ~ In DEFAULT names.
  Hypothesis Hval : forall x f, In x names -> denotes x f -> nonempty_value f.
  Hypothesis Hin : (inputs <= length names)%nat.

  (** Without going anywhere: the run so far, whatever the place. *)
  Definition carries (p : path) (e : fenv) (r : list arc) : Prop :=
    fd_rel F e (lp_fd p) /\ lp_weight p = path_weight r /\ named tr (lp_out p) (written r).
  Definition final_known (p : path) (s : nat) (r : list arc) : Prop :=
    r <> [] -> match mget Nat.compare s (fin g) with Some w => lp_final p = true /\ lp_final_weight p = w | None => lp_final p = false end.
  Definition at_state (p : path) (s : nat) (e : fenv) (r : list arc) : Prop :=
    lp_index p = addr s /\ (s < length (sts g))%nat /\ carries p e r /\ final_known p s r.
  (** At the first of the transitions without input of an indexed state. *)
  Definition midway (p : path) (s : nat) (e : fenv) (r : list arc) : Prop :=
    (s < length (sts g))%nat /\ carries p e r /\ TA_OFFSET <= lp_index p < 2 * TA_OFFSET /\
    exists en es, free_entries al T (addr s) = Ok (true, en :: es) /\ get_transition T (lp_index p) = Ok en /\ te_input en <> OLF_Model.NO_SYMBOL /\
      free_entry al en = true /\ run_of (free_entry al) (transitions_from T (lp_index p)) = Ok (en :: es).

  Lemma flag_no k x : nth_error names (N.to_nat k) = Some x -> is_flag_symbol al k = is_diacritic x.
  Proof.
    intros E. rewrite <- (N2Nat.id k). pose proof (flag_symbol_spec names al (N.to_nat k) HA (rep_names _ _ _ _ R)) as X. rewrite E in X. exact X.
  Qed.
  Lemma op_none k x : nth_error names (N.to_nat k) = Some x -> is_diacritic x = false -> mget Nat.compare (N.to_nat k) (operations F) = None.
  Proof.
    intros E D. pose proof (flag_no k x E) as X. rewrite D in X. unfold is_flag_symbol in X. fold F in X. unfold al in X. fold F in X.
    destruct (mget Nat.compare (N.to_nat k) (operations F)); [discriminate|reflexivity].
  Qed.
  Lemma not_no k x : nth_error names (N.to_nat k) = Some x -> k <> OLF_Model.NO_SYMBOL.
  Proof. intros E. assert ((N.to_nat k < length names)%nat) by (apply nth_error_Some; congruence). unfold OLF_Model.NO_SYMBOL. lia. Qed.
  Lemma eps_no_flag : is_diacritic EPSILON = false. Proof. reflexivity. Qed.

  Lemma proc_string_spec k x : nth_error names (N.to_nat k) = Some x -> proc_string al k = if free_input x then [] else x.
  Proof.
    intros E. unfold proc_string, free_input. rewrite (flag_no k x E). pose proof (zero_eps dec tr g addr R (N.to_nat k) x E) as Z.
    destruct (N.eqb_spec k 0) as [-> |D].
    - destruct (bstr_eqb_spec x (B "@_EPSILON_SYMBOL_@")) as [_|H]; [reflexivity|]. exfalso. apply H, Z. reflexivity.
    - destruct (bstr_eqb_spec x (B "@_EPSILON_SYMBOL_@")) as [H|_]; [exfalso; apply D; apply Z in H; lia|]. cbn [orb].
      destruct (is_diacritic x); [reflexivity|]. apply nth_error_nth, E.
  Qed.
  Lemma written_snoc r a : written (r ++ [a]) = written r ++ (if free_input (osy a) then [] else [osy a]).
  Proof. unfold written. rewrite map_app, filter_app. cbn [map filter]. destruct (free_input (osy a)); reflexivity. Qed.

  (** ** Following a transition *)
  Definition moved (en : trans_entry) (a : arc) (p : path) (fs : fdstate) : path :=
    Path (te_target en) (match mget Nat.compare (tgt a) (fin g) with Some _ => true | None => false end)
      (match proc_string al (te_output en) with [] => lp_out p | _ => lp_out p ++ [te_output en] end)
      (lp_weight p + weight_of dec T en) (match mget Nat.compare (tgt a) (fin g) with Some w => w | None => 0%Z end) fs.
  Lemma moved_at en a p s e r fs e' : stands_for dec names addr a en -> In a (nth s (sts g) []) -> carries p e r -> fd_rel F e' fs ->
    at_state (moved en a p fs) (tgt a) e' (r ++ [a]).
  Proof.
    intros (Hi & Ho & Ht & Hw) Ha (C1 & C2 & C3) Hf. unfold at_state, moved. cbn [lp_index lp_final lp_out lp_weight lp_final_weight lp_fd].
    split; [exact Ht|]. split; [exact (proj1 (proj2 HS) s a Ha)|]. split.
    - split; [exact Hf|]. cbn [lp_weight lp_out]. split.
      + rewrite path_weight_snoc, C2. unfold weight_of, T. rewrite HW, Hw. reflexivity.
      + rewrite written_snoc, (proc_string_spec _ _ Ho). destruct (free_input (osy a)); [rewrite app_nil_r; exact C3|].
        destruct (osy a) as [|c y] eqn:Eo; [exfalso; apply (proj1 (Hnames [] (nth_error_In _ _ Ho))); reflexivity|].
        apply Forall2_app; [exact C3|]. constructor; [exact Ho|constructor].
    - intros _. cbn [lp_final lp_final_weight]. destruct (mget Nat.compare (tgt a) (fin g)); auto.
  Qed.
  Lemma follow_plain en a p s : stands_for dec names addr a en -> In a (nth s (sts g) []) -> is_diacritic (isy a) = false ->
    follow dec al T en p = Ok (moved en a p (lp_fd p), true).
  Proof.
    intros (Hi & Ho & Ht & Hw) Ha D. unfold follow. fold F. unfold al. fold F. rewrite (op_none _ _ Hi D). cbn [rbind].
    rewrite Ht. unfold T. rewrite (rep_final _ _ _ _ R (tgt a) (proj1 (proj2 HS) s a Ha)). cbn [rmap rbind]. unfold moved. rewrite Ht. reflexivity.
  Qed.
  Lemma follow_flag en a p s e r x : stands_for dec names addr a en -> In a (nth s (sts g) []) -> denotes (isy a) x -> carries p e r ->
    exists q, follow dec al T en p = Ok (q, snd (Flags_Spec.step x e)) /\
      (snd (Flags_Spec.step x e) = true -> at_state q (tgt a) (fst (Flags_Spec.step x e)) (r ++ [a])).
  Proof.
    intros SF Ha D C. pose proof SF as (Hi & Ho & Ht & Hw). pose proof C as (C1 & _).
    destruct (flag_op dec tr g addr R HA Hdef nil _ _ _ Hi D) as (op & Eop & Mop). fold F in Eop, Mop.
    assert (Nx : nonempty_value x) by (apply (Hval (isy a)); [exact (nth_error_In _ _ Hi)|exact D]).
    destruct (F_ok dec tr g addr R HA Hsmall Hdef Hin nil) as (FO & FS & _). fold F in FO, FS.
    destruct (apply_op_step F FO FS e (lp_fd p) op x C1 Mop Nx) as (fs' & Eap & HF').
    unfold follow. unfold al. fold F. rewrite Eop, Eap. cbn [rbind].
    destruct (snd (Flags_Spec.step x e)) eqn:Sx; [|eexists; split; [reflexivity|discriminate]].
    rewrite Ht. unfold T. rewrite (rep_final _ _ _ _ R (tgt a) (proj1 (proj2 HS) s a Ha)). cbn [rmap rbind].
    eexists. split; [reflexivity|]. intros _. pose proof (moved_at en a p s e r fs' _ SF Ha C HF') as X. unfold moved in X. rewrite Ht in X. exact X.
  Qed.

  (** ** Arcs without input *)
  Definition free_move (s : nat) (e : fenv) (a : arc) (e' : fenv) : Prop :=
    In a (nth s (sts g) []) /\ (isy a = EPSILON /\ e' = e \/ exists x, denotes (isy a) x /\ snd (Flags_Spec.step x e) = true /\ e' = fst (Flags_Spec.step x e)).
  Lemma free_move_reached input r s e a e' : reached g input r s e -> free_move s e a e' -> reached g input (r ++ [a]) (tgt a) e'.
  Proof. intros H (Ha & [(E & ->)|(x & D & S & ->)]); [eapply by_epsilon; eassumption|eapply by_flag; eassumption]. Qed.
  (** [new] are the paths after one arc without input. *)
  Definition free_successors (s : nat) (e : fenv) (r : list arc) (new : list path) : Prop :=
    (forall q, In q new -> exists a e', free_move s e a e' /\ at_state q (tgt a) e' (r ++ [a])) /\
    (forall a e', free_move s e a e' -> exists q, In q new /\ at_state q (tgt a) e' (r ++ [a])).

  Lemma follow_free s e r p l es : Forall2 (stands_for dec names addr) l es -> (forall a, In a l -> In a (nth s (sts g) []) /\ free_input (isy a) = true) ->
    carries p e r -> exists new, rseq (map (fun e => rmap (fun '(q, ok) => if ok : bool then [q] else []) (follow dec al T e p)) es) = Ok new /\
      (forall q, In q (concat new) -> exists a e', In a l /\ free_move s e a e' /\ at_state q (tgt a) e' (r ++ [a])) /\
      (forall a e', In a l -> free_move s e a e' -> exists q, In q (concat new) /\ at_state q (tgt a) e' (r ++ [a])).
  Proof.
    intros H HL C. induction H as [|a en l es SF H IH].
    - exists []. split; [reflexivity|]. split; [intros q []|intros a e' []].
    - destruct IH as (new & E & I1 & I2); [intros a' Ha'; apply HL; right; exact Ha'|].
      destruct (HL a (or_introl eq_refl)) as (Ha & Hf). unfold free_input in Hf. apply orb_true_iff in Hf.
      destruct Hf as [Hf|Hf].
      + apply bstr_eqb_eq in Hf. exists ([moved en a p (lp_fd p)] :: new). cbn [map rseq].
        rewrite (follow_plain en a p s SF Ha) by (rewrite Hf; reflexivity). cbn [rmap rbind]. rewrite E. cbn [rbind]. split; [reflexivity|].
        assert (A : at_state (moved en a p (lp_fd p)) (tgt a) e (r ++ [a])) by (apply (moved_at en a p s e r (lp_fd p) e SF Ha C), C).
        cbn [concat app]. split.
        * intros q [<- |Hq]; [|destruct (I1 q Hq) as (a' & e' & X & Y); exists a', e'; split; [right; exact X|exact Y]].
          exists a, e. split; [left; reflexivity|]. split; [split; [exact Ha|left; auto]|exact A].
        * intros a' e' [<- |Hl] M; [|destruct (I2 a' e' Hl M) as (q & X & Y); exists q; split; [right; exact X|exact Y]].
          exists (moved en a p (lp_fd p)). split; [left; reflexivity|]. destruct M as (_ & [(_ & ->)|(x & D & _)]); [exact A|].
          exfalso. rewrite Hf in D. assert (X : is_diacritic EPSILON = true) by (apply is_diacritic_denotes; eauto). discriminate.
      + apply is_diacritic_denotes in Hf. destruct Hf as (x & D). destruct (follow_flag en a p s e r x SF Ha D C) as (q0 & E0 & A0).
        destruct (snd (Flags_Spec.step x e)) eqn:Sx.
        * exists ([q0] :: new). cbn [map rseq]. rewrite E0. cbn [rmap rbind]. rewrite E. cbn [rbind]. split; [reflexivity|]. cbn [concat app]. specialize (A0 eq_refl). split.
          -- intros q [<- |Hq]; [|destruct (I1 q Hq) as (a' & e' & X & Y); exists a', e'; split; [right; exact X|exact Y]].
             exists a, (fst (Flags_Spec.step x e)). split; [left; reflexivity|]. split; [split; [exact Ha|right; eauto]|exact A0].
          -- intros a' e' [<- |Hl] M; [|destruct (I2 a' e' Hl M) as (q & X & Y); exists q; split; [right; exact X|exact Y]].
             exists q0. split; [left; reflexivity|]. destruct M as (_ & [(X & _)|(x' & D' & _ & ->)]).
             ++ exfalso. rewrite X in D. assert (Y : is_diacritic EPSILON = true) by (apply is_diacritic_denotes; eauto). discriminate.
             ++ rewrite (denotes_fun _ _ _ D' D). exact A0.
        * exists ([] :: new). cbn [map rseq]. rewrite E0. cbn [rmap rbind]. rewrite E. cbn [rbind]. split; [reflexivity|]. cbn [concat app]. split.
          -- intros q Hq. destruct (I1 q Hq) as (a' & e' & X & Y); exists a', e'; split; [right; exact X|exact Y].
          -- intros a' e' [<- |Hl] M; [|apply (I2 a' e' Hl M)]. exfalso. destruct M as (_ & [(X & _)|(x' & D' & S' & _)]).
             ++ rewrite X in D. assert (Y : is_diacritic EPSILON = true) by (apply is_diacritic_denotes; eauto). discriminate.
             ++ rewrite (denotes_fun _ _ _ D' D) in S'. congruence.
  Qed.
  Lemma free_arcs s : (s < length (sts g))%nat -> exists hit es l, free_entries al T (addr s) = Ok (hit, es) /\ Forall2 (stands_for dec names addr) l es /\
    (forall a, In a l <-> In a (nth s (sts g) []) /\ free_input (isy a) = true) /\ (hit = true -> es <> []).
  Proof.
    intros L. destruct (rep_free _ _ _ _ R s L) as (hit & es & l & E & P & S & H). exists hit, es, l. split; [exact E|]. split; [exact S|]. split; [|exact H].
    intros a. rewrite <- (filter_In (fun a => free_input (isy a))). split; [apply Permutation_in, P|apply Permutation_in, Permutation_sym, P].
  Qed.
  Lemma move_free s e a e' : free_move s e a e' -> free_input (isy a) = true.
  Proof.
    intros (_ & [(E & _)|(x & D & _)]); unfold free_input; [rewrite E; reflexivity|]. apply orb_true_iff. right. apply is_diacritic_denotes. eauto.
  Qed.
  Lemma follow_all s e r p es l : Forall2 (stands_for dec names addr) l es -> (forall a, In a l <-> In a (nth s (sts g) []) /\ free_input (isy a) = true) ->
    carries p e r -> exists new, rmap (@concat path) (rseq (map (fun e => rmap (fun '(q, ok) => if ok : bool then [q] else []) (follow dec al T e p)) es)) = Ok new /\
      free_successors s e r new.
  Proof.
    intros S HL C. destruct (follow_free s e r p l es S (fun a Ha => proj1 (HL a) Ha) C) as (new & E & I1 & I2). rewrite E. exists (concat new).
    split; [reflexivity|]. split.
    - intros q Hq. destruct (I1 q Hq) as (a & e' & _ & M). eauto.
    - intros a e' M. apply (I2 a e'); [|exact M]. apply HL. split; [apply M|exact (move_free s e a e' M)].
  Qed.

  (** ** One round of epsilons *)
  Lemma epsilons_state p s e r : at_state p s e r -> exists new, epsilons dec al T p = Ok new /\
    ((free_successors s e r new /\ TA_OFFSET <= lp_index p) \/ (exists q, new = [q] /\ midway q s e r) \/ (new = [] /\ forall a e', ~ free_move s e a e')).
  Proof.
    intros (Ei & L & C & FK). destruct (free_arcs s L) as (hit & es & l & E & S & HL & Hhit). unfold epsilons. rewrite Ei.
    unfold free_entries in E. destruct (N.leb_spec TA_OFFSET (addr s)) as [Hi|Lo].
    - destruct (N.ltb_spec (addr s) TA_OFFSET) as [X|_]; [lia|]. destruct (lay_marker _ _ _ LO s L Hi) as (B & en & E1 & E2).
      unfold try_epsilon_transitions, first_transition. rewrite Ei. unfold T in *. rewrite E1. cbn [rmap rbind]. rewrite E2, N.eqb_refl.
      replace (addr s - TA_OFFSET + 1) with (addr s + 1 - TA_OFFSET) in E by lia. rewrite from_high in E by lia.
      destruct (run_of (free_entry al) (transitions_from (tr_tables tr) (addr s + 1))) as [es'| | |]; try discriminate. injection E as <- ->. cbn [rbind].
      destruct (follow_all s e r p es l S HL C) as (new & En & FS). unfold T in En. rewrite En. exists new. auto.
    - destruct (N.ltb_spec (addr s) TA_OFFSET) as [_|X]; [|lia]. unfold try_epsilon_index. rewrite Ei.
      apply rbind_Ok in E. destruct E as (ie & E1 & E). unfold T in *. rewrite E1. cbn [rbind]. destruct (N.eqb_spec (ie_input ie) 0) as [Z|NZ].
      + destruct (run_of (free_entry al) _) as [es'| | |] eqn:E2 in E; try discriminate. injection E as <- ->.
        assert (B : TA_OFFSET <= ie_target ie < 2 * TA_OFFSET) by (apply (lay_index _ _ _ LO _ _ E1); rewrite Z; discriminate).
        rewrite (from_high _ _ B) in E2. destruct es as [|en es]; [destruct (Hhit eq_refl eq_refl)|].
        destruct (run_of_head _ _ _ _ E2) as (rest & EF & FE). pose proof (head_of _ _ _ _ EF) as G.
        assert (NN : te_input en <> OLF_Model.NO_SYMBOL).
        { inversion S as [|a0 ? l0 ? SF _]; subst. destruct SF as (Hi & _). exact (not_no _ _ Hi). }
        unfold follow_index, final_weight. destruct (N.leb_spec TA_OFFSET (ie_target ie)) as [_|X]; [|lia]. rewrite (get_high _ _ B), G. cbn [rmap rbind].
        assert (NF : trans_final en = false).
        { unfold trans_final. destruct (N.eqb_spec (te_input en) OLF_Model.NO_SYMBOL); [contradiction|reflexivity]. }
        rewrite NF. eexists. split; [reflexivity|]. right. left. eexists. split; [reflexivity|]. split; [exact L|]. cbn [lp_index].
        split; [exact C|]. split; [exact B|]. exists en, es. split; [|auto].
        unfold free_entries, T. destruct (N.leb_spec TA_OFFSET (addr s)) as [X|_]; [lia|].
        rewrite E1. cbn [rbind]. rewrite Z. cbn [N.eqb]. rewrite (from_high _ _ B), E2. reflexivity.
      + injection E as <- <-. exists []. split; [reflexivity|]. right. right. split; [reflexivity|]. intros a e' M. inversion S; subst.
        apply (proj2 (HL a)). split; [apply M|exact (move_free s e a e' M)].
  Qed.
  Lemma epsilons_midway p s e r : midway p s e r -> exists new, epsilons dec al T p = Ok new /\ free_successors s e r new.
  Proof.
    intros (L & C & B & en & es & E & G & NN & FE & RO). destruct (free_arcs s L) as (hit & es' & l & E' & S & HL & _). rewrite E in E'. injection E' as <- <-.
    unfold epsilons. destruct (N.ltb_spec (lp_index p) TA_OFFSET) as [X|_]; [lia|]. unfold try_epsilon_transitions, first_transition. rewrite G. cbn [rmap rbind].
    destruct (N.eqb_spec (te_input en) OLF_Model.NO_SYMBOL) as [X|_]; [contradiction|]. rewrite RO. cbn [rbind].
    apply (follow_all s e r p (en :: es) l S HL C).
  Qed.

  (** ** Reading a symbol *)
  Definition consumed (s : nat) (e : fenv) (r : list arc) (k : N) (l : list path) : Prop :=
    (forall q, In q l -> exists a, In a (nth s (sts g) []) /\ nth_error names (N.to_nat k) = Some (isy a) /\ free_input (isy a) = false /\ at_state q (tgt a) e (r ++ [a])) /\
    (forall a, In a (nth s (sts g) []) -> nth_error names (N.to_nat k) = Some (isy a) -> free_input (isy a) = false -> exists q, In q l /\ at_state q (tgt a) e (r ++ [a])).
  Lemma run_of_cases test l : (exists es, run_of test l = Ok es) \/ run_of test l = Ub.
  Proof. induction l as [|x r IH]; cbn [run_of]; [auto|]. destruct (test x); [|eauto]. destruct IH as [(es & ->)| ->]; cbn [rmap rbind]; eauto. Qed.
  Lemma try_entries p s e r k : at_state p s e r -> k <> OLF_Model.NO_SYMBOL ->
    match symbol_entries T (addr s) k with
    | Ok (hit, es) => (hit = true -> es <> []) -> exists p', carries p' e r /\ try_input dec al T p k = rseq (map (fun e => rmap fst (follow dec al T e p')) es)
    | Ub => try_input dec al T p k = Ub
    | _ => False
    end.
  Proof.
    intros (Ei & L & C & FK) KN. unfold try_input. rewrite Ei. unfold symbol_entries. destruct (N.leb_spec TA_OFFSET (addr s)) as [Hi|Lo].
    - destruct (N.ltb_spec (addr s) TA_OFFSET) as [X|_]; [lia|]. destruct (lay_marker _ _ _ LO s L Hi) as (B & en & E1 & E2).
      unfold try_transitions, first_transition. rewrite Ei. unfold T in *. rewrite E1. cbn [rmap rbind]. rewrite E2, N.eqb_refl.
      replace (addr s - TA_OFFSET + 1) with (addr s + 1 - TA_OFFSET) by lia. rewrite from_high by lia.
      destruct (run_of_cases (entry_with k) (transitions_from (tr_tables tr) (addr s + 1))) as [(es & E)|E]; rewrite E; cbn [rmap rbind]; [|reflexivity].
      intros _. exists p. auto.
    - destruct (N.ltb_spec (addr s) TA_OFFSET) as [_|X]; [|lia]. unfold try_index. rewrite Ei. replace (addr s + k + 1) with (addr s + 1 + k) by lia. unfold T in *.
      assert (GI : (exists ie, get_index (tr_tables tr) (addr s + 1 + k) = Ok ie) \/ get_index (tr_tables tr) (addr s + 1 + k) = Ub)
        by (unfold get_index; destruct (nth_error _ _); eauto).
      destruct GI as [(ie & E1)|E1]; rewrite E1; cbn [rbind]; [|reflexivity]. destruct (N.eqb_spec (ie_input ie) k) as [Z|NZ].
      2:{ intros _. exists p. auto. }
      assert (B : TA_OFFSET <= ie_target ie < 2 * TA_OFFSET) by (apply (lay_index _ _ _ LO _ _ E1); congruence).
        rewrite (from_high _ _ B). unfold follow_index, final_weight. destruct (N.leb_spec TA_OFFSET (ie_target ie)) as [_|X]; [|lia]. rewrite (get_high _ _ B).
        destruct (transitions_from (tr_tables tr) (ie_target ie)) as [|en rest] eqn:EF.
        * cbn [run_of rmap rbind]. unfold get_transition, transitions_from in *.
          assert (LE : (length (t_trans (tr_tables tr)) <= table_pos (ie_target ie))%nat).
          { pose proof (skipn_length (table_pos (ie_target ie)) (t_trans (tr_tables tr))) as SL. rewrite EF in SL. cbn [length] in SL. lia. }
          rewrite (proj2 (nth_error_None _ _) LE). reflexivity.
        * pose proof (head_of _ _ _ _ EF) as G. rewrite G. cbn [rmap rbind]. unfold try_transitions, first_transition. cbn [lp_index]. rewrite G. cbn [rmap rbind].
          cbn [run_of]. destruct (entry_with k en) eqn:EW; [|cbn [rmap rbind]; intros C0; destruct (C0 eq_refl eq_refl)].
          assert (NN : te_input en <> OLF_Model.NO_SYMBOL) by (unfold entry_with in EW; apply andb_true_iff in EW; destruct EW as (EW & _); apply negb_true_iff, N.eqb_neq in EW; exact EW).
          destruct (N.eqb_spec (te_input en) OLF_Model.NO_SYMBOL) as [X|_]; [contradiction|]. rewrite EF. cbn [run_of]. rewrite EW.
          destruct (run_of_cases (entry_with k) rest) as [(es & E)|E]; rewrite E; cbn [rmap rbind]; [|reflexivity].
          intros _. eexists. split; [|reflexivity]. exact C.
  Qed.

  Lemma follow_consuming s e r p l es : Forall2 (stands_for dec names addr) l es -> (forall a, In a l -> In a (nth s (sts g) []) /\ is_diacritic (isy a) = false) ->
    carries p e r -> exists new, rseq (map (fun e => rmap fst (follow dec al T e p)) es) = Ok new /\
      Forall2 (fun a q => at_state q (tgt a) e (r ++ [a])) l new.
  Proof.
    intros H HL C. induction H as [|a en l es SF H IH]; [exists []; split; [reflexivity|constructor]|].
    destruct (HL a (or_introl eq_refl)) as (Ha & D). destruct IH as (new & E & F2); [intros b Hb; apply HL; right; exact Hb|].
    cbn [map rseq]. rewrite (follow_plain en a p s SF Ha D). cbn [rmap rbind fst]. rewrite E. cbn [rbind]. eexists. split; [reflexivity|].
    constructor; [|exact F2]. apply (moved_at en a p s e r); auto. exact (proj1 C).
  Qed.
  Lemma input_state p s e r k : at_state p s e r -> k <> 0 -> k < 65535 -> is_flag_symbol al k = false ->
    match try_input dec al T p k with Ok l => consumed s e r k l | Ub => (inputs <= N.to_nat k)%nat | _ => False end.
  Proof.
    intros A K0 K1 KF. assert (KN : k <> OLF_Model.NO_SYMBOL) by (unfold OLF_Model.NO_SYMBOL; lia).
    pose proof (try_entries p s e r k A KN) as TE. pose proof A as (Ei & L & C & FK).
    destruct (Nat.lt_ge_cases (N.to_nat k) inputs) as [LT|GE].
    - destruct (nth_error names (N.to_nat k)) as [x|] eqn:EX; [|apply nth_error_None in EX; lia].
      assert (FX : is_diacritic x = false) by (rewrite <- (flag_no k x EX); exact KF).
      assert (EXX : x <> EPSILON) by (intros Q; apply K0; apply (zero_eps dec tr g addr R _ _ EX) in Q; lia).
      destruct (rep_symbol _ _ _ _ R s x (N.to_nat k) L EX ltac:(unfold inputs in LT; lia) ltac:(lia)) as (hit & es & E & F2 & Hh).
      rewrite N2Nat.id in E. unfold T in *. rewrite E in TE. destruct (TE Hh) as (p' & C' & ->).
      assert (HL : forall a, In a (filter (fun a => bstr_eqb (isy a) x) (nth s (sts g) [])) -> In a (nth s (sts g) []) /\ isy a = x).
      { intros a Ha. apply filter_In in Ha. destruct Ha as (Ha & B). destruct (bstr_eqb_spec (isy a) x); [auto|discriminate]. }
      destruct (follow_consuming s e r p' _ es F2 (fun a Ha => conj (proj1 (HL a Ha)) (eq_ind_r (fun z => is_diacritic z = false) FX (proj2 (HL a Ha)))) C') as (new & En & Fn).
      unfold al, T in *. rewrite En. split.
      + intros q Hq. destruct (Forall2_in_r _ _ _ _ Fn Hq) as (a & Ha & Q). destruct (HL a Ha) as (Ha1 & Ha2). exists a. split; [exact Ha1|]. rewrite Ha2.
        split; [exact EX|]. split; [|exact Q]. unfold free_input. rewrite FX. destruct (bstr_eqb_spec x (B "@_EPSILON_SYMBOL_@")); [contradiction|reflexivity].
      + intros a Ha EA _. rewrite EX in EA. injection EA as EA.
        destruct (Forall2_in_l _ _ _ a Fn) as (q & Hq & Q); [apply filter_In; split; [exact Ha|]; destruct (bstr_eqb_spec (isy a) x); [reflexivity|congruence]|eauto].
    - assert (NC : consumed s e r k []).
      { split; [intros q []|]. intros a Ha EA FA. exfalso. destruct (proj2 (rep_inputs _ _ _ _ R (isy a))) as (j & J1 & J2 & J3).
        - exists s, a. split; [exact Ha|]. split; [reflexivity|]. exact FA.
        - assert (j = N.to_nat k) by (apply (proj1 (NoDup_nth_error names) (rep_names _ _ _ _ R)); [apply nth_error_Some; unfold names; congruence|unfold names in *; congruence]).
          unfold inputs in GE. lia. }
      assert (X : symbol_entries (tr_tables tr) (addr s) k = Ok (false, []) \/ symbol_entries (tr_tables tr) (addr s) k = Ub).
      { destruct (nth_error names (N.to_nat k)) as [x|] eqn:EX.
        - pose proof (rep_other _ _ _ _ R s x (N.to_nat k) L EX ltac:(unfold inputs in GE; lia)) as X. rewrite N2Nat.id in X. apply X.
          unfold free_input. rewrite <- (flag_no k x EX), KF. destruct (bstr_eqb_spec x (B "@_EPSILON_SYMBOL_@")) as [Q|_]; [|reflexivity].
          exfalso. apply K0. apply (zero_eps dec tr g addr R _ _ EX) in Q. lia.
        - apply nth_error_None in EX. pose proof (lay_beyond _ _ _ LO s (N.to_nat k) L EX) as X. rewrite N2Nat.id in X. apply X. lia. }
      unfold T in *. destruct X as [X|X]; rewrite X in TE.
      + destruct TE as (p' & _ & ->); [discriminate|]. exact NC.
      + rewrite TE. exact GE.
  Qed.
  Lemma input_midway p s e r k : midway p s e r -> k <> 0 -> is_flag_symbol al k = false -> try_input dec al T p k = Ok [].
  Proof.
    intros (L & C & B & en & es & E & G & NN & FE & RO) K0 KF. unfold try_input. destruct (N.ltb_spec (lp_index p) TA_OFFSET) as [X|_]; [lia|].
    unfold try_transitions, first_transition. rewrite G. cbn [rmap rbind]. destruct (N.eqb_spec (te_input en) OLF_Model.NO_SYMBOL) as [X|_]; [contradiction|].
    destruct (transitions_from T (lp_index p)) as [|en' rest] eqn:EF; [discriminate|].
    assert (en' = en). { pose proof (head_of _ _ _ _ EF) as G'. congruence. } subst en'.
    cbn [run_of]. replace (entry_with k en) with false; [reflexivity|]. symmetry. unfold entry_with. destruct (N.eqb_spec (te_input en) k) as [X|X]; [|apply andb_false_r].
    exfalso. unfold free_entry in FE. rewrite X in FE. fold al in FE. rewrite KF in FE. destruct (N.eqb_spec k 0); [contradiction|]. cbn in FE. rewrite ?andb_false_r in FE. discriminate.
  Qed.

  (** ** The set of paths *)
  Definition all_paths (xss : list (list bstr)) (ps : list path) : Prop :=
    (forall p, In p ps -> exists s e r, reached g xss r s e /\ (at_state p s e r \/ midway p s e r)) /\
    (forall r s e, reached g xss r s e -> exists p, In p ps /\ at_state p s e r).
  Lemma reached_some xss xs r s e : reached g (xss ++ [xs]) r s e -> exists x, In x xs.
  Proof.
    intros H. remember (xss ++ [xs]) as i eqn:E. revert E. induction H; intros E.
    - destruct xss; discriminate.
    - auto.
    - auto.
    - apply app_inj_tail in E. destruct E as (_ & <-). eauto.
  Qed.
  (** What one round of epsilons yields keeps to the runs of the same input. *)
  Lemma epsilons_sound xss p new : (exists s e r, reached g xss r s e /\ (at_state p s e r \/ midway p s e r)) -> epsilons dec al T p = Ok new ->
    Forall (fun p => exists s e r, reached g xss r s e /\ (at_state p s e r \/ midway p s e r)) new.
  Proof.
    intros (s & e & r & Hr & [A|M]) E; apply Forall_forall; intros q Hq.
    - destruct (epsilons_state p s e r A) as (new' & E' & [(S & _)|[(q' & -> & Mq)|(-> & _)]]); rewrite E in E'; injection E' as ->.
      + destruct (proj1 S q Hq) as (a & e' & Mv & Aq). exists (tgt a), e', (r ++ [a]). split; [eapply free_move_reached; eassumption|auto].
      + destruct Hq as [<- |[]]. eauto 6.
      + destruct Hq.
    - destruct (epsilons_midway p s e r M) as (new' & E' & S). rewrite E in E'. injection E' as ->.
      destruct (proj1 S q Hq) as (a & e' & Mv & Aq). exists (tgt a), e', (r ++ [a]). split; [eapply free_move_reached; eassumption|auto].
  Qed.
  Lemma closed_free ps p s e r a e' : (forall p, In p ps -> exists new, epsilons dec al T p = Ok new /\ incl new ps) ->
    In p ps -> at_state p s e r -> free_move s e a e' -> exists q, In q ps /\ at_state q (tgt a) e' (r ++ [a]).
  Proof.
    intros HC Hp A Mv. destruct (HC p Hp) as (new & E & I). destruct (epsilons_state p s e r A) as (new' & E' & [(S & _)|[(q' & -> & Mq)|(-> & No)]]); rewrite E in E'; injection E' as ->.
    - destruct (proj2 S a e' Mv) as (q & Hq & Aq). eauto.
    - destruct (HC q' (I q' (or_introl eq_refl))) as (new2 & E2 & I2). destruct (epsilons_midway q' s e r Mq) as (new3 & E3 & S).
      rewrite E2 in E3. injection E3 as ->. destruct (proj2 S a e' Mv) as (q & Hq & Aq). eauto.
    - destruct (No a e' Mv).
  Qed.
  Lemma initial_at : (0 < length (sts g))%nat -> at_state (initial_path al) 0%nat env0 [].
  Proof.
    intros L. split; [symmetry; exact (rep_start _ _ _ _ R)|]. split; [exact L|]. split.
    - split; [|split; [reflexivity|constructor]]. apply (fd_env0 dec tr g addr R HA Hsmall Hdef Hin).
    - intros H. destruct (H eq_refl).
  Qed.
  Lemma init_paths fuel ps : (0 < length (sts g))%nat -> init dec al T fuel = Ok ps -> all_paths [] ps.
  Proof.
    intros L H. unfold init in H. destruct (try_epsilons_closed _ _ _ _ _ _ H) as (I & HC). split.
    - apply Forall_forall. apply (try_epsilons_inv _ _ _ _ _ (epsilons_sound []) _ _ H). constructor; [|constructor].
      exists 0%nat, env0, []. split; [constructor|left; apply initial_at, L].
    - intros r s e Hr. remember ([] : list (list bstr)) as i eqn:Ei. induction Hr as [|i r s e a Hr IH Ha E|i r s e a x Hr IH Ha D S|i r s e a xs Hr IH Ha Hx Fx].
      + exists (initial_path al). split; [apply I; left; reflexivity|apply initial_at, L].
      + destruct (IH Ei) as (p & Hp & A). eapply closed_free; eauto. split; [exact Ha|left; auto].
      + destruct (IH Ei) as (p & Hp & A). eapply closed_free; eauto. split; [exact Ha|right; eauto].
      + destruct i; discriminate.
  Qed.
  (** Numbers that are looked for. *)
  Definition reads (k : N) (x : bstr) : Prop := k <> 0 /\ nth_error names (N.to_nat k) = Some x.
  Lemma symbols_for_reads c k x : ordinary tr c k -> In x (symbols_for tr c k) <-> k <> 0 /\ (reads k x \/ reads (lower_case c k) x).
  Proof.
    intros (_ & _ & _ & A0 & _). unfold symbols_for, reads. fold names. destruct (N.eqb_spec k 0) as [-> |K]; [split; [intros []|intros (H & _); destruct (H eq_refl)]|].
    cbn [flat_map]. rewrite app_nil_r, in_app_iff.
    assert (Z : forall o : option bstr, In x (match o with Some y => [y] | None => [] end) <-> o = Some x).
    { intros [y|]; cbn [In]; split; intros Q; [destruct Q as [-> |[]]; reflexivity|left; congruence|destruct Q|discriminate]. }
    rewrite !Z. tauto.
  Qed.
  Lemma step_paths c fuel xss ps k ps' : ordinary tr c k -> all_paths xss ps -> LS_Model.step dec al T c fuel ps k = Ok ps' ->
    all_paths (xss ++ [symbols_for tr c k]) ps'.
  Proof.
    intros O (Sd & Cm) H. pose proof O as (K1 & KF & A1 & A0 & AF). unfold LS_Model.step, step2 in H. rewrite alternative_lower_case in H.
    assert (No65 : forall j, (65535 <= j) -> nth_error names (N.to_nat j) = None) by (intros j Hj; apply nth_error_None; lia).
    destruct (N.eqb_spec k OLF_Model.NO_SYMBOL) as [KN|KN].
    { injection H as <-. assert (EA : lower_case c k = OLF_Model.NO_SYMBOL) by (rewrite KN; apply lower_case_none).
      split; [intros p []|]. intros r s e Hr. exfalso. destruct (reached_some _ _ _ _ _ Hr) as (x & Hx). apply (symbols_for_reads c k x O) in Hx.
      unfold reads in Hx. rewrite EA, KN, No65 in Hx by (unfold OLF_Model.NO_SYMBOL; lia). destruct Hx as (_ & [(_ & Q)|(_ & Q)]); discriminate. }
    unfold apply_input in H. destruct (N.eqb_spec k 0) as [-> |K0].
    { cbn [rbind] in H. assert (ps' = []) by (destruct fuel; cbn [try_epsilons] in H; congruence). subst ps'. split; [intros p []|].
      intros r s e Hr. exfalso. destruct (reached_some _ _ _ _ _ Hr) as (x & Hx). apply (symbols_for_reads c 0 x O) in Hx. destruct Hx as (Q & _). auto. }
    apply rbind_Ok in H. destruct H as (todo & E & H).
    destruct (rseq _) as [ll| | |] eqn:ES in E; try discriminate. cbn [rmap rbind] in E. injection E as <-. apply rseq_Ok in ES.
    assert (KB : k < 65535) by (unfold OLF_Model.NO_SYMBOL in KN; lia).
    destruct (try_epsilons_closed _ _ _ _ _ _ H) as (I & HC).
    (* the paths of one path *)
    assert (One : forall p l, rbind (try_input dec al T p k) (fun l1 => rbind (if lower_case c k =? OLF_Model.NO_SYMBOL then Ok [] else try_input dec al T p (lower_case c k)) (fun l2 => Ok (l1 ++ l2))) = Ok l ->
      (forall s e r, midway p s e r -> l = []) /\
      (forall s e r, at_state p s e r ->
        (forall q, In q l -> exists a, In a (nth s (sts g) []) /\ In (isy a) (symbols_for tr c k) /\ free_input (isy a) = false /\ at_state q (tgt a) e (r ++ [a])) /\
        (forall a, In a (nth s (sts g) []) -> In (isy a) (symbols_for tr c k) -> free_input (isy a) = false -> exists q, In q l /\ at_state q (tgt a) e (r ++ [a])))).
    { intros p l Hl. apply rbind_Ok in Hl. destruct Hl as (l1 & E1 & Hl). apply rbind_Ok in Hl. destruct Hl as (l2 & E2 & Hl). injection Hl as <-. split.
      - intros s e r M. rewrite (input_midway p s e r k M K0 KF) in E1. injection E1 as <-. destruct (N.eqb_spec (lower_case c k) OLF_Model.NO_SYMBOL) as [Q|Q]; [injection E2 as <-; reflexivity|].
        rewrite (input_midway p s e r _ M A0 AF) in E2. injection E2 as <-. reflexivity.
      - intros s e r A. pose proof (input_state p s e r k A K0 KB KF) as C1. rewrite E1 in C1.
        destruct (N.eqb_spec (lower_case c k) OLF_Model.NO_SYMBOL) as [Q|Q].
        + injection E2 as <-. rewrite app_nil_r. split.
          * intros q Hq. destruct (proj1 C1 q Hq) as (a & Ha & EA & FA & Aq). exists a. split; [exact Ha|]. split; [|auto]. apply symbols_for_reads; [exact O|]. unfold reads. auto.
          * intros a Ha Hx FA. apply symbols_for_reads in Hx; [|exact O]. destruct Hx as (_ & [(_ & X)|(_ & X)]); [apply (proj2 C1); auto|].
            rewrite Q, No65 in X by (unfold OLF_Model.NO_SYMBOL; lia). discriminate.
        + pose proof (input_state p s e r (lower_case c k) A A0 ltac:(unfold OLF_Model.NO_SYMBOL in Q; lia) AF) as C2. rewrite E2 in C2. split.
          * intros q Hq. apply in_app_iff in Hq. destruct Hq as [Hq|Hq].
            -- destruct (proj1 C1 q Hq) as (a & Ha & EA & FA & Aq). exists a. split; [exact Ha|]. split; [|auto]. apply symbols_for_reads; [exact O|]. unfold reads. auto.
            -- destruct (proj1 C2 q Hq) as (a & Ha & EA & FA & Aq). exists a. split; [exact Ha|]. split; [|auto]. apply symbols_for_reads; [exact O|]. unfold reads. auto.
          * intros a Ha Hx FA. apply symbols_for_reads in Hx; [|exact O]. destruct Hx as (_ & [(_ & X)|(_ & X)]).
            -- destruct (proj2 C1 a Ha X FA) as (q & Hq & Aq). exists q. rewrite in_app_iff. auto.
            -- destruct (proj2 C2 a Ha X FA) as (q & Hq & Aq). exists q. rewrite in_app_iff. auto. }
    split.
    - apply Forall_forall. apply (try_epsilons_inv _ _ _ _ _ (epsilons_sound (xss ++ [symbols_for tr c k])) _ _ H).
      apply Forall_forall. intros q Hq. apply in_concat in Hq. destruct Hq as (l & Hl & Hq). destruct (Forall2_in_r _ _ _ _ ES Hl) as (p & Hp & E).
      destruct (One p l E) as (O1 & O2). destruct (Sd p Hp) as (s & e & r & Hr & [A|M]); [|rewrite (O1 s e r M) in Hq; destruct Hq].
      destruct (proj1 (O2 s e r A) q Hq) as (a & Ha & Hx & FA & Aq). exists (tgt a), e, (r ++ [a]). split; [eapply by_symbol; eassumption|auto].
    - intros r s e Hr. remember (xss ++ [symbols_for tr c k]) as i eqn:Ei. revert Ei.
      induction Hr as [|i r s e a Hr IH Ha E|i r s e a x Hr IH Ha D S|i r s e a xs Hr _ Ha Hx Fx]; intros Ei.
      + destruct xss; discriminate.
      + destruct (IH Ei) as (p & Hp & A). eapply closed_free; eauto. split; [exact Ha|left; auto].
      + destruct (IH Ei) as (p & Hp & A). eapply closed_free; eauto. split; [exact Ha|right; eauto].
      + apply app_inj_tail in Ei. destruct Ei as (-> & ->). destruct (Cm r s e Hr) as (p & Hp & A).
        destruct (Forall2_in_l _ _ _ _ ES Hp) as (l & Hl & E). destruct (One p l E) as (_ & O2). destruct (proj2 (O2 s e r A) a Ha Hx Fx) as (q & Hq & Aq).
        exists q. split; [|exact Aq]. apply I, in_concat. eauto.
  Qed.
  Lemma steps_paths c fuel : forall ks xss ps ps', Forall (ordinary tr c) ks -> all_paths xss ps -> steps dec al T c fuel ps ks = Ok ps' ->
    all_paths (xss ++ map (symbols_for tr c) ks) ps'.
  Proof.
    induction ks as [|k ks IH]; intros xss ps ps' HO A H; cbn [steps] in H.
    - injection H as <-. rewrite app_nil_r. exact A.
    - apply rbind_Ok in H. destruct H as (ps1 & E & H). inversion HO; subst. cbn [map].
      replace (xss ++ symbols_for tr c k :: map (symbols_for tr c) ks) with ((xss ++ [symbols_for tr c k]) ++ map (symbols_for tr c) ks) by (rewrite <- app_assoc; reflexivity).
      eapply IH; eauto. eapply step_paths; eauto.
  Qed.
  Lemma lookup_paths c fuel ks ps : (0 < length (sts g))%nat -> Forall (ordinary tr c) ks -> lookup dec al T c fuel ks = Ok ps ->
    all_paths (map (symbols_for tr c) ks) ps.
  Proof.
    intros L HO H. unfold lookup in H. apply rbind_Ok in H. destruct H as (ps0 & E & H). apply (steps_paths c fuel ks [] ps0 ps HO); [|exact H].
    eapply init_paths; eauto.
  Qed.

  (** ** Final paths *)
  Lemma at_final_state p s e r : at_state p s e r -> at_final dec T p = Ok (match mget Nat.compare s (fin g) with Some _ => true | None => false end).
  Proof. intros (Ei & L & _). unfold at_final, T. rewrite Ei, (rep_final _ _ _ _ R s L). reflexivity. Qed.
  Lemma at_final_midway p s e r : midway p s e r -> at_final dec T p = Ok false.
  Proof.
    intros (L & C & B & en & es & E & G & NN & _). unfold at_final, final_weight. destruct (N.leb_spec TA_OFFSET (lp_index p)) as [_|X]; [|lia].
    rewrite (get_high _ _ B), G. cbn [rmap rbind]. unfold trans_final. destruct (N.eqb_spec (te_input en) OLF_Model.NO_SYMBOL) as [X|_]; [contradiction|]. reflexivity.
  Qed.
  Lemma all_final xss ps : all_paths xss ps -> forall p, In p ps -> exists b, at_final dec T p = Ok b /\
    (b = true -> exists r s e w, reached g xss r s e /\ mget Nat.compare s (fin g) = Some w /\ at_state p s e r).
  Proof.
    intros (Sd & _) p Hp. destruct (Sd p Hp) as (s & e & r & Hr & [A|M]).
    - eexists. split; [eapply at_final_state, A|]. destruct (mget Nat.compare s (fin g)) as [w|] eqn:E; [|discriminate]. intros _. exists r, s, e, w. auto.
    - exists false. split; [eapply at_final_midway, M|discriminate].
  Qed.
  Lemma reached_nonempty xss r s e : reached g xss r s e -> xss <> [] -> r <> [].
  Proof. induction 1 as [|i r s e a H IH|i r s e a x H IH|i r s e a xs H IH]; intros N; [destruct (N eq_refl)|intros Q; symmetry in Q; exact (app_cons_not_nil _ _ _ Q)..]. Qed.
  Lemma final_weights p s e r w : at_state p s e r -> mget Nat.compare s (fin g) = Some w -> r <> [] -> get_weight p = (path_weight r + w)%Z.
  Proof. intros (_ & _ & (_ & C2 & _) & FK) E N. specialize (FK N). rewrite E in FK. destruct FK as (F1 & F2). unfold get_weight. rewrite F1, F2, C2. reflexivity. Qed.

  (** ** The closure ends *)
  Definition free_arc (t s : nat) : Prop := exists a, In a (nth s (sts g) []) /\ free_input (isy a) = true /\ tgt a = t.
  Lemma free_path_snoc s t u : free_path g s t -> free_arc u t -> free_path g s u.
  Proof. intros H (a & Ha & Fa & <-). induction H as [s b Hb Fb|s b t Hb Fb H IH]; [eapply fp_more; eauto; apply fp_one; auto|eapply fp_more; eauto]. Qed.
  Lemma free_arc_low t s : free_arc t s -> (s < length (sts g))%nat.
  Proof. intros (a & Ha & _). destruct (Nat.lt_ge_cases s (length (sts g))) as [L|L]; [exact L|]. rewrite nth_overflow in Ha by exact L. destruct Ha. Qed.
  Lemma free_acc : no_free_cycle g -> forall s, Acc free_arc s.
  Proof.
    intros NC. assert (G : forall n V s, NoDup V -> (forall v, In v V -> (v < length (sts g))%nat /\ free_path g v s) -> (length (sts g) <= n + length V)%nat -> Acc free_arc s).
    { induction n as [|n IH]; intros V s N HV L; constructor; intros t Ht; pose proof (free_arc_low _ _ Ht) as Ls.
      - exfalso. assert (NV : NoDup (s :: V)) by (constructor; [intros H; exact (NC s (proj2 (HV s H)))|exact N]).
        assert (I : incl (s :: V) (seq 0 (length (sts g)))) by (intros x [<- |Hx]; apply in_seq; [lia|pose proof (proj1 (HV x Hx)); lia]).
        pose proof (NoDup_incl_length NV I) as X. rewrite seq_length in X. cbn [length] in X. lia.
      - apply (IH (s :: V)); [constructor; [intros H; exact (NC s (proj2 (HV s H)))|exact N]| |cbn [length]; lia].
        intros v [<- |Hv].
        + split; [exact Ls|]. destruct Ht as (a & Ha & Fa & <-). apply fp_one; auto.
        + destruct (HV v Hv) as (A & B). split; [exact A|]. eapply free_path_snoc; eassumption. }
    intros s. apply (G (length (sts g)) [] s); [constructor|intros v []|cbn [length]; lia].
  Qed.
  Inductive tree : path -> nat -> Prop :=
  | Tree p new ns : epsilons dec al T p = Ok new -> Forall2 tree new ns -> tree p (S (list_sum ns)).
  Lemma trees l : (forall p, In p l -> exists n, tree p n) -> exists ns, Forall2 tree l ns.
  Proof. induction l as [|p l IH]; intros H; [exists []; constructor|]. destruct (H p (or_introl eq_refl)) as (n & Hn). destruct IH as (ns & Hns); [intros q Hq; apply H; right; exact Hq|]. exists (n :: ns). constructor; assumption. Qed.
  Lemma successors_tree s e r new : (forall t, free_arc t s -> forall p e r, at_state p t e r -> exists n, tree p n) -> free_successors s e r new -> exists ns, Forall2 tree new ns.
  Proof.
    intros IH (S & _). apply trees. intros q Hq. destruct (S q Hq) as (a & e' & M & A). apply (IH (tgt a)) with (e := e') (r := r ++ [a]); [|exact A].
    exists a. split; [exact (proj1 M)|]. split; [eapply move_free, M|reflexivity].
  Qed.
  Lemma state_tree s : Acc free_arc s -> forall p e r, at_state p s e r -> exists n, tree p n.
  Proof.
    induction 1 as [s _ IH]. intros p e r A. destruct (epsilons_state p s e r A) as (new & E & [(S & _)|[(q & -> & M)|(-> & _)]]).
    - destruct (successors_tree s e r new IH S) as (ns & Hns). eexists. econstructor; eassumption.
    - destruct (epsilons_midway q s e r M) as (new2 & E2 & S). destruct (successors_tree s e r new2 IH S) as (ns & Hns). eexists. econstructor; [exact E|]. constructor; [econstructor; eassumption|constructor].
    - eexists. econstructor; [exact E|constructor].
  Qed.
  Lemma closure_ends fuel : forall todo ns, Forall2 tree todo ns -> (list_sum ns <= fuel)%nat -> exists ps, try_epsilons dec al T fuel todo = Ok ps.
  Proof.
    induction fuel as [|fuel IH]; intros todo ns H L; destruct H as [|p n todo ns Hp H]; cbn [try_epsilons]; eauto.
    - exfalso. destruct Hp. cbn [list_sum fold_right] in L. lia.
    - destruct Hp as [p new ns' E H']. rewrite E. cbn [rbind]. destruct (IH (todo ++ new) (ns ++ ns')) as (ps & ->); [apply Forall2_app; assumption| |eexists; reflexivity].
      rewrite list_sum_app. cbn [list_sum fold_right] in L. unfold list_sum in *. lia.
  Qed.
  Lemma closure_more fuel : forall fuel' todo ps, try_epsilons dec al T fuel todo = Ok ps -> (fuel <= fuel')%nat -> try_epsilons dec al T fuel' todo = Ok ps.
  Proof.
    induction fuel as [|fuel IH]; intros fuel' [|p todo] ps H L; cbn [try_epsilons] in H; try discriminate; try (destruct fuel'; exact H).
    destruct fuel' as [|fuel']; [lia|]. cbn [try_epsilons]. apply rbind_Ok in H. destruct H as (new & E & H). rewrite E. cbn [rbind].
    destruct (try_epsilons dec al T fuel (todo ++ new)) as [ps'| | |] eqn:E'; try discriminate. rewrite (IH fuel' _ _ E') by lia. exact H.
  Qed.
  Lemma closure_total todo : (forall s, Acc free_arc s) -> (forall p, In p todo -> exists s e r, at_state p s e r) ->
    exists n ps, forall fuel, (n <= fuel)%nat -> try_epsilons dec al T fuel todo = Ok ps.
  Proof.
    intros HA' H. destruct (trees todo) as (ns & Hns); [intros p Hp; destruct (H p Hp) as (s & e & r & A); eapply state_tree; eauto|].
    destruct (closure_ends (list_sum ns) todo ns Hns (le_n _)) as (ps & E). exists (list_sum ns), ps. intros fuel L. eapply closure_more; eassumption.
  Qed.
  Lemma input_number_ok k : input_number tr k -> k <> 0 /\ k < 65535 /\ is_flag_symbol al k = false /\ (N.to_nat k < inputs)%nat.
  Proof.
    intros (K0 & K1). assert (LI : (N.to_nat k < inputs)%nat) by (unfold inputs; lia). split; [lia|]. split; [lia|]. split; [|exact LI].
    destruct (nth_error names (N.to_nat k)) as [x|] eqn:EX; [|apply nth_error_None in EX; lia]. rewrite (flag_no k x EX).
    destruct (proj1 (rep_inputs _ _ _ _ R x)) as (s & a & _ & _ & FX); [exists (N.to_nat k); split; [exact EX|]; split; [rewrite N2Nat.id; exact K1|lia]|].
    unfold free_input in FX. apply orb_false_iff in FX. exact (proj2 FX).
  Qed.
  Lemma no_symbol_no_flag : is_flag_symbol al OLF_Model.NO_SYMBOL = false.
  Proof.
    rewrite <- (N2Nat.id OLF_Model.NO_SYMBOL). pose proof (flag_symbol_spec names al (N.to_nat OLF_Model.NO_SYMBOL) HA (rep_names _ _ _ _ R)) as X.
    rewrite (proj2 (nth_error_None names (N.to_nat OLF_Model.NO_SYMBOL))) in X by (unfold OLF_Model.NO_SYMBOL; lia). exact X.
  Qed.
  Lemma readable_ordinary c k : readable tr c k -> ordinary tr c k.
  Proof.
    unfold ordinary, no_flag. assert (NO : OLF_Model.NO_SYMBOL = 65535) by reflexivity. fold al. pose proof no_symbol_no_flag as NF.
    intros [-> |(I & A)].
    - assert (EA : lower_case c OLF_Model.NO_SYMBOL = OLF_Model.NO_SYMBOL) by apply lower_case_none. rewrite EA. rewrite NF. split; [lia|]. split; [reflexivity|]. split; [lia|]. split; [lia|reflexivity].
    - destruct (input_number_ok k I) as (A1 & A2 & A3 & _). split; [lia|]. split; [exact A3|]. destruct A as [-> |I2]; [rewrite NF; split; [lia|]; split; [lia|reflexivity]|].
      destruct (input_number_ok _ I2) as (B1 & B2 & B3 & _). split; [lia|]. split; [lia|exact B3].
  Qed.
  Lemma rseq_all {A B} (f : A -> res B) l : (forall x, In x l -> exists y, f x = Ok y) -> exists r, rseq (map f l) = Ok r.
  Proof. induction l as [|x l IH]; intros H; cbn [map rseq]; [eauto|]. destruct (H x (or_introl eq_refl)) as (y & ->). destruct IH as (r & ->); [intros z Hz; apply H; right; exact Hz|]. cbn [rbind rmap]. eauto. Qed.
  Lemma input_total p s e r k : at_state p s e r \/ midway p s e r -> input_number tr k ->
    exists l, try_input dec al T p k = Ok l /\ forall q, In q l -> exists s e r, at_state q s e r.
  Proof.
    intros [A|M] I; destruct (input_number_ok k I) as (K0 & K1 & KF & LI).
    - pose proof (input_state p s e r k A K0 K1 KF) as X. destruct (try_input dec al T p k) as [l| | |]; [|destruct X|lia|destruct X]. exists l. split; [reflexivity|].
      intros q Hq. destruct (proj1 X q Hq) as (a & _ & _ & _ & Aq). eauto.
    - rewrite (input_midway p s e r k M K0 KF). exists []. split; [reflexivity|intros q []].
  Qed.
  Lemma step_total c xss ps k : (forall s, Acc free_arc s) -> all_paths xss ps -> readable tr c k ->
    exists n ps', forall fuel, (n <= fuel)%nat -> LS_Model.step dec al T c fuel ps k = Ok ps'.
  Proof.
    intros AC (Sd & _) RD. unfold LS_Model.step, step2. rewrite alternative_lower_case. destruct RD as [-> |(I & A)]; [rewrite N.eqb_refl; exists O, []; reflexivity|].
    destruct (input_number_ok k I) as (K0 & K1 & KF & LI). destruct (N.eqb_spec k OLF_Model.NO_SYMBOL) as [X|_]; [unfold OLF_Model.NO_SYMBOL in X; lia|].
    unfold apply_input. destruct (N.eqb_spec k 0) as [X|_]; [contradiction|].
    assert (One : forall p, In p ps -> exists l, rbind (try_input dec al T p k) (fun l1 => rbind (if lower_case c k =? OLF_Model.NO_SYMBOL then Ok [] else try_input dec al T p (lower_case c k)) (fun l2 => Ok (l1 ++ l2))) = Ok l /\ forall q, In q l -> exists s e r, at_state q s e r).
    { intros p Hp. destruct (Sd p Hp) as (s & e & r & _ & AM). destruct (input_total p s e r k AM I) as (l1 & E1 & H1). rewrite E1. cbn [rbind].
      destruct A as [A|I2]; [rewrite A, N.eqb_refl; cbn [rbind]; exists (l1 ++ []); split; [reflexivity|]; rewrite app_nil_r; exact H1|].
      destruct (N.eqb_spec (lower_case c k) OLF_Model.NO_SYMBOL) as [_|_]; [cbn [rbind]; exists (l1 ++ []); split; [reflexivity|]; rewrite app_nil_r; exact H1|].
      destruct (input_total p s e r _ AM I2) as (l2 & E2 & H2). rewrite E2. cbn [rbind]. exists (l1 ++ l2). split; [reflexivity|]. intros q Hq. apply in_app_iff in Hq. destruct Hq; auto. }
    destruct (rseq_all _ ps (fun p Hp => let '(ex_intro _ l (conj E _)) := One p Hp in ex_intro _ l E)) as (ll & E). rewrite E. cbn [rmap rbind].
    apply closure_total; [exact AC|]. intros q Hq. apply in_concat in Hq. destruct Hq as (l & Hl & Hq). destruct (Forall2_in_r _ _ _ _ (rseq_Ok _ _ _ E) Hl) as (p & Hp & Ep).
    destruct (One p Hp) as (l' & El & H'). rewrite Ep in El. injection El as ->. apply H', Hq.
  Qed.
  Lemma steps_total c : (forall s, Acc free_arc s) -> forall ks xss ps, all_paths xss ps -> Forall (readable tr c) ks ->
    exists n ps', forall fuel, (n <= fuel)%nat -> steps dec al T c fuel ps ks = Ok ps'.
  Proof.
    intros AC. induction ks as [|k ks IH]; intros xss ps A H; cbn [steps]; [exists O, ps; reflexivity|]. inversion H as [|? ? Hk Hks]; subst.
    destruct (step_total c xss ps k AC A Hk) as (n1 & ps1 & E1). pose proof (step_paths c n1 xss ps k ps1 (readable_ordinary c k Hk) A (E1 n1 (le_n _))) as A1.
    destruct (IH _ _ A1 Hks) as (n2 & ps2 & E2). exists (Nat.max n1 n2), ps2. intros fuel L. rewrite E1 by lia. cbn [rbind]. apply E2. lia.
  Qed.
  Lemma lookup_total c ks : (0 < length (sts g))%nat -> no_free_cycle g -> Forall (readable tr c) ks ->
    exists n ps, forall fuel, (n <= fuel)%nat -> lookup dec al T c fuel ks = Ok ps.
  Proof.
    intros L NC H. pose proof (free_acc NC) as AC. unfold lookup, init.
    destruct (closure_total [initial_path al] AC) as (n1 & ps1 & E1); [intros p [<- |[]]; exists 0%nat, env0, []; apply initial_at, L|].
    pose proof (init_paths n1 ps1 L (E1 n1 (le_n _))) as A1. destruct (steps_total c AC ks [] ps1 A1 H) as (n2 & ps2 & E2).
    exists (Nat.max n1 n2), ps2. intros fuel LF. rewrite E1 by lia. cbn [rbind]. apply E2. lia.
  Qed.
End Paths.
