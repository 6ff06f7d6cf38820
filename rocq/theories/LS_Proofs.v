From Coq Require Import Permutation.
From Verif Require Import Base Flags_Model Flags_Spec Flags_Proofs BT_Model OLF_Proofs BT_Spec An_Spec OLF_Model OLC_Model OLC_Spec OLL_Model OLL_Spec
  OLC_Proofs OLC_Proofs2 OLC_Proofs3 OLC_Proofs4 OLC_Proofs5 OLC_Proofs6 OLC_Proofs7 OLL_Proofs2 OLL_Proofs3 OLL_Props LS_Model LS_Spec.
Local Open Scope N_scope.

(** * Where things are in the tables *)
Record laid_out (tr : transducer) (g : graph) (addr : nat -> N) : Prop := {
  lay_marker : forall s, (s < length (sts g))%nat -> TA_OFFSET <= addr s ->
    addr s + 1 < 2 * TA_OFFSET /\ exists e, get_transition (tr_tables tr) (addr s) = Ok e /\ te_input e = OLF_Model.NO_SYMBOL;
  lay_low : forall s, (s < length (sts g))%nat -> addr s < TA_OFFSET -> addr s + 65536 < TA_OFFSET;
  lay_index : forall j e, get_index (tr_tables tr) j = Ok e -> ie_input e <> OLF_Model.NO_SYMBOL -> TA_OFFSET <= ie_target e < 2 * TA_OFFSET;
  lay_beyond : forall s k, (s < length (sts g))%nat -> (length (a_table (tr_alphabet tr)) <= k)%nat -> N.of_nat k < 65535 ->
    symbol_entries (tr_tables tr) (addr s) (N.of_nat k) = Ok (false, []) \/ symbol_entries (tr_tables tr) (addr s) (N.of_nat k) = Ub }.

Lemma converted_laid_out enc dec g weighted tr : structure_ok g -> no_insertions g -> faithful enc dec g -> to_ol enc g weighted = Ok tr -> small tr ->
  exists addr, represents dec tr g addr /\ laid_out tr g addr.
Proof.
  intros HS HI HW HT HN. destruct (to_ol_Ok enc g weighted tr HT) as (k & ix & al & HP & HX & HA & E).
  exists (addr g k). split; [eapply converted_at; eassumption|]. subst tr. destruct HN as (HN1 & HN2). cbn [tr_tables t_index t_trans] in HN1, HN2.
  constructor; cbn [tr_tables tr_alphabet].
  - intros s L. apply (marker_entry enc g k ix HP HX HN1 HN2 s L).
  - intros s L. apply (address_bound enc g k ix HP HX HN1 HN2 s L).
  - intros j e. apply (index_leads enc g k ix HP HX HN1 HN2).
  - intros s j L1 L2 L3. assert (L4 : (seen_inputs g + length (flag_part g) <= j)%nat).
    { destruct (alphabet_of_table_Ok _ al HA (symbol_table_NoDup g)) as (EN & _). rewrite EN in L2.
      unfold symbol_table in L2. cbn [length] in L2. rewrite !app_length in L2. unfold seen_inputs. lia. }
    pose proof (read_other enc g k ix al HP HX HA HN1 HN2 s j L1 L4 L3) as X.
    destruct (symbol_entries _ _ _) as [r| | |]; [left; rewrite X; reflexivity|destruct X|right; reflexivity|destruct X].
Qed.

(** * The vector of paths that grows *)
Section Closure.
  Variables (dec : N -> Z) (a : alphabet) (t : tables).
  Lemma try_epsilons_closed fuel : forall todo ps, try_epsilons dec a t fuel todo = Ok ps ->
    incl todo ps /\ (forall p, In p ps -> exists new, epsilons dec a t p = Ok new /\ incl new ps).
  Proof.
    induction fuel as [|fuel IH]; intros [|p r] ps H; cbn [try_epsilons] in H; try discriminate.
    - injection H as <-. split; [intros x Hx; exact Hx|intros x []].
    - injection H as <-. split; [intros x Hx; exact Hx|intros x []].
    - apply rbind_Ok in H. destruct H as (new & E & H). destruct (try_epsilons dec a t fuel (r ++ new)) as [ps'| | |] eqn:T; try discriminate.
      injection H as <-. destruct (IH _ _ T) as (A & B). split.
      + intros x [-> |Hx]; [left; reflexivity|right; apply A, in_app_iff; auto].
      + intros x [<- |Hx]; [exists new; split; [exact E|]; intros y Hy; right; apply A, in_app_iff; auto|].
        destruct (B x Hx) as (new' & E' & I). exists new'. split; [exact E'|]. intros y Hy. right. apply I, Hy.
  Qed.
  Lemma try_epsilons_inv (P : path -> Prop) fuel : (forall p new, P p -> epsilons dec a t p = Ok new -> Forall P new) ->
    forall todo ps, try_epsilons dec a t fuel todo = Ok ps -> Forall P todo -> Forall P ps.
  Proof.
    intros HP. induction fuel as [|fuel IH]; intros [|p r] ps H F; cbn [try_epsilons] in H; try discriminate; try (injection H as <-; constructor).
    apply rbind_Ok in H. destruct H as (new & E & H). destruct (try_epsilons dec a t fuel (r ++ new)) as [ps'| | |] eqn:T; try discriminate.
    injection H as <-. inversion F; subst. constructor; [assumption|]. apply (IH _ _ T). apply Forall_app. split; [assumption|]. eauto.
  Qed.
End Closure.

Lemma rseq_Ok {A B} (f : A -> res B) l r : rseq (map f l) = Ok r -> Forall2 (fun x y => f x = Ok y) l r.
Proof.
  revert r. induction l as [|x l IH]; intros r H; cbn [map rseq] in H; [injection H as <-; constructor|].
  apply rbind_Ok in H. destruct H as (y & E & H). destruct (rseq (map f l)) as [r'| | |] eqn:E'; try discriminate.
  injection H as <-. constructor; auto.
Qed.
Lemma Forall2_in_l {A B} (R : A -> B -> Prop) l r x : Forall2 R l r -> In x l -> exists y, In y r /\ R x y.
Proof. induction 1; intros []; [subst; eexists; split; [left; reflexivity|assumption]|]. destruct (IHForall2 H1) as (z & ? & ?). exists z. split; [right; assumption|assumption]. Qed.
Lemma Forall2_in_r {A B} (R : A -> B -> Prop) l r y : Forall2 R l r -> In y r -> exists x, In x l /\ R x y.
Proof. induction 1; intros []; [subst; eexists; split; [left; reflexivity|assumption]|]. destruct (IHForall2 H1) as (z & ? & ?). exists z. split; [right; assumption|assumption]. Qed.
