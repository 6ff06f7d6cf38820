(** Binary operations: from labels to symbol pairs. *)
From Verif Require Import Base Flags_Model BT_Model BT_Spec BT_Proofs BT_Proofs3 BT_Proofs4 BT_Proofs5 BT_Props Harm_Model Harm_Spec Harm_Proofs Harm_Props Co_Spec Co_Model Co_Proofs Co_Proofs2 Co_Proofs3 Co_Proofs4 PU_Spec PU_Model.

Notation EE := (EPS, EPS).
Lemma we_cons p l : without_empty (p :: l) = if (if bstr_eq_dec (fst p) EPS then (if bstr_eq_dec (snd p) EPS then false else true) else true) then p :: without_empty l else without_empty l.
Proof. reflexivity. Qed.
Lemma we_empty l : without_empty (EE :: l) = without_empty l.
Proof. reflexivity. Qed.
Lemma we_keep p l : p <> EE -> without_empty (p :: l) = p :: without_empty l.
Proof.
  intros N. rewrite we_cons. destruct p as [a b]. cbn [fst snd]. destruct (bstr_eq_dec a EPS) as [->|]; [|reflexivity].
  destruct (bstr_eq_dec b EPS) as [->|]; [congruence|reflexivity].
Qed.
Lemma pair_dec (p q : bstr * bstr) : {p = q} + {p <> q}.
Proof. destruct p as [a b], q as [c d]. destruct (bstr_eq_dec a c) as [->|]; [|right; congruence]. destruct (bstr_eq_dec b d) as [->|]; [left; reflexivity|right; congruence]. Qed.
Lemma we_In p l : In p (without_empty l) <-> In p l /\ p <> EE.
Proof.
  induction l as [|q l IH]; [simpl; tauto|]. destruct (pair_dec q EE) as [->|N].
  - rewrite we_empty, IH. simpl. split; [tauto|]. intros [[<-|H] K]; [congruence|tauto].
  - rewrite (we_keep q l N). simpl. rewrite IH. split; [intros [<-|H]; tauto|tauto].
Qed.
Lemma we_none l : (forall p, In p l -> p <> EE) -> without_empty l = l.
Proof. induction l as [|p l IH]; intros H; [reflexivity|]. rewrite we_keep by (apply H; left; reflexivity). f_equal. apply IH. intros q Hq. apply H. right. exact Hq. Qed.
Lemma we_idem l : without_empty (without_empty l) = without_empty l.
Proof. apply we_none. intros p H. apply we_In in H. tauto. Qed.
Lemma we_no_eps_fst l : no_epsilons (map fst (without_empty l)) = no_epsilons (map fst l).
Proof.
  induction l as [|p l IH]; [reflexivity|]. destruct (pair_dec p EE) as [->|N]; [rewrite we_empty; cbn [map fst]; rewrite ne_eps; exact IH|].
  rewrite we_keep by exact N. cbn [map]. rewrite !ne_cons, IH. reflexivity.
Qed.
Lemma we_no_eps_snd l : no_epsilons (map snd (without_empty l)) = no_epsilons (map snd l).
Proof.
  induction l as [|p l IH]; [reflexivity|]. destruct (pair_dec p EE) as [->|N]; [rewrite we_empty; cbn [map snd]; rewrite ne_eps; exact IH|].
  rewrite we_keep by exact N. cbn [map]. rewrite !ne_cons, IH. reflexivity.
Qed.
Lemma related_pairs g x y w : related g x y w <-> exists l, pair_string g l w /\ x = no_epsilons (map fst l) /\ y = no_epsilons (map snd l).
Proof.
  split.
  - intros (c & R & -> & ->). exists (without_empty c). split; [exists c; auto|]. rewrite we_no_eps_fst, we_no_eps_snd. auto.
  - intros (l & (c & R & ->) & -> & ->). exists c. rewrite we_no_eps_fst, we_no_eps_snd. auto.
Qed.

Section Label.
  Variable al : list bstr.
  Lemma means_unique p p' q : paired p -> paired p' -> known al p -> known al p' -> means al p q -> means al p' q -> p = p'.
  Proof.
    destruct p as [a b], p' as [a' b'], q as [ca cb]. intros P P' [K1 K2] [K1' K2'] M M'. cbn [fst snd] in *.
    apply means_iff in M; [|exact P]. apply means_iff in M'; [|exact P']. unfold mean1 in *.
    destruct M as [(-> & -> & -> & O)|(Na & Nb & Ma & Mb & N)]; destruct M' as [(-> & -> & E' & O')|(Na' & Nb' & Ma' & Mb' & N')].
    - reflexivity.
    - exfalso. destruct Ma' as [[-> _]|(_ & _ & ->)]; [|tauto]. destruct Mb' as [[-> _]|(_ & _ & ->)]; [|tauto]. tauto.
    - exfalso. subst cb. destruct Ma as [[-> _]|(_ & _ & ->)]; [|tauto]. destruct Mb as [[-> _]|(_ & _ & ->)]; [|tauto]. tauto.
    - f_equal.
      + destruct Ma as [[-> O]|(U & _ & ->)]; destruct Ma' as [[-> O']|(U' & _ & E)]; congruence || (subst; tauto).
      + destruct Mb as [[-> O]|(U & _ & ->)]; destruct Mb' as [[-> O']|(U' & _ & E)]; congruence || (subst; tauto).
  Qed.
  Lemma means_all_unique k k' l : Forall paired k -> Forall paired k' -> Forall (known al) k -> Forall (known al) k' ->
    Forall2 (means al) k l -> Forall2 (means al) k' l -> k = k'.
  Proof.
    intros P P' K K' F. revert k' P' K'. induction F as [|p q k l M F IH]; intros k' P' K' F'; inversion F' as [|p' ? k'' ? M' F'']; subst; [reflexivity|].
    inversion P; inversion P'; inversion K; inversion K'; subst. f_equal; [eapply means_unique; eassumption|apply IH; assumption].
  Qed.
  Lemma means_empty p q : paired p -> means al p q -> (p = EE <-> q = EE).
  Proof.
    destruct p as [a b], q as [ca cb]. intros P M. apply means_iff in M; [|exact P]. destruct M as [(-> & -> & -> & O)|(_ & _ & Ma & Mb & _)].
    - destruct (outside_ne _ _ O) as (K & _). split; [discriminate|congruence].
    - apply mean1_eps in Ma, Mb. split; intros E; injection E as -> ->; f_equal; tauto.
  Qed.
  Lemma we_means k l : Forall paired k -> Forall2 (means al) k l -> Forall2 (means al) (without_empty k) (without_empty l).
  Proof.
    intros P F. induction F as [|p q k l M F IH]; [constructor|]. inversion P; subst. pose proof (means_empty p q ltac:(assumption) M) as E.
    destruct (pair_dec p EE) as [->|N].
    - rewrite (proj1 E eq_refl). rewrite !we_empty. auto.
    - rewrite !we_keep by tauto. constructor; auto.
  Qed.
  Lemma we_expand k l : Forall paired k -> Forall2 (means al) (without_empty k) l -> exists c, Forall2 (means al) k c /\ without_empty c = l.
  Proof.
    revert l. induction k as [|p k IH]; intros l P F; [inversion F; subst; exists []; split; [constructor|reflexivity]|]. inversion P; subst.
    destruct (pair_dec p EE) as [->|N].
    - rewrite we_empty in F. destruct (IH l ltac:(assumption) F) as (c & Fc & <-). exists (EE :: c). split; [|apply we_empty]. constructor; [|exact Fc].
      apply means_iff; [assumption|]. right. repeat split; try discriminate; [right; repeat split; discriminate..|]. intros (K & _). discriminate.
    - rewrite we_keep in F by exact N. inversion F as [|? q ? l' M F']; subst. destruct (IH l' ltac:(assumption) F') as (c & Fc & <-).
      exists (q :: c). split; [constructor; assumption|]. apply we_keep. intros K. apply N. apply (means_empty p q); assumption.
  Qed.
End Label.

Lemma path_labels g c w : accepts g c w -> forall p, In p c -> exists s a, In a (nth s (sts g) []) /\ p = (isy a, osy a).
Proof.
  intros (t & v & f & R & _). induction R as [s|s a l v t Ha R IH]; [intros p []|]. intros p [<-|H]; [exists s, a; auto|apply IH, H].
Qed.
Lemma path_paired g c w : identities_paired g -> accepts g c w -> Forall paired c.
Proof. intros P A. apply Forall_forall. intros p Hp. destruct (path_labels g c w A p Hp) as (s & a & Ha & ->). exact (P s a Ha). Qed.
Lemma path_known g c w : symbols_ok g -> accepts g c w -> Forall (known (alpha g)) c.
Proof. intros Y A. apply Forall_forall. intros p Hp. destruct (path_labels g c w A p Hp) as (s & a & Ha & ->). destruct (Y s a Ha). split; intros [_ K]; auto. Qed.
Lemma Forall_we P c : Forall P c -> Forall P (without_empty c).
Proof. rewrite !Forall_forall. intros H p Hp. apply we_In in Hp. apply H, Hp. Qed.
Lemma pair_string_labels g l w : identities_paired g -> pair_string g l w <-> exists k, label_string g k w /\ Forall2 (means (alpha g)) k l.
Proof.
  intros P. split.
  - intros (c & (m & A & F) & ->). exists (without_empty m). split; [exists m; auto|]. apply we_means; [exact (path_paired g m w P A)|exact F].
  - intros (k & (c & A & ->) & F). destruct (we_expand _ _ _ (path_paired g c w P A) F) as (c' & F' & <-). exists c'. split; [exists c; auto|reflexivity].
Qed.
Lemma label_string_good g k w : identities_paired g -> symbols_ok g -> label_string g k w -> Forall paired k /\ Forall (known (alpha g)) k.
Proof. intros P Y (c & A & ->). split; apply Forall_we; [exact (path_paired g c w P A)|exact (path_known g c w Y A)]. Qed.

(** * A binary operation *)
Lemma pair_string_same g g' : sts g' = sts g -> fin g' = fin g -> (forall x, In x (alpha g) <-> In x (alpha g')) -> forall l w, pair_string g l w -> pair_string g' l w.
Proof.
  intros E F A l w (c & (m & R & M) & ->). exists c. split; [|reflexivity]. exists m. split; [exact (accepts_same _ _ E F _ _ R)|exact (Forall2_means _ _ _ _ A M)].
Qed.
Definition operand (g t h : graph) : Prop :=
  (forall l w, pair_string h l w <-> pair_string t l w) /\ symbols_ok h /\ identities_paired h /\ no_empty_symbol h /\
  (automaton g -> automaton h) /\ structure_ok h.
Lemma grown_automaton m g al s a : automaton g -> In a (nth s (sts (harmonized m g al)) []) -> (forall k, In k m -> k <> UNK) -> isy a = osy a /\ isy a <> UNK.
Proof.
  intros A Ha M. change (In a (nth s (sts (grown unk_new m (grown id_new m g))) [])) in Ha.
  assert (G1 : forall b, In b (nth s (sts (grown id_new m g)) []) -> isy b = osy b /\ isy b <> UNK).
  { intros b Hb. apply nth_grown in Hb. destruct Hb as [Hb|(c & Hc & Hb)]; [exact (A s b Hb)|]. apply id_new_In in Hb. destruct Hb as (_ & k & Hk & ->). cbn [isy osy]. auto. }
  apply nth_grown in Ha. destruct Ha as [Ha|(b & Hb & Ha)]; [auto|]. destruct (G1 b Hb) as [Eb Ub].
  apply unk_new_In in Ha. exfalso. destruct Ha as [(E & _)|[(E & _)|(E & _)]]; congruence.
Qed.
Lemma binary_operands g1 g2 t1 t2 : sound g1 -> sound g2 -> knowing_internal_symbols_of g2 g1 t1 -> knowing_internal_symbols_of g1 g2 t2 ->
  exists h1 h2, harmonize (insert_missing_special_symbols g1 g2) (insert_missing_special_symbols g2 (insert_missing_special_symbols g1 g2)) = Ok (h1, h2) /\
    operand g1 t1 h1 /\ operand g2 t2 h2 /\
    (forall x, In x (alpha h1) <-> In x (alpha g1) \/ In x (alpha g2)) /\ (forall x, In x (alpha h2) <-> In x (alpha g1) \/ In x (alpha g2)).
Proof.
  intros (W1 & P1 & N1) (W2 & P2 & N2) K1 K2. pose proof (Co_Proofs4.t1_knows g1 g2) as Q1. pose proof (Co_Proofs4.t2_knows g1 g2) as Q2.
  set (u1 := insert_missing_special_symbols g1 g2) in *. set (u2 := insert_missing_special_symbols g2 u1) in *.
  pose proof (well_formed_knows _ _ _ Q1 W1) as (X1 & Y1 & S1). pose proof (well_formed_knows _ _ _ Q2 W2) as (X2 & Y2 & S2).
  pose proof (paired_knows _ _ _ Q1 P1) as P1'. pose proof (paired_knows _ _ _ Q2 P2) as P2'.
  pose proof (nonempty_knows _ _ _ Q1 N1) as N1'. pose proof (nonempty_knows _ _ _ Q2 N2) as N2'.
  destruct (harmonize_ok u1 u2 S1 S2 P1' P2' N1' N2') as (al1 & al2 & E & A1 & A2).
  pose proof (missing_21 u1 u2 al1 S1 A1) as M1. pose proof (missing_12 u1 u2 al2 S2 A2) as M2.
  exists (harmonized (t2_minus_t1 u1 u2) u1 al1), (harmonized (t1_minus_t2 u1 u2) u2 al2). split; [exact E|].
  assert (U : forall x, In x (alpha u1) \/ In x (alpha u2) <-> In x (alpha g1) \/ In x (alpha g2)).
  { intros x. rewrite (proj2 (proj2 Q1)), (proj2 (proj2 Q2)). tauto. }
  assert (NE1 : ~ In [] al1) by (rewrite A1; intros [K|K]; [apply (proj1 N1'), K|apply (proj1 N2'), K]).
  assert (NE2 : ~ In [] al2) by (rewrite A2; intros [K|K]; [apply (proj1 N1'), K|apply (proj1 N2'), K]).
  assert (G : forall m u al g t o, missing_for (alpha u) al m -> ~ In [] al -> structure_ok u -> symbols_ok u -> identities_paired u -> no_empty_symbol u ->
    knowing_internal_symbols_of o g u -> knowing_internal_symbols_of o g t -> operand g t (harmonized m u al)).
  { intros m u al g t o M NE T Y P N Ku Kt. pose proof (fun s a => harmonized_arcs m u al s a Y P N NE M) as F. split; [|split; [|split; [|split; [|split; [|apply structure_harmonized, T]]]]].
    - assert (R := relation_harmonized m u al (good_of u P N) M). intros l w. transitivity (pair_string u l w).
      + split; intros (c & Rc & ->); exists c; (split; [apply R, Rc|reflexivity]).
      + destruct Ku as (U1 & U2 & U3), Kt as (V1 & V2 & V3). split; apply pair_string_same; try congruence; intros x; rewrite U3, V3; reflexivity.
    - intros s a Ha. exact (proj1 (proj2 (F s a Ha))).
    - intros s a Ha. exact (proj1 (F s a Ha)).
    - split; [exact NE|]. intros s a Ha. exact (proj1 (proj2 (proj2 (F s a Ha)))).
    - intros Au s a Ha. apply (grown_automaton m u al s a); [|exact Ha|intros k Hk; exact (proj2 (proj2 (missing_good _ _ _ NE M k Hk)))].
      intros s' b Hb. rewrite (proj1 Ku) in Hb. exact (Au s' b Hb). }
  split; [apply (G _ _ _ _ _ g2); assumption|]. split; [apply (G _ _ _ _ _ g1); assumption|].
  split; intros x; cbn [harmonized with_alpha alpha]; [rewrite A1|rewrite A2]; apply U.
Qed.
