(** Union, intersection and difference of the symbol pair sequences of two transducers. *)
From Verif Require Import Base Flags_Model BT_Model BT_Spec BT_Proofs BT_Proofs3 BT_Proofs4 BT_Proofs5 BT_Props Harm_Model Harm_Spec Harm_Proofs Harm_Props Co_Spec Co_Model Co_Proofs Co_Proofs2 Co_Proofs3 Co_Proofs4 PU_Spec PU_Model PU_Proofs.

Lemma from_labels gs m : labels_from gs m -> specials_ok m -> ~ In [] (alpha m) ->
  (forall g, In g gs -> symbols_ok g /\ identities_paired g /\ no_empty_symbol g /\ incl (alpha g) (alpha m)) -> sound m.
Proof.
  intros (ST & L) SP NE H. split; [split; [exact ST|split; [|exact SP]]|split; [|split; [exact NE|]]].
  - intros s a Ha. destruct (L s a Ha) as [[-> ->]|(g & t & b & Hg & Hb & <- & <-)]; [split; apply SP|]. destruct (H g Hg) as (Y & _ & _ & I). destruct (Y t b Hb). auto.
  - intros s a Ha. destruct (L s a Ha) as [[-> ->]|(g & t & b & Hg & Hb & <- & <-)]; [split; discriminate|]. destruct (H g Hg) as (_ & P & _). exact (P t b Hb).
  - intros s a Ha. destruct (L s a Ha) as [[-> ->]|(g & t & b & Hg & Hb & <- & <-)]; [split; discriminate|]. destruct (H g Hg) as (_ & _ & N & _). exact (proj2 N t b Hb).
Qed.
Lemma from_automata gs m : labels_from gs m -> (forall g, In g gs -> automaton g) -> automaton m.
Proof.
  intros (_ & L) H s a Ha. destruct (L s a Ha) as [[-> ->]|(g & t & b & Hg & Hb & <- & <-)]; [split; [reflexivity|discriminate]|exact (H g Hg t b Hb)].
Qed.

Section Binary.
  Variables g1 g2 t1 t2 : graph.
  Hypothesis G1 : sound g1.
  Hypothesis G2 : sound g2.
  Hypothesis K1 : knowing_internal_symbols_of g2 g1 t1.
  Hypothesis K2 : knowing_internal_symbols_of g1 g2 t2.

  Lemma binary_result op r : apply_binary op g1 g2 r -> exists h1 h2 m, op h1 h2 m /\ r = Ok m /\ operand g1 t1 h1 /\ operand g2 t2 h2 /\
    (forall x, In x (alpha h1) <-> In x (alpha g1) \/ In x (alpha g2)) /\ (forall x, In x (alpha h2) <-> In x (alpha g1) \/ In x (alpha g2)).
  Proof using All.
    intros A. destruct (binary_operands g1 g2 t1 t2 G1 G2 K1 K2) as (h1 & h2 & E & O1 & O2 & A1 & A2). unfold apply_binary in A. rewrite E in A.
    destruct A as (m & Om & ->). exists h1, h2, m. auto 10.
  Qed.
  Section Result.
    Variables h1 h2 m : graph.
    Hypothesis O1 : operand g1 t1 h1.
    Hypothesis O2 : operand g2 t2 h2.
    Hypothesis A1 : forall x, In x (alpha h1) <-> In x (alpha g1) \/ In x (alpha g2).
    Hypothesis A2 : forall x, In x (alpha h2) <-> In x (alpha g1) \/ In x (alpha g2).
    Hypothesis L : labels_from [h1; h2] m.
    Hypothesis Am : alpha m = alpha h1.
    Lemma result_sound : sound m.
    Proof using All.
      destruct O1 as (_ & Y1 & P1 & N1 & _), O2 as (_ & Y2 & P2 & N2 & _). apply (from_labels [h1; h2]); [exact L| | |].
      - destruct G1 as ((_ & _ & (S1 & S2 & S3)) & _). unfold specials_ok. rewrite Am, !A1. auto.
      - rewrite Am. apply N1.
      - intros g [<-|[<-|[]]]; (split; [assumption|]; split; [assumption|]; split; [assumption|]); intros x; rewrite Am; [auto|]. rewrite A1, A2. auto.
    Qed.
    Lemma strings_m l w : pair_string m l w <-> exists k, label_string m k w /\ Forall2 (means (alpha h1)) k l.
    Proof using All. rewrite pair_string_labels by apply result_sound. rewrite Am. reflexivity. Qed.
    Lemma strings_1 l w : pair_string t1 l w <-> exists k, label_string h1 k w /\ Forall2 (means (alpha h1)) k l.
    Proof using O1. rewrite <- (proj1 O1). apply pair_string_labels. apply O1. Qed.
    Lemma strings_2 l w : pair_string t2 l w <-> exists k, label_string h2 k w /\ Forall2 (means (alpha h1)) k l.
    Proof using O2 A1 A2.
      rewrite <- (proj1 O2). rewrite pair_string_labels by apply O2. split; intros (k & S & F); exists k; (split; [exact S|]); eapply Forall2_means; try exact F;
        intros x; rewrite A1, A2; reflexivity.
    Qed.
    Lemma one_label k1 w1 k2 w2 l : label_string h1 k1 w1 -> label_string h2 k2 w2 -> Forall2 (means (alpha h1)) k1 l -> Forall2 (means (alpha h1)) k2 l -> k1 = k2.
    Proof using O1 O2 A1 A2.
      intros S1 S2 F1 F2. destruct O1 as (_ & Y1 & P1 & N1 & _), O2 as (_ & Y2 & P2 & N2 & _).
      destruct (label_string_good h1 k1 w1 P1 Y1 S1) as [Q1 B1]. destruct (label_string_good h2 k2 w2 P2 Y2 S2) as [Q2 B2].
      apply (means_all_unique (alpha h1) k1 k2 l); try assumption. apply (Forall_impl _ (P := known (alpha h2))); [|exact B2].
      intros p [V1 V2]. split; intros [Op Ip]; [apply V1|apply V2]; (split; [exact Op|]); rewrite A2, <- A1; exact Ip.
    Qed.
  End Result.

  Lemma disjunct_result r : disjunct g1 g2 r -> exists m, r = Ok m /\ sound m /\ (forall x, In x (alpha m) <-> In x (alpha g1) \/ In x (alpha g2)) /\
    forall l w, pair_string m l w <-> pair_string t1 l w \/ pair_string t2 l w.
  Proof using All.
    intros R. destruct (binary_result _ _ R) as (h1 & h2 & m & (L & Am & U) & -> & O1 & O2 & A1 & A2). exists m. split; [reflexivity|].
    pose proof (result_sound h1 h2 m O1 O2 A1 A2 L Am) as S. split; [exact S|]. split; [intros x; rewrite Am; apply A1|].
    intros l w. rewrite (strings_m h1 h2 m O1 O2 A1 A2 L Am), (strings_1 h1 O1), (strings_2 h1 h2 O2 A1 A2). split.
    - intros (k & Lk & F). apply U in Lk. destruct Lk as [Lk|Lk]; [left|right]; eauto.
    - intros [(k & Lk & F)|(k & Lk & F)]; exists k; (split; [apply U; auto|exact F]).
  Qed.
  Lemma intersect_result r : intersect g1 g2 r -> exists m, r = Ok m /\ sound m /\ (forall x, In x (alpha m) <-> In x (alpha g1) \/ In x (alpha g2)) /\
    (forall l w, pair_string m l w -> exists w1 w2, pair_string t1 l w1 /\ pair_string t2 l w2 /\ w = (w1 + w2)%Z) /\
    (forall l w1 w2, pair_string t1 l w1 -> pair_string t2 l w2 -> exists w, pair_string m l w /\ (w <= w1 + w2)%Z).
  Proof using All.
    intros R. destruct (binary_result _ _ R) as (h1 & h2 & m & (L & Am & U & V) & -> & O1 & O2 & A1 & A2). exists m. split; [reflexivity|].
    pose proof (result_sound h1 h2 m O1 O2 A1 A2 L Am) as S. split; [exact S|]. split; [intros x; rewrite Am; apply A1|]. split.
    - intros l w H. apply (strings_m h1 h2 m O1 O2 A1 A2 L Am) in H. destruct H as (k & Lk & F). destruct (U k w Lk) as (w1 & w2 & L1 & L2 & E). exists w1, w2.
      split; [apply (strings_1 h1 O1); eauto|]. split; [apply (strings_2 h1 h2 O2 A1 A2); eauto|exact E].
    - intros l w1 w2 H1 H2. apply (strings_1 h1 O1) in H1. apply (strings_2 h1 h2 O2 A1 A2) in H2. destruct H1 as (k1 & L1 & F1), H2 as (k2 & L2 & F2).
      rewrite <- (one_label h1 h2 O1 O2 A1 A2 k1 w1 k2 w2 l L1 L2 F1 F2) in L2. destruct (V k1 w1 w2 L1 L2) as (w & Lm & E). exists w. split; [|exact E].
      apply (strings_m h1 h2 m O1 O2 A1 A2 L Am). eauto.
  Qed.
  Lemma subtract_result r : subtract g1 g2 r -> exists m, r = Ok m /\ sound m /\ (forall x, In x (alpha m) <-> In x (alpha g1) \/ In x (alpha g2)) /\
    (automaton g1 -> automaton m) /\
    (forall l w, pair_string m l w -> pair_string t1 l w /\ ~ exists w2, pair_string t2 l w2) /\
    (forall l w, pair_string t1 l w -> ~ (exists w2, pair_string t2 l w2) -> exists w', pair_string m l w' /\ (w' <= w)%Z).
  Proof using All.
    intros R. destruct (binary_result _ _ R) as (h1 & h2 & m & (L0 & Am & U & V) & -> & O1 & O2 & A1 & A2). exists m. split; [reflexivity|].
    assert (L : labels_from [h1; h2] m).
    { split; [apply L0|]. intros s a Ha. destruct (proj2 L0 s a Ha) as [H|(g & t & b & [<-|[]] & H)]; [left; exact H|]. right. exists h1, t, b. split; [left; reflexivity|exact H]. }
    pose proof (result_sound h1 h2 m O1 O2 A1 A2 L Am) as S. split; [exact S|]. split; [intros x; rewrite Am; apply A1|]. split; [|split].
    - intros Au. apply (from_automata [h1] m L0). intros g [<-|[]]. apply O1, Au.
    - intros l w H. apply (strings_m h1 h2 m O1 O2 A1 A2 L Am) in H. destruct H as (k & Lk & F). destruct (U k w Lk) as (L1 & NL). 
      split; [apply (strings_1 h1 O1); eauto|]. intros (w2 & H2). apply (strings_2 h1 h2 O2 A1 A2) in H2. destruct H2 as (k2 & L2 & F2).
      rewrite <- (one_label h1 h2 O1 O2 A1 A2 k w k2 w2 l L1 L2 F F2) in L2. apply NL. eauto.
    - intros l w H1 H2. apply (strings_1 h1 O1) in H1. destruct H1 as (k1 & L1 & F1).
      destruct (V k1 w L1) as (w' & Lm & E); [|exists w'; split; [apply (strings_m h1 h2 m O1 O2 A1 A2 L Am); eauto|exact E]].
      intros (w2 & L2). apply H2. exists w2. apply (strings_2 h1 h2 O2 A1 A2). eauto.
  Qed.
End Binary.

Lemma optimize_result g r : symbols_ok g -> specials_ok g -> identities_paired g -> no_empty_symbol g -> optimize g r -> exists m, r = Ok m /\ sound m /\ alpha m = alpha g /\ (automaton g -> automaton m) /\
  (forall l w, pair_string m l w -> pair_string g l w) /\ (forall l w, pair_string g l w -> exists w', pair_string m l w' /\ (w' <= w)%Z).
Proof.
  intros Y SP P N (m & (L & A & U & V) & ->). exists m. split; [reflexivity|].
  assert (Sm : sound m).
  { apply (from_labels [g]); [exact L|unfold specials_ok; rewrite A; exact SP|rewrite A; apply N|]. intros g' [<-|[]]. rewrite A. auto using incl_refl. }
  split; [exact Sm|]. split; [exact A|]. split; [intros Au; apply (from_automata [g] m L); intros g' [<-|[]]; exact Au|].
  destruct Sm as (_ & Pm & _). split; intros l w H.
  - apply pair_string_labels in H; [|exact Pm]. destruct H as (k & H & F). rewrite A in F. apply pair_string_labels; [exact P|]. eauto.
  - apply pair_string_labels in H; [|exact P]. destruct H as (k & H & F). destruct (V k w H) as (w' & H' & E). exists w'. split; [|exact E].
    apply pair_string_labels; [exact Pm|]. rewrite A. eauto.
Qed.
