(** Priority union and lenient composition. *)
From Verif Require Import Base Flags_Model BT_Model BT_Spec BT_Proofs BT_Proofs2 BT_Proofs3 BT_Proofs4 BT_Proofs5 BT_Props Harm_Model Harm_Spec Harm_Proofs Harm_Props Co_Spec Co_Model Co_Proofs Co_Proofs2 Co_Proofs3 Co_Proofs4 Co_Props PU_Spec PU_Model PU_Proofs PU_Proofs2 PU_Proofs3.

Lemma knows_self g o : sound g -> no_internal_symbols o -> knowing_internal_symbols_of o g g.
Proof.
  intros ((_ & _ & S1 & S2 & S3) & _) N. apply self_knows. intros x I H. destruct (N x I H) as [->|[->| ->]]; assumption.
Qed.

(** The result of a composition. *)
Lemma single_identity_arcs m r : substitute_func single_identity m = Ok r -> forall s a, In a (nth s (sts r) []) ->
  exists b, In b (nth s (sts m) []) /\ (isy a = isy b \/ isy a = UNK) /\ (osy a = osy b \/ osy a = UNK) /\ (isy a = IDN <-> osy a = IDN).
Proof.
  intros E s a Ha. unfold substitute_func in E. destruct (subst_func_states _ (sts m)) as [[ls ps]| | |] eqn:E1; try discriminate.
  cbn [rmap] in E. injection E as <-. destruct (subst_func_states_spec _ _ _ _ E1) as (_ & A & _). rewrite (proj1 (add_pairs_sts _ _)) in Ha. cbn [with_sts sts] in Ha.
  apply A in Ha. unfold single_identity in Ha. destruct Ha as [[Ha Eb]|(b & qs & q & Hb & Eb & Hq & ->)].
  - exists a. split; [exact Ha|]. split; [auto|]. split; [auto|]. cbn [label fst snd] in Eb.
    destruct (bstr_eqb (isy a) IDN) eqn:E2; destruct (bstr_eqb (osy a) IDN) eqn:E3; cbn [andb negb] in Eb; try discriminate.
    + apply bstr_eqb_eq in E2, E3. tauto.
    + apply bstr_eqb_neq in E2, E3. tauto.
  - exists b. split; [exact Hb|]. cbn [label fst snd] in Eb.
    destruct (bstr_eqb (isy b) IDN) eqn:E2; destruct (bstr_eqb (osy b) IDN) eqn:E3; cbn [andb negb] in Eb; try discriminate.
    + injection Eb as <-. destruct Hq as [<-|[]]. cbn [relabel isy osy fst snd]. apply bstr_eqb_neq in E3. split; [auto|]. split; [auto|]. split; [discriminate|tauto].
    + injection Eb as <-. destruct Hq as [<-|[]]. cbn [relabel isy osy fst snd]. apply bstr_eqb_neq in E2. split; [auto|]. split; [auto|]. split; [tauto|discriminate].
Qed.
Lemma compose_sound g1 g2 h : sound g1 -> sound g2 -> compose g1 g2 (Ok h) -> symbols_ok h /\ specials_ok h /\ identities_paired h /\ no_empty_symbol h.
Proof.
  intros (W1 & P1 & N1) (W2 & P2 & N2) C. pose proof (Co_Proofs4.t1_knows g1 g2) as Q1. pose proof (Co_Proofs4.t2_knows g1 g2) as Q2.
  assert (AH : forall s, In s (alpha h) <-> In s (alpha g1) \/ In s (alpha g2)) by apply (C84_compose_partial g1 g2 h _ _ W1 W2 P1 P2 N1 N2 Q1 Q2 C).
  apply (proj2 (compose_same g1 g2 (Ok h))) in C.
  pose proof (well_formed_knows _ _ _ Q1 W1) as (ST1 & SY1 & SP1). pose proof (well_formed_knows _ _ _ Q2 W2) as (ST2 & SY2 & SP2).
  destruct (operands_facts _ _ ST1 ST2 SY1 SY2 SP1 SP2 (paired_knows _ _ _ Q1 P1) (paired_knows _ _ _ Q2 P2) (nonempty_knows _ _ _ Q1 N1) (nonempty_knows _ _ _ Q2 N2) (t_same g1 g2))
    as (h1 & h2 & k1 & k2 & E & F1 & F2 & LA).
  unfold compose in C. rewrite E in C. destruct C as (m & (CA & CU & _) & C). symmetry in C.
  pose proof F1 as (_ & _ & _ & _ & _ & B1 & U1). pose proof F2 as (_ & _ & _ & _ & _ & B2 & U2).
  assert (S3 : specials_ok h) by (destruct W1 as (_ & _ & S1 & S2 & S3); unfold specials_ok; rewrite !AH; auto).
  assert (U : forall x, used m x -> x <> [] /\ In x (alpha h)).
  { intros x X. apply CU in X. destruct X as [->|[X|X]]; [split; [discriminate|apply S3]| |].
    - apply U1 in X. split; [apply X|]. apply AH. destruct X as [_ X]. apply B1 in X. rewrite (proj2 (proj2 Q1)), (proj2 (proj2 Q2)) in X. tauto.
    - apply U2 in X. split; [apply X|]. apply AH. destruct X as [_ X]. apply B2 in X. rewrite (proj2 (proj2 Q1)), (proj2 (proj2 Q2)) in X. tauto. }
  assert (G : forall s a, In a (nth s (sts h) []) -> (isy a <> [] /\ In (isy a) (alpha h)) /\ (osy a <> [] /\ In (osy a) (alpha h)) /\ (isy a = IDN <-> osy a = IDN)).
  { intros s a Ha. destruct (single_identity_arcs m h C s a Ha) as (b & Hb & Ei & Eo & EI). split; [|split; [|exact EI]].
    - destruct Ei as [-> | ->]; [apply U; exists s, b; auto|split; [discriminate|apply S3]].
    - destruct Eo as [-> | ->]; [apply U; exists s, b; auto|split; [discriminate|apply S3]]. }
  split; [intros s a Ha; split; apply (G s a Ha)|]. split; [exact S3|]. split; [intros s a Ha; apply (G s a Ha)|].
  split; [rewrite AH; intros [K|K]; [apply (proj1 N1), K|apply (proj1 N2), K]|]. intros s a Ha. split; apply (G s a Ha).
Qed.

(** Pruning the alphabet. *)
Lemma means_plain al a b q : a <> UNK /\ b <> UNK /\ a <> IDN /\ b <> IDN -> means al (a, b) q <-> q = (a, b).
Proof.
  destruct q as [ca cb]. intros (U1 & U2 & I1 & I2). rewrite means_iff by (apply pair_plain; assumption). unfold mean1. split.
  - intros [(K & _)|(_ & _ & [[K _]|(_ & _ & ->)] & [[K' _]|(_ & _ & ->)] & _)]; try congruence. 
  - intros E. injection E as -> ->. right. tauto.
Qed.
Lemma prune_sound g : sound g -> sound (prune_alphabet false g) /\ (automaton g -> automaton (prune_alphabet false g)) /\
  incl (alpha (prune_alphabet false g)) (alpha g) /\ forall x y w, related (prune_alphabet false g) x y w <-> related g x y w.
Proof.
  intros ((ST & Y & SP) & P & N). destruct (C49_prune g false) as (E & F & A). set (h := prune_alphabet false g) in *.
  assert (SPh : specials_ok h).
  { destruct SP as (S1 & S2 & S3). unfold specials_ok. rewrite !A. unfold special. tauto. }
  assert (Uh : forall s a, In a (nth s (sts h) []) -> In (isy a) (alpha h) /\ In (osy a) (alpha h)).
  { intros s a Ha. rewrite E in Ha. rewrite !A. destruct (Y s a Ha). split; (split; [assumption|left; exists s, a; auto]). }
  assert (I : incl (alpha h) (alpha g)) by (intros x Hx; apply A in Hx; apply Hx).
  split; [|split; [|split; [exact I|]]].
  - split; [split; [|split; [exact Uh|exact SPh]]|split; [|split]].
    + destruct ST as (T1 & T2 & T3). unfold structure_ok. rewrite E, F. auto.
    + intros s a Ha. rewrite E in Ha. exact (P s a Ha).
    + intros K. apply (proj1 N), I, K.
    + intros s a Ha. rewrite E in Ha. exact (proj2 N s a Ha).
  - intros Au s a Ha. rewrite E in Ha. exact (Au s a Ha).
  - assert (M : forall c w l, accepts g c w -> Forall2 (means (alpha h)) c l <-> Forall2 (means (alpha g)) c l).
    { intros c w l Ac. assert (Q : forall p q, In p c -> means (alpha h) p q <-> means (alpha g) p q); [|clear -Q; split; intros F; induction F as [|p q c l M F IH]; constructor;
        try (apply Q; [left; reflexivity|exact M]); apply IH; intros p' q' Hp; apply Q; right; exact Hp].
      intros p q Hp. assert (D : (used g UNK \/ used g IDN) \/ ~ (used g UNK \/ used g IDN)).
      { assert (D1 : forall x, used g x \/ ~ used g x) by (intros x; destruct (in_dec bstr_eq_dec x (symbols_used g)) as [i|n]; [left; apply symbols_used_In, i|right; intros K; apply n, symbols_used_In, K]).
        destruct (D1 UNK), (D1 IDN); tauto. }
      destruct D as [D|D].
      - apply means_same. intros x. rewrite A. tauto.
      - destruct (path_labels g c w Ac p Hp) as (s & a & Ha & ->).
        assert (D3 : isy a <> UNK /\ osy a <> UNK /\ isy a <> IDN /\ osy a <> IDN).
        { repeat split; intros K; apply D; [left|left|right|right]; exists s, a; rewrite <- K; auto. }
        rewrite !means_plain by apply D3. reflexivity. }
    intros x y w. split; intros (c & (k & Ac & Fc) & -> & ->); exists c; (split; [|auto]); exists k.
    + pose proof (accepts_same h g (eq_sym E) (eq_sym F) _ _ Ac) as Ag. split; [exact Ag|apply (M k w c Ag), Fc].
    + split; [exact (accepts_same g h E F _ _ Ac)|apply (M k w c Ac), Fc].
Qed.

Lemma andthen_Ok (m : res graph -> Prop) f r (P : graph -> Prop) : (forall x, m x -> exists g, x = Ok g /\ P g) -> andthen m f r -> exists g, P g /\ f g r.
Proof. intros H (x & M & F). destruct (H x M) as (g & -> & Pg). eauto. Qed.
Lemma optimised_related g m : (forall l w, pair_string m l w -> pair_string g l w) -> (forall l w, pair_string g l w -> exists w', pair_string m l w' /\ (w' <= w)%Z) ->
  (forall x y w, related m x y w -> related g x y w) /\ (forall x y w, related g x y w -> exists w', related m x y w' /\ (w' <= w)%Z).
Proof.
  intros H1 H2. split.
  - intros x y w H. rewrite related_pairs in *. destruct H as (l & H & E). exists l. split; [apply H1, H|exact E].
  - intros x y w H. rewrite related_pairs in H. destruct H as (l & H & E). destruct (H2 l w H) as (w' & H' & L). exists w'. split; [|exact L]. rewrite related_pairs. eauto.
Qed.

Section Priority.
  Variables q p : graph.
  Hypothesis Sq : sound q.
  Hypothesis Sp : sound p.
  Hypothesis Nq : no_internal_symbols q.
  Hypothesis Np : no_internal_symbols p.
  Definition keeps_letter (x : bstr) : Prop := ordinary x \/ is_diacritic x = true /\ In x (alpha q).

  Lemma complement_result r : andthen (optimize (input_project q)) negate r ->
    exists c, r = Ok c /\ sound c /\ automaton c /\ (forall x, In x (alpha c) <-> In x (alpha q)) /\
      forall x y w, related c x y w <-> x = y /\ w = 0%Z /\ Forall keeps_letter x /\ ~ has_result q x.
  Proof using Sq Nq.
    intros R. destruct (project_sound q Sq) as [Su Au]. destruct Su as ((_ & Y & SP) & P & N).
    apply (andthen_Ok _ _ _ (fun u => sound u /\ automaton u /\ alpha u = alpha q /\ forall x, (exists v, related u x x v) <-> has_result q x)) in R.
    - destruct R as (u & (Su' & Au' & A & E) & R). destruct (negate_result u r Su' R) as [H _]. destruct (H Au') as (c & -> & Sc & Ac & Al & Rc). exists c.
      split; [reflexivity|]. split; [exact Sc|]. split; [exact Ac|]. split; [intros x; rewrite Al, A; reflexivity|]. intros x y w. rewrite Rc, E.
      assert (F : Forall (negated_over u) x <-> Forall keeps_letter x); [|rewrite F; reflexivity].
      rewrite !Forall_forall. unfold negated_over, keeps_letter. rewrite A. split; intros F s Hs; specialize (F s Hs); [tauto|].
      destruct F as [F|F]; [left|right; exact F]. split; [exact F|]. intros [I K]. apply (proj1 F). exact (Nq s I K).
    - intros x O. destruct (optimize_result (input_project q) x Y SP P N O) as (u & -> & Su' & A & Au' & H1 & H2). exists u. split; [reflexivity|]. split; [exact Su'|]. split; [apply Au', Au|].
      split; [exact A|]. intros s. unfold has_result. split.
      + intros (v & H). apply automaton_related in H; [|apply Au', Au|apply Su']. destruct H as [_ H]. apply H1 in H. apply project_strings in H; [|exact Sq]. destruct H as (z & H). eauto.
      + intros (z & w & H). assert (H' : pair_string (input_project q) (twice s) w) by (apply project_strings; [exact Sq|eauto]).
        destruct (H2 _ _ H') as (w' & H'' & _). exists w'. apply automaton_related; [apply Au', Au|apply Su'|auto].
  Qed.
  Lemma andthen_assoc a b c r : andthen a (fun x => andthen (b x) c) r -> andthen (andthen a b) c r.
  Proof.
    intros (x & A & H). destruct x as [g| | |]; [destruct H as (y & By & H); exists y; split; [exists (Ok g); auto|exact H]|..]; subst r.
    - exists Throw. split; [exists Throw; auto|reflexivity].
    - exists Ub. split; [exists Ub; auto|reflexivity].
    - exists Diverge. split; [exists Diverge; auto|reflexivity].
  Qed.
  Lemma priority_union_result r : priority_union q p r ->
    exists h, r = Ok h /\ sound h /\ (forall x, In x (alpha h) <-> In x (alpha q) \/ In x (alpha p)) /\
      (forall x z w, related h x z w -> related q x z w \/ related p x z w /\ ~ has_result q x /\ Forall keeps_letter x) /\
      (forall x z w, related q x z w -> exists w', related h x z w' /\ (w' <= w)%Z) /\
      (forall x z w, related p x z w -> ~ has_result q x -> Forall keeps_letter x -> exists w', related h x z w' /\ (w' <= w)%Z).
  Proof using All.
    intros R. unfold priority_union in R. apply andthen_assoc in R. apply (andthen_Ok _ _ _ _ (fun x H => complement_result x H)) in R.
    destruct R as (c & (Sc & Ac & Al & Rc) & R). destruct (prune_sound c Sc) as (Sc' & Ac' & I & Rc'). specialize (Ac' Ac). set (c' := prune_alphabet false c) in *.
    assert (Nc : no_internal_symbols c') by (intros x Ix Hx; apply (Nq x Ix), Al, I, Hx).
    pose proof (knows_self c' p Sc' Np) as K1. pose proof (knows_self p c' Sp Nc) as K2.
    assert (UI : ~ unknown_input c') by (intros (s & a & Ha & E); apply (proj2 (Ac' s a Ha)), E).
    apply (andthen_Ok _ _ _ (fun co => (symbols_ok co /\ specials_ok co /\ identities_paired co /\ no_empty_symbol co) /\ (forall x, In x (alpha co) <-> In x (alpha c') \/ In x (alpha p)) /\
      (forall x z w, related co x z w -> related p x z w /\ Forall keeps_letter x /\ ~ has_result q x) /\
      (forall x z w, related p x z w -> Forall keeps_letter x -> ~ has_result q x -> exists w', related co x z w' /\ (w' <= w)%Z))) in R.
    2:{ destruct Sc' as (W1 & P1 & N1). destruct Sp as (W2 & P2 & N2). intros x C. destruct (C84_total_partial c' p W1 W2 P1 P2 N1 N2) as [_ T]. destruct (T x C) as (co & ->).
        exists co. split; [reflexivity|]. split; [apply (compose_sound c' p co); [split; [exact W1|auto]|split; [exact W2|auto]|exact C]|].
        destruct (C84_compose_partial c' p co c' p W1 W2 P1 P2 N1 N2 K1 K2 C) as (A & H1 & H2). split; [exact A|]. split.
        - intros s z w H. destruct (H1 s z w H) as (y & w1 & w2 & R1 & R2 & ->). apply Rc', Rc in R1. destruct R1 as (<- & -> & F & NR). auto.
        - intros s z w H F NR. assert (R1 : related c' s s 0) by (apply Rc', Rc; auto). destruct (H2 s s z 0%Z w R1 H (or_introl UI)) as (w' & H' & L). exists w'. auto. }
    destruct R as (co & ((Yo & SPo & Po & No) & Ao & H1 & H2) & R).
    apply (andthen_Ok _ _ _ (fun o => sound o /\ alpha o = alpha co /\ (forall x z w, related o x z w -> related co x z w) /\
      (forall x z w, related co x z w -> exists w', related o x z w' /\ (w' <= w)%Z))) in R.
    2:{ intros x O. destruct (optimize_result co x Yo SPo Po No O) as (o & -> & So & Aoo & _ & O1 & O2). exists o. split; [reflexivity|]. split; [exact So|]. split; [exact Aoo|].
        apply optimised_related; assumption. }
    destruct R as (o & (So & Aoo & O1 & O2) & R).
    assert (NIo : no_internal_symbols o) by (intros x Ix Hx; rewrite Aoo in Hx; apply Ao in Hx; destruct Hx as [Hx|Hx]; [exact (Nc x Ix Hx)|exact (Np x Ix Hx)]).
    apply (andthen_Ok _ _ _ (fun d => sound d /\ (forall x, In x (alpha d) <-> In x (alpha q) \/ In x (alpha o)) /\ forall x z w, related d x z w <-> related q x z w \/ related o x z w)) in R.
    2:{ intros x D. destruct (disjunct_result q o q o Sq So (knows_self q o Sq NIo) (knows_self o q So Nq) x D) as (d & -> & Sd & Ad & Rd). exists d. split; [reflexivity|]. split; [exact Sd|]. split; [exact Ad|].
        intros s z w. rewrite !related_pairs. split.
        - intros (l & H & E). apply Rd in H. destruct H as [H|H]; [left|right]; eauto.
        - intros [(l & H & E)|(l & H & E)]; exists l; (split; [apply Rd; auto|exact E]). }
    destruct R as (d & (Sd & Ad & Rd) & R). destruct Sd as ((_ & Yd & SPd) & Pd & Nd).
    destruct (optimize_result d r Yd SPd Pd Nd R) as (h & -> & Sh & Ah & _ & D1 & D2). destruct (optimised_related d h D1 D2) as [E1 E2].
    exists h. split; [reflexivity|]. split; [exact Sh|]. split; [|split; [|split]].
    - intros x. rewrite Ah, Ad, Aoo, Ao. split; [intros [K|[K|K]]; auto; left; apply Al, I, K|tauto].
    - intros x z w H. apply E1, Rd in H. destruct H as [H|H]; [auto|]. right. destruct (H1 _ _ _ (O1 _ _ _ H)) as (K1' & K2' & K3). auto.
    - intros x z w H. apply E2. apply Rd. auto.
    - intros x z w H NR F. destruct (H2 x z w H F NR) as (w1 & H' & L1). destruct (O2 _ _ _ H') as (w2 & H'' & L2). destruct (E2 x z w2) as (w3 & H3 & L3); [apply Rd; auto|].
      exists w3. split; [exact H3|lia].
  Qed.
End Priority.

Lemma lenient_result t1 t2 r : sound t1 -> sound t2 -> no_internal_symbols t1 -> no_internal_symbols t2 -> ~ unknown_input t1 \/ ~ unknown_output t2 ->
  lenient_composition t1 t2 r ->
  exists h, r = Ok h /\ sound h /\
    (forall x z w, related h x z w -> (exists y w1 w2, related t1 x y w1 /\ related t2 y z w2 /\ w = (w1 + w2)%Z)
       \/ related t1 x z w /\ ~ exists y z' w1 w2, related t1 x y w1 /\ related t2 y z' w2) /\
    (forall x y z w1 w2, related t1 x y w1 -> related t2 y z w2 -> exists w, related h x z w /\ (w <= w1 + w2)%Z) /\
    (forall x z w, related t1 x z w -> ~ (exists y z' w1 w2, related t1 x y w1 /\ related t2 y z' w2) ->
       Forall (fun s => ordinary s \/ is_diacritic s = true /\ (In s (alpha t1) \/ In s (alpha t2))) x -> exists w', related h x z w' /\ (w' <= w)%Z).
Proof.
  intros S1 S2 N1 N2 U R. unfold lenient_composition in R.
  apply (andthen_Ok _ _ _ (fun co => (symbols_ok co /\ specials_ok co /\ identities_paired co /\ no_empty_symbol co) /\ (forall x, In x (alpha co) <-> In x (alpha t1) \/ In x (alpha t2)) /\
    (forall x z w, related co x z w -> exists y w1 w2, related t1 x y w1 /\ related t2 y z w2 /\ w = (w1 + w2)%Z) /\
    (forall x y z w1 w2, related t1 x y w1 -> related t2 y z w2 -> exists w, related co x z w /\ (w <= w1 + w2)%Z))) in R.
  2:{ pose proof S1 as (W1 & P1 & M1). pose proof S2 as (W2 & P2 & M2). intros x C. destruct (C84_total_partial t1 t2 W1 W2 P1 P2 M1 M2) as [_ T]. destruct (T x C) as (co & ->).
      exists co. split; [reflexivity|]. split; [exact (compose_sound t1 t2 co S1 S2 C)|].
      destruct (C84_compose_partial t1 t2 co t1 t2 W1 W2 P1 P2 M1 M2 (knows_self t1 t2 S1 N2) (knows_self t2 t1 S2 N1) C) as (A & H1 & H2). split; [exact A|]. split; [exact H1|].
      intros s y z w1 w2 R1 R2. apply (H2 s y z w1 w2 R1 R2). tauto. }
  destruct R as (co & ((Yo & SPo & Po & No) & Ao & H1 & H2) & R).
  apply (andthen_Ok _ _ _ (fun o => sound o /\ alpha o = alpha co /\ (forall x z w, related o x z w -> related co x z w) /\
    (forall x z w, related co x z w -> exists w', related o x z w' /\ (w' <= w)%Z))) in R.
  2:{ intros x O. destruct (optimize_result co x Yo SPo Po No O) as (o & -> & So & Aoo & _ & O1 & O2). exists o. split; [reflexivity|]. split; [exact So|]. split; [exact Aoo|].
      apply optimised_related; assumption. }
  destruct R as (o & (So & Aoo & O1 & O2) & R).
  assert (NIo : no_internal_symbols o) by (intros x Ix Hx; rewrite Aoo in Hx; apply Ao in Hx; destruct Hx as [Hx|Hx]; [exact (N1 x Ix Hx)|exact (N2 x Ix Hx)]).
  assert (HR : forall x, has_result o x <-> exists y z' w1 w2, related t1 x y w1 /\ related t2 y z' w2).
  { intros x. split.
    - intros (z & w & H). destruct (H1 _ _ _ (O1 _ _ _ H)) as (y & w1 & w2 & R1 & R2 & _). exists y, z, w1, w2. auto.
    - intros (y & z & w1 & w2 & R1 & R2). destruct (H2 _ _ _ _ _ R1 R2) as (w & H & _). destruct (O2 _ _ _ H) as (w' & H' & _). exists z, w'. exact H'. }
  apply (andthen_Ok _ _ _ _ (fun x H => priority_union_result o t1 So S1 NIo N1 x H)) in R. destruct R as (pu & (Spu & Apu & Q1 & Q2 & Q3) & R).
  destruct Spu as ((_ & Yd & SPd) & Pd & Nd). destruct (optimize_result pu r Yd SPd Pd Nd R) as (h & -> & Sh & Ah & _ & D1 & D2). destruct (optimised_related pu h D1 D2) as [E1 E2].
  exists h. split; [reflexivity|]. split; [exact Sh|]. split; [|split].
  - intros x z w H. apply E1, Q1 in H. destruct H as [H|[H [NR _]]]; [left; exact (H1 _ _ _ (O1 _ _ _ H))|right; split; [exact H|]]. rewrite <- HR. exact NR.
  - intros x y z w1 w2 R1 R2. destruct (H2 _ _ _ _ _ R1 R2) as (w & H & L). destruct (O2 _ _ _ H) as (w' & H' & L'). destruct (Q2 _ _ _ H') as (w'' & H'' & L'').
    destruct (E2 _ _ _ H'') as (v & Hv & Lv). exists v. split; [exact Hv|lia].
  - intros x z w H NR F. destruct (Q3 x z w H) as (w' & H' & L').
    + rewrite HR. exact NR.
    + apply (Forall_impl _ (P := fun s => ordinary s \/ is_diacritic s = true /\ (In s (alpha t1) \/ In s (alpha t2)))); [|exact F].
      intros s [K|[K1 K2]]; [left; exact K|right]. split; [exact K1|]. rewrite Aoo, Ao. exact K2.
    + destruct (E2 _ _ _ H') as (v & Hv & Lv). exists v. split; [exact Hv|lia].
Qed.
