(** Composition: from the labels to the transducers. *)
From Verif Require Import Base Flags_Model BT_Model BT_Spec BT_Proofs BT_Proofs3 BT_Proofs4 BT_Proofs5 BT_Props Harm_Model Harm_Spec Harm_Proofs Harm_Props Sh_Proofs Co_Spec Co_Model Co_Proofs Co_Proofs2.

Lemma at_is_nth x i c : at_is x i c = true -> nth_error x i = Some c.
Proof. unfold at_is. destruct (nth_error x i) as [d|]; [|discriminate]. intros E. apply Ascii.eqb_eq in E. congruence. Qed.
Lemma is_special_internal x : is_special_symbol x = true -> internal_symbol x.
Proof.
  unfold is_special_symbol. destruct (length x <? 4) eqn:L; [discriminate|]. apply Nat.ltb_ge in L. rewrite !andb_true_iff. intros (((H0 & H1) & H2) & H3).
  apply at_is_nth in H0, H1, H2, H3. destruct x as [|c0 [|c1 x]]; [simpl in L; lia|simpl in L; lia|]. cbn in H0, H2. injection H0 as ->. injection H2 as ->.
  destruct (rev x) as [|d0 [|d1 y]] eqn:E.
  - apply (f_equal (@length ascii)) in E. rewrite rev_length in E. simpl in L, E. lia.
  - apply (f_equal (@length ascii)) in E. rewrite rev_length in E. simpl in L, E. lia.
  - apply (f_equal (@rev ascii)) in E. rewrite rev_involutive in E. cbn [rev] in E. rewrite <- app_assoc in E. cbn [app] in E. subst x. exists (rev y).
    cbn [length] in H1, H3. rewrite app_length in H1, H3. cbn [length] in H1, H3.
    replace (S (S (length (rev y) + 2)) - 1) with (S (S (length (rev y) + 1))) in H1 by lia.
    replace (S (S (length (rev y) + 2)) - 2) with (S (S (length (rev y) + 0))) in H3 by lia.
    cbn [nth_error] in H1, H3. rewrite nth_error_app2 in H1, H3 by lia.
    replace (length (rev y) + 1 - length (rev y)) with 1 in H1 by lia. replace (length (rev y) + 0 - length (rev y)) with 0 in H3 by lia.
    cbn in H1, H3. injection H1 as ->. injection H3 as ->. reflexivity.
Qed.
Lemma nothing_inserted g1 g2 : (forall x, internal_symbol x -> In x (alpha g2) -> In x (alpha g1)) -> insert_missing_special_symbols g1 g2 = g1.
Proof.
  intros H. unfold insert_missing_special_symbols. replace (filter _ (alpha g2)) with (@nil bstr); [reflexivity|]. symmetry.
  destruct (filter _ (alpha g2)) as [|x l] eqn:E; [reflexivity|]. assert (K : In x (x :: l)) by (left; reflexivity). rewrite <- E in K.
  apply filter_In in K. destruct K as [K1 K2]. apply andb_true_iff in K2. destruct K2 as [K2 K3]. apply is_special_internal in K3.
  apply negb_true_iff in K2. rewrite (proj2 (smem_In bcmp bcmp_eq x (alpha g1)) (H x K3 K1)) in K2. discriminate.
Qed.

Definition same_internal_symbols (g1 g2 : graph) : Prop :=
  forall x, internal_symbol x -> In x (alpha g1) <-> In x (alpha g2).
(** The transitions of a harmonized transducer. *)
Definition arc_facts (g : graph) (al : list bstr) (a : arc) : Prop :=
  paired (isy a, osy a) /\ (In (isy a) al /\ In (osy a) al) /\ (isy a <> [] /\ osy a <> []) /\
  (isy a = UNK -> unknown_input g) /\ (osy a = UNK -> unknown_output g).
Lemma harmonized_arcs m g al s a : symbols_ok g -> identities_paired g -> no_empty_symbol g -> ~ In [] al -> missing_for (alpha g) al m ->
  In a (nth s (sts (harmonized m g al)) []) -> arc_facts g al a.
Proof.
  intros SY P N NE M Ha. pose proof (missing_good _ _ _ NE M) as GM. destruct M as [I M].
  assert (K : forall k, In k m -> In k al /\ k <> [] /\ k <> IDN /\ k <> UNK) by (intros k Hk; split; [apply M, Hk|apply GM, Hk]).
  assert (G : forall b, In b (nth s (sts g) []) -> arc_facts g al b).
  { intros b Hb. destruct (SY s b Hb). split; [exact (P s b Hb)|]. split; [split; apply I; assumption|]. split; [exact (proj2 N s b Hb)|].
    split; intros E; exists s, b; auto. }
  assert (G1 : forall b, In b (nth s (sts (grown id_new m g)) []) -> arc_facts g al b).
  { intros b Hb. apply nth_grown in Hb. destruct Hb as [Hb|(c & Hc & Hb)]; [apply G, Hb|]. apply id_new_In in Hb. destruct Hb as (_ & k & Hk & ->).
    apply K in Hk. unfold arc_facts, paired. cbn [isy osy fst snd]. tauto. }
  change (In a (nth s (sts (grown unk_new m (grown id_new m g))) [])) in Ha. apply nth_grown in Ha. destruct Ha as [Ha|(b & Hb & Ha)]; [apply G1, Ha|].
  apply G1 in Hb. destruct Hb as (Pb & Ab & Nb & Ub & Vb). unfold paired in Pb. cbn [fst snd] in Pb. pose proof IDN_UNK as IU.
  apply unk_new_In in Ha. unfold arc_facts, paired. destruct Ha as [(E & k & Hk & ->)|[(E & k & Hk & ->)|(E & E' & k & l & Hk & Hl & Ne & ->)]]; cbn [isy osy fst snd].
  - apply K in Hk. rewrite E in Pb. split; [|tauto]. split; [tauto|]. intros X. apply Pb in X. congruence.
  - apply K in Hk. rewrite E in Pb. split; [|tauto]. split; [|tauto]. intros X. apply Pb in X. congruence.
  - apply K in Hk, Hl. tauto.
Qed.
Lemma structure_grown new m g : structure_ok g -> (forall a b, In b (new m a) -> tgt b = tgt a) -> structure_ok (grown new m g).
Proof.
  intros S T. unfold grown. apply structure_sts; [exact S|apply map_length|]. intros s a Ha.
  change (map (fun l => l ++ flat_map (new m) l) (sts g)) with (sts (grown new m g)) in Ha. apply nth_grown in Ha.
  destruct Ha as [Ha|(b & Hb & Ha)]; [exists a; auto|]. exists b. split; [exact Hb|]. apply T, Ha.
Qed.
Lemma structure_harmonized m g al : structure_ok g -> structure_ok (harmonized m g al).
Proof.
  intros S. unfold harmonized. apply structure_alpha. apply structure_grown; [apply structure_grown; [exact S|]|].
  - intros a b H. apply id_new_In in H. destruct H as (_ & k & _ & ->). reflexivity.
  - intros a b H. apply unk_new_In in H. destruct H as [(_ & k & _ & ->)|[(_ & k & _ & ->)|(_ & _ & k & l & _ & _ & _ & ->)]]; reflexivity.
Qed.

(** Substituting unknown for identity on one side. *)
Lemma substitute_facts inp out h k : structure_ok h -> In UNK (alpha h) -> substitute_symbol IDN UNK inp out h = Ok k ->
  structure_ok k /\ (forall x, In x (alpha k) <-> In x (alpha h)) /\ (forall x, used k x -> x = UNK \/ used h x).
Proof.
  intros S U E. assert (S' : structure_ok k).
  { unfold substitute_symbol in E. destruct (_ || _); [discriminate|]. destruct (bstr_eqb IDN UNK); [injection E as <-; exact S|].
    destruct (negb _); [injection E as <-; exact S|]. injection E as <-. apply structure_map; [|reflexivity|].
    - destruct (inp && out && _); [destruct (existsb _ _)|destruct (existsb _ _)]; exact S.
    - intros l a Ha. apply in_map_iff in Ha. destruct Ha as (b & <- & Hb). exists b. auto. }
  unfold substitute_symbol in E. destruct (_ || _); [discriminate|]. destruct (bstr_eqb IDN UNK); [injection E as <-; split; [exact S|split; [tauto|auto]]|].
  destruct (negb _); [injection E as <-; split; [exact S|split; [tauto|auto]]|]. change (is_reserved IDN) with true in E. cbn [negb] in E. rewrite andb_false_r in E.
  split; [exact S'|]. injection E as <-. split.
  - intros x. destruct (existsb _ _); unfold add_symbol; cbn [with_sts with_alpha alpha]; rewrite ?(In_sadd bcmp bcmp_eq); (split; [intros K; repeat (destruct K as [->|K]; [exact U|]); exact K|auto]).
  - intros x (s & a & Ha & X). cbn [with_sts sts] in Ha. set (g3 := if existsb _ _ then _ else _) in Ha.
    assert (E3 : sts g3 = sts h) by (unfold g3; destruct (existsb _ _); reflexivity). rewrite E3 in Ha. change (@nil arc) with (map (subst_symbol_arc IDN UNK inp out) []) in Ha.
    rewrite map_nth in Ha. apply in_map_iff in Ha. destruct Ha as (b & <- & Hb). unfold subst_symbol_arc in X. cbn [isy osy] in X.
    destruct X as [-> | ->].
    + destruct (inp && _); [left; reflexivity|right; exists s, b; auto].
    + destruct (out && _); [left; reflexivity|right; exists s, b; auto].
Qed.

Section Operands.
  Variables g1 g2 : graph.
  Hypothesis ST1 : structure_ok g1.
  Hypothesis ST2 : structure_ok g2.
  Hypothesis SY1 : symbols_ok g1.
  Hypothesis SY2 : symbols_ok g2.
  Hypothesis SP1 : specials_ok g1.
  Hypothesis SP2 : specials_ok g2.
  Hypothesis P1 : identities_paired g1.
  Hypothesis P2 : identities_paired g2.
  Hypothesis N1 : no_empty_symbol g1.
  Hypothesis N2 : no_empty_symbol g2.
  Hypothesis SI : same_internal_symbols g1 g2.

  Definition facts (g h k : graph) (e : bstr * bstr -> bstr * bstr) : Prop :=
    (forall l w, relation h l w <-> relation g l w) /\ (forall x, In x (alpha h) <-> In x (alpha g1) \/ In x (alpha g2)) /\
    (forall s a, In a (nth s (sts h) []) -> arc_facts g (alpha h) a) /\
    (forall l w, accepts k l w <-> exists m, accepts h m w /\ l = map e m) /\
    structure_ok k /\ (forall x, In x (alpha k) <-> In x (alpha g1) \/ In x (alpha g2)) /\ (forall x, used k x -> x <> [] /\ In x (alpha k)).
  Lemma operands_facts : exists h1 h2 k1 k2, compose_operands g1 g2 = Ok (k1, k2) /\ facts g1 h1 k1 enc1 /\ facts g2 h2 k2 enc2 /\
    (forall p q, means (alpha h1) p q <-> means (alpha h2) p q).
  Proof using All.
    unfold compose_operands. rewrite (nothing_inserted g1 g2) by (intros x X; apply SI, X). rewrite (nothing_inserted g2 g1) by (intros x X; apply SI, X). cbv zeta.
    destruct (harmonize_ok g1 g2 SP1 SP2 P1 P2 N1 N2) as (al1 & al2 & E & A1 & A2). rewrite E. cbn [rbind].
    pose proof (C25_labels_agree_partial g1 g2 _ _ SP1 SP2 P1 P2 N1 N2 E) as LA. 
    pose proof (missing_21 g1 g2 al1 SP1 A1) as M1. pose proof (missing_12 g1 g2 al2 SP2 A2) as M2.
    set (h1 := harmonized (t2_minus_t1 g1 g2) g1 al1) in *. set (h2 := harmonized (t1_minus_t2 g1 g2) g2 al2) in *.
    assert (B1 : forall x, In x (alpha h1) <-> In x (alpha g1) \/ In x (alpha g2)) by exact A1.
    assert (B2 : forall x, In x (alpha h2) <-> In x (alpha g1) \/ In x (alpha g2)) by exact A2.
    assert (NE1 : ~ In [] al1) by (rewrite A1; intros [K|K]; [apply (proj1 N1), K|apply (proj1 N2), K]).
    assert (NE2 : ~ In [] al2) by (rewrite A2; intros [K|K]; [apply (proj1 N1), K|apply (proj1 N2), K]).
    assert (F1 : forall s a, In a (nth s (sts h1) []) -> arc_facts g1 (alpha h1) a) by (intros s a; apply harmonized_arcs; assumption).
    assert (F2 : forall s a, In a (nth s (sts h2) []) -> arc_facts g2 (alpha h2) a) by (intros s a; apply harmonized_arcs; assumption).
    assert (Y1 : symbols_ok h1) by (intros s a Ha; apply (F1 s a Ha)). assert (Y2 : symbols_ok h2) by (intros s a Ha; apply (F2 s a Ha)).
    assert (NI : IDN <> []) by discriminate. assert (NU : UNK <> []) by discriminate.
    destruct (C19_substitute_symbol_total h1 IDN UNK false true NI NU) as (k1 & K1). destruct (C19_substitute_symbol_total h2 IDN UNK true false NI NU) as (k2 & K2).
    rewrite K1. cbn [rbind]. rewrite K2. cbn [rmap]. exists h1, h2, k1, k2. split; [reflexivity|].
    assert (U1 : In UNK (alpha h1)) by (apply B1; left; apply SP1). assert (U2 : In UNK (alpha h2)) by (apply B2; left; apply SP1).
    destruct (substitute_facts _ _ _ _ (structure_harmonized _ _ _ ST1) U1 K1) as (T1 & C1 & V1). destruct (substitute_facts _ _ _ _ (structure_harmonized _ _ _ ST2) U2 K2) as (T2 & C2 & V2).
    split; [|split; [|exact LA]].
    - split; [apply relation_harmonized; [apply good_of; assumption|exact M1]|]. split; [exact B1|]. split; [exact F1|].
      split; [apply (C19_substitute_symbol _ _ _ _ _ _ Y1 K1)|]. split; [exact T1|]. split; [intros x; rewrite C1; apply B1|].
      intros x X. apply V1 in X. rewrite C1. destruct X as [-> |(s & a & Ha & X)]; [auto|]. destruct (F1 s a Ha) as (_ & (Q3 & Q4) & (Q1 & Q2) & _). destruct X as [-> | ->]; auto.
    - split; [apply relation_harmonized; [apply good_of; assumption|exact M2]|]. split; [exact B2|]. split; [exact F2|].
      split; [apply (C19_substitute_symbol _ _ _ _ _ _ Y2 K2)|]. split; [exact T2|]. split; [intros x; rewrite C2; apply B2|].
      intros x X. apply V2 in X. rewrite C2. destruct X as [-> |(s & a & Ha & X)]; [auto|]. destruct (F2 s a Ha) as (_ & (Q3 & Q4) & (Q1 & Q2) & _). destruct X as [-> | ->]; auto.
  Qed.

  Lemma path_facts g h k e l w : facts g h k e -> accepts h l w ->
    Forall paired l /\ Forall (known (alpha h)) l /\ (forall p, In p l -> fst p = UNK -> unknown_input g) /\ (forall p, In p l -> snd p = UNK -> unknown_output g).
  Proof.
    intros (_ & _ & F & _) (t & v & f & R & _). clear - F R. induction R as [s|s a l v t Ha R IH]; [repeat split; try constructor; intros p []|].
    destruct IH as (I1 & I2 & I3 & I4). destruct (F s a Ha) as (Q1 & (Q2 & Q3) & _ & Q4 & Q5).
    split; [constructor; assumption|]. split; [constructor; [|assumption]|].
    - split; intros [_ K]; apply K; assumption.
    - split; intros p [<-|Hp]; eauto.
  Qed.
  Lemma means_same al al' : (forall x, In x al <-> In x al') -> forall p q, means al p q <-> means al' p q.
  Proof.
    intros A p q. assert (O : forall x, outside al x <-> outside al' x) by (intros x; unfold outside; rewrite A; reflexivity).
    split; intros M; inversion M; subst; constructor; auto; apply O; assumption.
  Qed.
  Lemma Forall2_means al al' m c : (forall x, In x al <-> In x al') -> Forall2 (means al) m c -> Forall2 (means al') m c.
  Proof. intros A F. induction F as [|p q m c M F IH]; [constructor|]. constructor; [apply (means_same _ _ A), M|exact IH]. Qed.

  Variable m : graph.
  (** What the result of composing the prepared operands denotes. *)
  Lemma single_identity_ok : (forall x, used m x -> x <> []) -> exists r, substitute_func single_identity m = Ok r.
  Proof.
    intros U. apply subst_func_ok. intros s a qs Ha E. unfold single_identity in E. cbn [label fst snd] in E.
    assert (I : valid_pair (UNK, osy a) = true /\ valid_pair (isy a, UNK) = true).
    { unfold valid_pair. cbn [fst snd]. rewrite (valid_ne (isy a)), (valid_ne (osy a)); [auto| |]; apply U; exists s, a; auto. }
    destruct (_ && _); [injection E as <-; split; [discriminate|constructor; [apply I|constructor]]|].
    destruct (_ && _); [injection E as <-; split; [discriminate|constructor; [apply I|constructor]]|discriminate].
  Qed.
  Lemma single_identity_accepts r : substitute_func single_identity m = Ok r -> forall l w, accepts r l w <-> exists l0, accepts m l0 w /\ l = map dec l0.
  Proof.
    intros E l w. rewrite (C21_function _ _ _ E). split; intros (l0 & A & F); exists l0; (split; [exact A|]).
    - clear A. induction F as [|p q l0 l D F IH]; [reflexivity|]. cbn [map]. f_equal; [|exact IH]. unfold dec.
      destruct D as [(qs & E1 & Hq)|[E1 ->]]; rewrite E1; [|reflexivity]. unfold single_identity in E1.
      destruct (_ && _); [injection E1 as <-; destruct Hq as [<-|[]]; reflexivity|]. destruct (_ && _); [injection E1 as <-; destruct Hq as [<-|[]]; reflexivity|discriminate].
    - subst l. clear A. induction l0 as [|p l0 IH]; [constructor|]. cbn [map]. constructor; [|exact IH]. unfold dec. destruct (single_identity p) as [qs|] eqn:E1; [|auto].
      left. exists qs. split; [reflexivity|]. unfold single_identity in E1.
      destruct (_ && _); [injection E1 as <-; left; reflexivity|]. destruct (_ && _); [injection E1 as <-; left; reflexivity|discriminate].
  Qed.
  Lemma single_identity_alpha r : (forall x, used m x -> In x (alpha m)) -> In UNK (alpha m) -> substitute_func single_identity m = Ok r -> forall x, In x (alpha r) <-> In x (alpha m).
  Proof.
    intros U K E x. unfold substitute_func in E. destruct (subst_func_states _ (sts m)) as [[ls ps]| | |] eqn:E1; try discriminate.
    cbn [rmap] in E. injection E as <-. destruct (subst_func_states_spec _ _ _ _ E1) as (_ & _ & P). rewrite add_pairs_alpha. cbn [with_sts alpha].
    split; [|auto]. intros [(p & Hp & X)|H]; [|exact H]. apply P in Hp. destruct Hp as (s & b & qs & Hb & Eb & Hq). unfold single_identity in Eb. cbn [label fst snd] in Eb.
    destruct (_ && _); [injection Eb as <-; destruct Hq as [<-|[]]|destruct (_ && _); [injection Eb as <-; destruct Hq as [<-|[]]|discriminate]];
      cbn [fst snd] in X; destruct X as [-> | ->]; try exact K; apply U; exists s, b; auto.
  Qed.
End Operands.
