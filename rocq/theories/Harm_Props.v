(** Property C25: harmonization keeps the meaning of both transducers. *)
From Verif Require Import Base Flags_Model BT_Model BT_Spec BT_Proofs OLC_Model OLC_Spec Harm_Model Harm_Spec Harm_Proofs.

(** C25: harmonizing two transducers leaves the weighted relation of each unchanged, where
    unknown and identity range over the ordinary symbols outside the transducer's own alphabet
    (before the call: its old alphabet, after it: the new one), and gives both the same
    alphabet, the union of the old ones.
    Partial: the reserved symbols must be in both alphabets (they are put there when a
    transducer is created; C25_removed_special_refuted shows what happens otherwise), identity
    must stand on both sides of a transition or on none (an assert) and no symbol may be the
    empty string (an exception). *)
Theorem C25_meaning_kept_partial g1 g2 :
  specials_ok g1 -> specials_ok g2 -> identities_paired g1 -> identities_paired g2 ->
  no_empty_symbol g1 -> no_empty_symbol g2 ->
  exists h1 h2, harmonize g1 g2 = Ok (h1, h2)
    /\ (forall l w, relation h1 l w <-> relation g1 l w)
    /\ (forall l w, relation h2 l w <-> relation g2 l w)
    /\ (forall x, In x (alpha h1) <-> In x (alpha g1) \/ In x (alpha g2))
    /\ (forall x, In x (alpha h2) <-> In x (alpha g1) \/ In x (alpha g2)).
Proof.
  intros S1 S2 P1 P2 N1 N2. destruct (harmonize_ok g1 g2 S1 S2 P1 P2 N1 N2) as (al1 & al2 & E & A1 & A2).
  exists (harmonized (t2_minus_t1 g1 g2) g1 al1), (harmonized (t1_minus_t2 g1 g2) g2 al2). split; [exact E|].
  split; [apply relation_harmonized; [apply good_of; assumption|apply missing_21; assumption]|].
  split; [apply relation_harmonized; [apply good_of; assumption|apply missing_12; assumption]|].
  split; [exact A1|exact A2].
Qed.
Print Assumptions C25_meaning_kept_partial.

(** C25: after the call every label means the same in both transducers, so that an operation may
    compare labels literally. *)
Theorem C25_labels_agree_partial g1 g2 h1 h2 :
  specials_ok g1 -> specials_ok g2 -> identities_paired g1 -> identities_paired g2 ->
  no_empty_symbol g1 -> no_empty_symbol g2 ->
  harmonize g1 g2 = Ok (h1, h2) -> forall p q, means (alpha h1) p q <-> means (alpha h2) p q.
Proof.
  intros S1 S2 P1 P2 N1 N2 E p q. destruct (harmonize_ok g1 g2 S1 S2 P1 P2 N1 N2) as (al1 & al2 & E' & A1 & A2).
  rewrite E in E'. injection E' as -> ->. cbn [harmonized with_alpha alpha].
  assert (O : forall x, outside al1 x <-> outside al2 x) by (intros x; unfold outside; rewrite A1, A2; reflexivity).
  split; intros M; inversion M; subst; constructor; auto; apply O; assumption.
Qed.
Print Assumptions C25_labels_agree_partial.

(** C25: a second harmonization of the same two transducers changes no transition. *)
Theorem C25_once_is_enough_partial g1 g2 h1 h2 :
  specials_ok g1 -> specials_ok g2 -> identities_paired g1 -> identities_paired g2 ->
  no_empty_symbol g1 -> no_empty_symbol g2 ->
  harmonize g1 g2 = Ok (h1, h2) ->
  exists k1 k2, harmonize h1 h2 = Ok (k1, k2) /\ sts k1 = sts h1 /\ fin k1 = fin h1 /\ sts k2 = sts h2 /\ fin k2 = fin h2.
Proof.
  intros S1 S2 P1 P2 N1 N2 E. destruct (harmonize_ok g1 g2 S1 S2 P1 P2 N1 N2) as (al1 & al2 & E' & A1 & A2).
  rewrite E in E'. injection E' as E1 E2.
  assert (A : forall x, In x (alpha h1) <-> In x (alpha h2)).
  { intros x. rewrite E1, E2. cbn [harmonized with_alpha alpha]. rewrite A1, A2. reflexivity. }
  assert (Z1 : t2_minus_t1 h1 h2 = []).
  { destruct (t2_minus_t1 h1 h2) as [|x d] eqn:F; [reflexivity|exfalso].
    assert (H : In x (t2_minus_t1 h1 h2)) by (rewrite F; left; reflexivity).
    unfold t2_minus_t1 in H. apply set_difference_In in H. rewrite !remove_flags_In in H. rewrite A in H. tauto. }
  assert (Z2 : t1_minus_t2 h1 h2 = []).
  { destruct (t1_minus_t2 h1 h2) as [|x d] eqn:F; [reflexivity|exfalso].
    assert (H : In x (t1_minus_t2 h1 h2)) by (rewrite F; left; reflexivity).
    unfold t1_minus_t2 in H. rewrite !(In_sdel bcmp bcmp_eq), set_difference_In, !remove_flags_In in H. rewrite A in H. tauto. }
  unfold harmonize. rewrite Z1, Z2. cbn [harmonize_identity_symbols harmonize_unknown_symbols expand rbind].
  eexists _, _. split; [reflexivity|].
  rewrite !(proj1 (add_symbols_sts _ _)), !(proj2 (add_symbols_sts _ _)). auto.
Qed.
Print Assumptions C25_once_is_enough_partial.

(** C25 fails when the unknown symbol has left the first transducer's alphabet, which removing
    the last transition with that symbol does: identity then also gets an unknown:unknown
    transition, and different symbols are related. *)
Definition lost_unknown : list op :=
  [OAddState; OSetFinal 1 0; OAddTransition 0 (Arc 1 IDN IDN 0); OAddTransition 0 (Arc 1 UNK UNK 0);
   ORemoveTransition 0 (Arc 1 UNK UNK 0) true].
Theorem C25_removed_special_refuted :
  exists g1 g2 h1 h2 l w, run_ops empty_graph lost_unknown = Ok g1 /\ g2 = empty_graph
    /\ identities_paired g1 /\ no_empty_symbol g1
    /\ harmonize g1 g2 = Ok (h1, h2) /\ relation h1 l w /\ ~ relation g1 l w.
Proof.
  eexists _, empty_graph, _, _, [(B "a", B "b")], 0%Z. split; [vm_compute; reflexivity|]. split; [reflexivity|].
  split. { intros s a H. destruct s as [|[|[|s]]]; simpl in H; try tauto. destruct H as [<-|[]]. split; intros; reflexivity. }
  split. { split; [simpl; intros [H|[H|[]]]; discriminate|]. intros s a H. destruct s as [|[|[|s]]]; simpl in H; try tauto. destruct H as [<-|[]]. split; discriminate. }
  split; [vm_compute; reflexivity|]. split.
  - exists [(UNK, UNK)]. split.
    + exists 1, 0%Z, 0%Z. split; [|split; reflexivity]. apply (run_cons _ 0 (Arc 1 UNK UNK 0) [] 0%Z 1); [right; left; reflexivity|constructor].
    + constructor; [|constructor]. apply means_unknowns; [| |discriminate];
        (split; [split; [|split; [reflexivity|]]|]).
      * unfold special. intros [H|[H|H]]; discriminate.
      * intros H. apply pmatch_special_spec in H. discriminate.
      * intros H. vm_compute in H. repeat (destruct H as [H|H]; [discriminate|]). exact H.
      * unfold special. intros [H|[H|H]]; discriminate.
      * intros H. apply pmatch_special_spec in H. discriminate.
      * intros H. vm_compute in H. repeat (destruct H as [H|H]; [discriminate|]). exact H.
  - intros (m & (t & v & f & R & F & W) & M). inversion M as [|p q m' l' M1 M2]; subst. inversion M2; subst.
    inversion R as [|s a l v' u Ha R']; subst. simpl in Ha. destruct Ha as [<-|[]]. cbn [isy osy] in M1.
    inversion M1; subst; discriminate.
Qed.
Print Assumptions C25_removed_special_refuted.

(** The hypotheses hold of transducers with identities, unknowns, flags and different alphabets:
    expansion adds transitions on both sides. *)
Definition left_graph : graph :=
  add_transition (add_transition (add_transition (add_transition (set_final_weight empty_graph 1 7)
    0 (Arc 1 UNK UNK 1) true) 0 (Arc 1 IDN IDN 2) true) 1 (Arc 0 (B "a") UNK 3) true) 1 (Arc 0 (B "@P.X.1@") (B "@P.X.1@") 0) true.
Definition right_graph : graph :=
  add_transition (add_transition (add_transition (set_final_weight empty_graph 0 0)
    0 (Arc 1 (B "b") (B "c") 1) true) 1 (Arc 0 IDN IDN 2) true) 1 (Arc 1 UNK (B "@L.NOUN@") 3) true.
Definition check (g : graph) : bool :=
  forallb (forallb (fun a => Bool.eqb (bstr_eqb (isy a) IDN) (bstr_eqb (osy a) IDN) && valid_pair (label a))) (sts g)
  && forallb is_valid_symbol (alpha g) && smem bcmp EPS (alpha g) && smem bcmp UNK (alpha g) && smem bcmp IDN (alpha g).
Lemma check_ok g : check g = true -> specials_ok g /\ identities_paired g /\ no_empty_symbol g.
Proof.
  unfold check. rewrite !andb_true_iff. intros ((((A & V) & E1) & E2) & E3).
  apply (smem_In bcmp bcmp_eq) in E1, E2, E3. rewrite forallb_forall in A, V.
  assert (K : forall s a, In a (nth s (sts g) []) ->
    Bool.eqb (bstr_eqb (isy a) IDN) (bstr_eqb (osy a) IDN) = true /\ valid_pair (label a) = true).
  { intros s a H. destruct (nth_in_or_default s (sts g) []) as [D|D]; [|rewrite D in H; destruct H].
    apply A in D. rewrite forallb_forall in D. apply D in H. apply andb_true_iff in H. exact H. }
  split; [repeat split; assumption|]. split.
  - intros s a H. destruct (K s a H) as [Q _]. apply Bool.eqb_prop in Q.
    change (isy a = IDN <-> osy a = IDN). rewrite <- !bstr_eqb_eq. rewrite Q. reflexivity.
  - split; [intros H; apply V in H; discriminate|].
    intros s a H. destruct (K s a H) as [_ Q]. unfold valid_pair, label in Q. cbn [fst snd] in Q. apply andb_true_iff in Q.
    destruct Q as [Q1 Q2]. split; intros F; rewrite F in *; discriminate.
Qed.
Example C25_witness :
  (specials_ok left_graph /\ identities_paired left_graph /\ no_empty_symbol left_graph)
  /\ (specials_ok right_graph /\ identities_paired right_graph /\ no_empty_symbol right_graph)
  /\ exists h1 h2, harmonize left_graph right_graph = Ok (h1, h2)
     /\ map (@length arc) (sts left_graph) = [2; 2] /\ map (@length arc) (sts h1) = [10; 4]
     /\ map (@length arc) (sts right_graph) = [1; 2] /\ map (@length arc) (sts h2) = [1; 4].
Proof.
  split; [apply check_ok; vm_compute; reflexivity|]. split; [apply check_ok; vm_compute; reflexivity|].
  eexists _, _. split; [vm_compute; reflexivity|]. vm_compute. auto.
Qed.
