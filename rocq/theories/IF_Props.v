(** Labels in options and hfst-insert-freely: properties C165 and C166. *)
From Verif Require Import Base BT_Model BT_Spec BT_Proofs BT_Props EE_Model EE_Proofs IF_Spec IF_Model IF_Proofs.

(** C165: a label is split at the first colon that can stand between two symbols, and is not a pair
    if there is none.  Partial: the label does not begin with a backslash and a colon, see below. *)
Theorem C165_pair_partial label : ~ (exists y, y <> [] /\ label = backslash :: colon :: y) ->
  (forall i o, label_to_stringpair label = Ok (Some (i, o)) <-> exists x y, two_symbols label x y /\ symbol_of x i /\ symbol_of y o) /\
  (label_to_stringpair label = Ok None <-> forall x y, ~ two_symbols label x y).
Proof.
  intros NS. pose proof (find_colon_whole label NS) as H. unfold label_to_stringpair.
  destruct (find_colon [] label) as [[[x y]|]| | |]; try (exfalso; exact H); cbn [rmap rbind option_map fst snd].
  - split.
    + intros i o. split.
      * intros E. injection E as <- <-. exists x, y. split; [exact H|]. split; apply from_zero_spec; reflexivity.
      * intros (x' & y' & T & I & O). destruct (two_symbols_unique _ _ _ _ _ H T) as [-> ->]. apply from_zero_spec in I, O. subst. reflexivity.
    + split; [discriminate|]. intros K. exfalso. exact (K x y H).
  - split.
    + intros i o. split; [discriminate|]. intros (x & y & (E & Y & S & _) & _). exfalso. exact (H x y E Y S).
    + split; [|reflexivity]. intros _ x y (E & Y & S & _). exact (H x y E Y S).
Qed.
Print Assumptions C165_pair_partial.
(** Every label with a colon that can stand between two symbols is a pair. *)
Theorem C165_exists label x y : label = x ++ colon :: y -> y <> [] -> separates x -> ~ (exists y, y <> [] /\ label = backslash :: colon :: y) ->
  exists i o, label_to_stringpair label = Ok (Some (i, o)).
Proof.
  intros E Y S NS. pose proof (find_colon_whole label NS) as H. unfold label_to_stringpair.
  destruct (find_colon [] label) as [[[x' y']|]| | |]; try (exfalso; exact H); cbn [rmap rbind option_map fst snd]; [eauto|].
  exfalso. exact (H x y E Y S).
Qed.
Print Assumptions C165_exists.
Example C165_witness : label_to_stringpair (B "a:b") = Ok (Some (B "a", B "b")) /\
  label_to_stringpair (B "@0@:b:c") = Ok (Some (EPS, B "b:c")) /\ label_to_stringpair (B "a\:b:c") = Ok (Some (B "a\:b", B "c")) /\ label_to_stringpair (B "ab:") = Ok None.
Proof. repeat split; reflexivity. Qed.
(** C165 is false of labels that begin with an escaped colon: the tool does not end. *)
Theorem C165_hang_refuted y : y <> [] -> label_to_stringpair (backslash :: colon :: y) = Diverge.
Proof. intros Y. unfold label_to_stringpair. rewrite find_colon_stuck; [reflexivity|]. exists y. auto. Qed.
Print Assumptions C165_hang_refuted.
(** For instance, an escaped colon and the symbol b. *)
Example C165_hang_witness : label_to_stringpair (B "\::b") = Diverge.
Proof. reflexivity. Qed.

(** C166: hfst-insert-freely lets the pair be read anywhere, any number of times, at no weight, and
    changes nothing else.  Partial: the first transducer of an archive, which has no transition with
    the reserved symbol @_MARKER_SYMBOL_@; and labels that are pairs, see below. *)
Theorem C166_insert_partial label i o t r :
  label <> B "@0@" -> label_to_stringpair label = Ok (Some (i, o)) -> structure_ok t -> ~ used t (B "@_MARKER_SYMBOL_@") ->
  exists h, insert_freely_tool (Some label) (t :: r) = Ok (h :: r) /\
    forall m w, (exists l', accepts h l' w /\ m = visible l') <->
      exists l k, accepts t l w /\ with_copies (i, o) (visible l) k /\ m = visible k.
Proof.
  intros NZ P S U. destruct (pair_well_formed i o) as (SP & _).
  assert (MP : map_ok (pair_fst i o)) by (repeat constructor).
  destruct (C23_insert_transducer_freely t (pair_fst i o) S SP MP U) as (h & E & A). exists h. split.
  - unfold insert_freely_tool, option_a, from_zero. rewrite (proj2 (bstr_eqb_neq _ _) NZ), P. destruct label as [|c label]; [cbn in P; discriminate|].
    cbn [rbind]. rewrite E. reflexivity.
  - intros m w. split.
    + intros (l' & H & ->). apply A in H. destruct H as (l & v & u & H & I & ->). apply inserted_visible in I. destruct I as (-> & k & C & V).
      exists l, k. rewrite Z.add_0_r. auto.
    + intros (l & k & H & C & ->). destruct (copies_inserted i o l k C) as (l' & I & V). exists l'. split; [|symmetry; exact V].
      apply A. exists l, w, 0%Z. rewrite Z.add_0_r. auto.
Qed.
Print Assumptions C166_insert_partial.
Definition cc : graph := Graph [[Arc 1 (B "c") (B "c") 5]; []] [(1, 0%Z)] (initialize_alphabet [B "c"]).
Lemma cc_structure : structure_ok cc.
Proof.
  split; [discriminate|]. split; [intros [|[|[|s]]] a Ha; simpl in Ha; repeat destruct Ha as [<-|Ha]; try destruct Ha; simpl; lia|].
  intros s w. simpl. destruct (Nat.compare s 1) eqn:C; try discriminate. apply Nat.compare_eq_iff in C. lia.
Qed.
Lemma cc_unmarked : ~ used cc (B "@_MARKER_SYMBOL_@").
Proof. intros (s & a & Ha & E). destruct s as [|[|[|s]]]; simpl in Ha; repeat destruct Ha as [<-|Ha]; try destruct Ha; destruct E; discriminate. Qed.
Example C166_witness : structure_ok cc /\ ~ used cc (B "@_MARKER_SYMBOL_@") /\ label_to_stringpair (B "a:b") = Ok (Some (B "a", B "b")) /\
  exists h, insert_freely_tool (Some (B "a:b")) [cc] = Ok [h] /\ exists l, accepts h l 5 /\ visible l = [(B "a", B "b"); (B "c", B "c"); (B "a", B "b")].
Proof.
  split; [exact cc_structure|]. split; [exact cc_unmarked|]. split; [reflexivity|].
  destruct (C166_insert_partial (B "a:b") (B "a") (B "b") cc []) as (h & E & A); [discriminate|reflexivity|exact cc_structure|exact cc_unmarked|].
  exists h. split; [exact E|]. destruct (proj2 (A [(B "a", B "b"); (B "c", B "c"); (B "a", B "b")] 5%Z)) as (l & H & V).
  - exists [(B "c", B "c")], [(B "a", B "b"); (B "c", B "c"); (B "a", B "b")]. split; [|split; [|reflexivity]].
    + exists 1, 5%Z, 0%Z. split; [|auto]. change 5%Z with (5 + 0)%Z. apply (run_cons _ 0 (Arc 1 (B "c") (B "c") 5)); [left; reflexivity|constructor].
    + apply wc_copy. apply (wc_keep _ (B "c", B "c")). apply wc_copy. constructor.
  - exists l. auto.
Qed.
(** C166 is false of the second transducer of an archive, which is left alone: a:b cannot be read. *)
Theorem C166_second_refuted : exists h, insert_freely_tool (Some (B "a:b")) [cc; cc] = Ok [h; cc] /\
  forall l w, accepts cc l w -> ~ In (B "a", B "b") (visible l).
Proof.
  destruct (C166_insert_partial (B "a:b") (B "a") (B "b") cc [cc]) as (h & E & _); [discriminate|reflexivity|exact cc_structure|exact cc_unmarked|].
  exists h. split; [exact E|]. intros l w (t & v & f & R & _) H. apply filter_In in H. destruct H as [H _].
  assert (G : forall s l v t, run cc s l v t -> Forall (fun q => q = (B "c", B "c")) l).
  { clear. induction 1 as [|s a l v t Ha R IH]; [constructor|]. constructor; [|exact IH].
    destruct s as [|[|[|s]]]; simpl in Ha; repeat destruct Ha as [<-|Ha]; try destruct Ha. reflexivity. }
  pose proof (proj1 (Forall_forall _ _) (G _ _ _ _ R) _ H) as Q. discriminate Q.
Qed.
Print Assumptions C166_second_refuted.
(** Nor does the tool accept a single symbol, as its help says it does: it follows a null pointer. *)
Theorem C166_single_refuted label t r : label <> [] -> ~ In colon label -> insert_freely_tool (Some label) (t :: r) = Ub.
Proof.
  intros N C. assert (F : forall l, ~ In colon l -> label_to_stringpair l = Ok None).
  { clear. intros l C. apply C165_pair_partial.
    - intros (y & _ & ->). apply C. right. left. reflexivity.
    - intros x y (-> & _). apply C. apply in_or_app. right. left. reflexivity. }
  unfold insert_freely_tool, option_a, from_zero. destruct (bstr_eqb label (B "@0@")).
  - rewrite F; [destruct label; [congruence|reflexivity]|]. intros H. repeat (destruct H as [H|H]; [discriminate H|]). exact H.
  - rewrite (F label C). destruct label; [congruence|reflexivity].
Qed.
Print Assumptions C166_single_refuted.
