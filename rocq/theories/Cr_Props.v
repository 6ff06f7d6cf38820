(** Property C132: the cross product of two automata. *)
From Verif Require Import Base Flags_Model BT_Model BT_Spec BT_Proofs BT_Proofs4 BT_Proofs5 BT_Props Harm_Model Harm_Spec Harm_Proofs Harm_Props Co_Spec Co_Model Co_Proofs Co_Proofs4 Co_Props
  PU_Spec PU_Model PU_Proofs PU_Proofs2 PU_Proofs3 PU_Proofs4 PU_Props Cr_Spec Cr_Model Cr_Proofs Cr_Proofs4.

(** C132: the cross product of two transducers that pair each symbol with itself relates x to z
    if and only if the first accepts x and the second accepts z; the weight is the sum.  Identity
    and unknown stand for the symbols outside a transducer's own alphabet, before and after.  The
    alphabet of the result is the union of the two.
    Partial: words with flag diacritics or pattern matching symbols are left out
    (C132_flags_refuted); the alphabets have no symbols of the form @_..._@ besides the three
    reserved ones; of several weights the lightest need be kept. *)
Theorem C132_cross_product_partial A B : sound A -> sound B -> no_internal_symbols A -> no_internal_symbols B ->
  recognizer A -> recognizer B ->
  (exists r, cross_product A B r) /\
  forall r, cross_product A B r -> exists h, r = Ok h /\
    (forall s, ~ special s -> In s (alpha h) <-> In s (alpha A) \/ In s (alpha B)) /\
    (forall x z w, related h x z w -> Forall ordinary x /\ Forall ordinary z /\ exists w1 w2, word A x w1 /\ word B z w2 /\ w = (w1 + w2)%Z) /\
    (forall x z w1 w2, word A x w1 -> word B z w2 -> Forall ordinary x -> Forall ordinary z ->
       exists w, related h x z w /\ (w <= w1 + w2)%Z).
Proof.
  intros SA SB NA NB RA RB. split; [exact (proj1 (cross_exists A B SA SB NA NB) RA RB)|]. intros r C. exact (proj1 (cross_result A B r SA SB NA NB C) (conj RA RB)).
Qed.
Print Assumptions C132_cross_product_partial.

(** C132: if one of the two relates some word to a different one, or pairs different symbols on
    the way, the call throws. *)
Theorem C132_refused_partial A B : sound A -> sound B -> no_internal_symbols A -> no_internal_symbols B ->
  ~ (recognizer A /\ recognizer B) ->
  (forall r, cross_product A B r -> r = Throw) /\ (~ recognizer A -> cross_product A B Throw) /\ (recognizer A -> cross_product A B Throw).
Proof.
  intros SA SB NA NB N. split; [intros r C; exact (proj2 (cross_result A B r SA SB NA NB C) N)|]. destruct (cross_exists A B SA SB NA NB) as (_ & H1 & H2).
  split; [exact H1|]. intros RA. apply H2; [exact RA|]. intros RB. apply N. auto.
Qed.
Print Assumptions C132_refused_partial.

(** * Examples *)
(** A accepts a followed by any symbol other than a; B accepts any symbol; F accepts a flag
    diacritic and b. *)
Definition exA : graph := of_ops [OAddTransition 0 (Arc 1 xa xa 3); OAddTransition 1 (Arc 2 IDN IDN 0); OSetFinal 2 0].
Definition exB : graph := of_ops [OAddTransition 0 (Arc 1 IDN IDN 4); OSetFinal 1 0].
Definition exF : graph := of_ops [OAddTransition 0 (Arc 1 uf uf 0); OAddTransition 1 (Arc 2 xb xb 0); OSetFinal 2 0].
Lemma automaton_recognizer g : sound g -> is_automaton g = true -> recognizer g.
Proof.
  intros (_ & P & _) Au l w p H Hp. apply is_automaton_spec in Au. destruct (automaton_pairs g l w Au P H) as (x & -> & _). unfold twice in Hp. apply in_map_iff in Hp. destruct Hp as (s & <- & _). reflexivity.
Qed.
Lemma sound_exA : sound exA. Proof. apply sound_ops; vm_compute; reflexivity. Qed.
Lemma sound_exB : sound exB. Proof. apply sound_ops; vm_compute; reflexivity. Qed.
Lemma sound_exF : sound exF. Proof. apply sound_ops; vm_compute; reflexivity. Qed.
Lemma word_A : word exA [xa; xb] 3.
Proof.
  exists [(xa, xa); (xb, xb)]. split; [|split; reflexivity]. exists [(xa, xa); (IDN, IDN)]. split.
  - exists 2, 3%Z, 0%Z. split; [|split; reflexivity]. change 3%Z with (3 + (0 + 0))%Z. apply (run_cons _ 0 (Arc 1 xa xa 3)); [left; reflexivity|].
    apply (run_cons _ 1 (Arc 2 IDN IDN 0)); [left; reflexivity|constructor].
  - constructor; [apply means_itself; try discriminate; intros [K _]; discriminate|]. constructor; [|constructor]. apply means_identity, outside_b. vm_compute. intuition discriminate.
Qed.
Lemma word_B : word exB [xb] 4.
Proof.
  exists [(xb, xb)]. split; [|split; reflexivity]. exists [(IDN, IDN)]. split.
  - exists 1, 4%Z, 0%Z. split; [|split; reflexivity]. change 4%Z with (4 + 0)%Z. apply (run_cons _ 0 (Arc 1 IDN IDN 4)); [left; reflexivity|constructor].
  - constructor; [|constructor]. apply means_identity, outside_b. vm_compute. intuition discriminate.
Qed.
Lemma word_F : word exF [uf; xb] 0.
Proof.
  exists [(uf, uf); (xb, xb)]. split; [|split; reflexivity]. exists [(uf, uf); (xb, xb)]. split.
  - exists 2, 0%Z, 0%Z. split; [|split; reflexivity]. change 0%Z with (0 + (0 + 0))%Z. apply (run_cons _ 0 (Arc 1 uf uf 0)); [left; reflexivity|].
    apply (run_cons _ 1 (Arc 2 xb xb 0)); [left; reflexivity|constructor].
  - constructor; [|constructor; [|constructor]]; apply means_itself; try discriminate; intros [K _]; discriminate.
Qed.
Lemma rec_A : recognizer exA. Proof. apply automaton_recognizer; [exact sound_exA|vm_compute; reflexivity]. Qed.
Lemma rec_B : recognizer exB. Proof. apply automaton_recognizer; [exact sound_exB|vm_compute; reflexivity]. Qed.
Lemma rec_F : recognizer exF. Proof. apply automaton_recognizer; [exact sound_exF|vm_compute; reflexivity]. Qed.
Lemma ordinary_a : ordinary xa.
Proof. split; [intros [K|[K|K]]; discriminate|]. split; [reflexivity|]. intros K. apply pmatch_special_spec in K. discriminate. Qed.
(** C132 fails for flag diacritics: F accepts its word and B accepts b, but the cross product
    does not relate them. *)
Theorem C132_flags_refuted : word exF [uf; xb] 0 /\ word exB [xb] 4 /\ (exists h, cross_product exF exB (Ok h)) /\
  forall h w, cross_product exF exB (Ok h) -> ~ related h [uf; xb] [xb] w.
Proof.
  destruct (C132_cross_product_partial exF exB sound_exF sound_exB ltac:(apply plainly_ok; vm_compute; reflexivity) ltac:(apply plainly_ok; vm_compute; reflexivity) rec_F rec_B) as [(r & R) T].
  split; [exact word_F|]. split; [exact word_B|]. split; [destruct (T r R) as (h & -> & _); eauto|].
  intros h w C H. destruct (T _ C) as (h' & E & _ & S & _). injection E as <-. apply S in H. destruct H as (F & _). inversion F as [|? ? (_ & D & _) _]; subst. discriminate D.
Qed.
Print Assumptions C132_flags_refuted.
(** The symbol b, outside both alphabets, is related to itself although the transitions that
    read it belong to different operands; a:b is refused as an operand. *)
Example C132_witness : (exists h w, cross_product exA exB (Ok h) /\ related h [xa; xb] [xb] w /\ (w <= 7)%Z /\ (forall v, ~ related h [xa; xa] [xb] v)) /\ ~ recognizer exq /\ cross_product exq exB Throw.
Proof.
  split.
  - destruct (C132_cross_product_partial exA exB sound_exA sound_exB ltac:(apply plainly_ok; vm_compute; reflexivity) ltac:(apply plainly_ok; vm_compute; reflexivity) rec_A rec_B) as [(r & R) T].
    destruct (T r R) as (h & -> & _ & S & K). destruct (K [xa; xb] [xb] 3%Z 4%Z word_A word_B) as (w & H & L).
    + constructor; [exact ordinary_a|constructor; [exact ordinary_b|constructor]].
    + constructor; [exact ordinary_b|constructor].
    + exists h, w. split; [exact R|]. split; [exact H|]. split; [exact L|]. intros v Hv. apply S in Hv. destruct Hv as (_ & _ & w1 & w2 & W & _).
      destruct W as (c & (l & (t & u & f & Rn & F & ->) & M) & E & _). inversion Rn as [|s a l1 v1 u1 Ha Rn1]; subst; [discriminate F|]. destruct Ha as [<-|[]]. cbn [tgt isy osy wt] in *.
      inversion Rn1 as [|s a l2 v2 u2 Hb Rn2]; subst; [discriminate F|]. destruct Hb as [<-|[]]. cbn [tgt isy osy wt] in *.
      inversion Rn2 as [|s a l3 v3 u3 Hc Rn3]; subst; [|destruct Hc]. inversion M as [|p q l' c' Mp M']; subst. inversion M' as [|p2 q2 l'' c'' Mp2 M'']; subst. inversion M''; subst.
      apply means_plain in Mp; [|repeat split; discriminate]. subst q. cbn [map fst] in E. rewrite ne_keep in E by discriminate. apply (f_equal (@tl bstr)) in E. cbn [tl] in E.
      inversion Mp2 as [x O|x y Ox Oy D|x o' O D|i' y O D|i' o' D1 D2 D3]; subst.
      * cbn [fst] in E. rewrite ne_keep in E by (apply (outside_ne _ _ O)). apply (f_equal (hd xa)) in E. cbn [hd] in E. destruct O as [_ O]. apply O. rewrite <- E. vm_compute. tauto.
      * destruct D3. auto.
  - assert (N : ~ recognizer exq).
    { intros R. pose proof related_q as H. apply (recognizer_related exq _ _ _ R) in H. discriminate H. }
    split; [exact N|]. refine (proj1 (proj2 (C132_refused_partial exq exB sound_exq sound_exB _ _ _)) N); [apply plainly_ok; vm_compute; reflexivity|apply plainly_ok; vm_compute; reflexivity|tauto].
Qed.
