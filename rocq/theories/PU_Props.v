(** Properties C112 to C115: union, intersection, difference, negation, priority union and
    lenient composition. *)
From Verif Require Import Base Flags_Model BT_Model BT_Spec BT_Proofs BT_Proofs4 BT_Proofs5 BT_Props Harm_Model Harm_Spec Harm_Proofs Harm_Props Co_Spec Co_Model Co_Proofs Co_Proofs4 Co_Props
  PU_Spec PU_Model PU_Proofs PU_Proofs2 PU_Proofs3 PU_Proofs4 PU_Proofs5 PU_Proofs6 PU_Proofs7.

(** C112: the union, intersection and difference of two transducers with different alphabets
    have the sequences of symbol pairs they should, where unknown and identity stand for the
    symbols outside a transducer's own alphabet, before and after (except for symbols of the
    form @_..._@ in the alphabet of the other one); the new alphabet is the union of the two.
    The weights of an intersection are sums; a difference keeps the weights of the first
    operand.  There always is a result. *)
Theorem C112_disjunct g1 g2 t1 t2 : sound g1 -> sound g2 ->
  knowing_internal_symbols_of g2 g1 t1 -> knowing_internal_symbols_of g1 g2 t2 ->
  (exists r, disjunct g1 g2 r) /\
  forall r, disjunct g1 g2 r -> exists m, r = Ok m /\ sound m /\ (forall x, In x (alpha m) <-> In x (alpha g1) \/ In x (alpha g2)) /\
    forall l w, pair_string m l w <-> pair_string t1 l w \/ pair_string t2 l w.
Proof. intros S1 S2 K1 K2. split; [apply disjunct_exists; assumption|]. intros r R. exact (disjunct_result g1 g2 t1 t2 S1 S2 K1 K2 r R). Qed.
Print Assumptions C112_disjunct.
Theorem C112_intersect g1 g2 t1 t2 : sound g1 -> sound g2 ->
  knowing_internal_symbols_of g2 g1 t1 -> knowing_internal_symbols_of g1 g2 t2 ->
  (exists r, intersect g1 g2 r) /\
  forall r, intersect g1 g2 r -> exists m, r = Ok m /\ sound m /\ (forall x, In x (alpha m) <-> In x (alpha g1) \/ In x (alpha g2)) /\
    (forall l w, pair_string m l w -> exists w1 w2, pair_string t1 l w1 /\ pair_string t2 l w2 /\ w = (w1 + w2)%Z) /\
    (forall l w1 w2, pair_string t1 l w1 -> pair_string t2 l w2 -> exists w, pair_string m l w /\ (w <= w1 + w2)%Z).
Proof. intros S1 S2 K1 K2. split; [apply intersect_exists; assumption|]. intros r R. exact (intersect_result g1 g2 t1 t2 S1 S2 K1 K2 r R). Qed.
Print Assumptions C112_intersect.
Theorem C112_subtract g1 g2 t1 t2 : sound g1 -> sound g2 ->
  knowing_internal_symbols_of g2 g1 t1 -> knowing_internal_symbols_of g1 g2 t2 ->
  (exists r, subtract g1 g2 r) /\
  forall r, subtract g1 g2 r -> exists m, r = Ok m /\ sound m /\ (forall x, In x (alpha m) <-> In x (alpha g1) \/ In x (alpha g2)) /\
    (forall l w, pair_string m l w -> pair_string t1 l w /\ ~ exists w2, pair_string t2 l w2) /\
    (forall l w, pair_string t1 l w -> ~ (exists w2, pair_string t2 l w2) -> exists w', pair_string m l w' /\ (w' <= w)%Z).
Proof.
  intros S1 S2 K1 K2. split; [apply subtract_exists; assumption|]. intros r R. destruct (subtract_result g1 g2 t1 t2 S1 S2 K1 K2 r R) as (m & E & Sm & A & _ & H1 & H2). eauto 8.
Qed.
Print Assumptions C112_subtract.

(** C113: the negation of an automaton accepts, without weight, the strings over the ordinary
    symbols and the automaton's flag diacritics that the automaton does not accept. *)
Theorem C113_negate g : sound g -> automaton g -> (exists r, negate g r) /\
  forall r, negate g r -> exists h, r = Ok h /\ sound h /\ automaton h /\ (forall x, In x (alpha h) <-> In x (alpha g)) /\
    forall x y w, related h x y w <-> x = y /\ w = 0%Z /\ Forall (negated_over g) x /\ ~ exists v, related g x x v.
Proof. intros S A. split; [apply negate_exists, S|]. intros r R. exact (proj1 (negate_result g r S R) A). Qed.
Print Assumptions C113_negate.
(** C113: what is no automaton is refused. *)
Theorem C113_refused g r : sound g -> ~ automaton g -> negate g r <-> r = Throw.
Proof.
  intros S A. split; [intros R; exact (proj2 (negate_result g r S R) A)|]. intros ->. unfold negate. destruct (is_automaton g) eqn:E; [|reflexivity].
  apply is_automaton_spec in E. contradiction.
Qed.
Print Assumptions C113_refused.

(** C114: the priority union of Q and P has the results of Q, and those of P for the strings
    for which Q has none.  Partial: the alphabets have no symbols of the form @_..._@ besides
    the three reserved ones; of several weights the lightest need be kept; and the results of P
    for strings with flag diacritics that Q lacks, or with pattern matching symbols, are lost
    (C114_flags_refuted). *)
Theorem C114_priority_union_partial q p : sound q -> sound p -> no_internal_symbols q -> no_internal_symbols p ->
  (exists r, priority_union q p r) /\
  forall r, priority_union q p r -> exists h, r = Ok h /\ sound h /\ (forall x, In x (alpha h) <-> In x (alpha q) \/ In x (alpha p)) /\
    (forall x z w, related h x z w -> related q x z w \/ related p x z w /\ ~ has_result q x /\ Forall (kept_by q) x) /\
    (forall x z w, related q x z w -> exists w', related h x z w' /\ (w' <= w)%Z) /\
    (forall x z w, related p x z w -> ~ has_result q x -> Forall (kept_by q) x -> exists w', related h x z w' /\ (w' <= w)%Z).
Proof. intros Sq Sp Nq Np. split; [apply priority_union_exists; assumption|]. intros r R. exact (priority_union_result q p Sq Sp Nq Np r R). Qed.
Print Assumptions C114_priority_union_partial.

(** C115: lenient composition has the results of the composition, and for the strings for which
    there are none those of the first transducer.  Partial: as C114; also one of the two
    transducers has no unknown at its outer end (see C84_unknown_refuted), and the strings have
    no pattern matching symbols. *)
Theorem C115_lenient_partial t1 t2 : sound t1 -> sound t2 -> no_internal_symbols t1 -> no_internal_symbols t2 -> ~ unknown_input t1 \/ ~ unknown_output t2 ->
  (exists r, lenient_composition t1 t2 r) /\
  forall r, lenient_composition t1 t2 r -> exists h, r = Ok h /\ sound h /\
    (forall x z w, related h x z w -> (exists y w1 w2, related t1 x y w1 /\ related t2 y z w2 /\ w = (w1 + w2)%Z)
       \/ related t1 x z w /\ ~ exists y z' w1 w2, related t1 x y w1 /\ related t2 y z' w2) /\
    (forall x y z w1 w2, related t1 x y w1 -> related t2 y z w2 -> exists w, related h x z w /\ (w <= w1 + w2)%Z) /\
    (forall x z w, related t1 x z w -> ~ (exists y z' w1 w2, related t1 x y w1 /\ related t2 y z' w2) ->
       Forall (fun s => ordinary s \/ is_diacritic s = true /\ (In s (alpha t1) \/ In s (alpha t2))) x -> exists w', related h x z w' /\ (w' <= w)%Z).
Proof. intros S1 S2 N1 N2 U. split; [apply lenient_exists; assumption|]. intros r R. exact (lenient_result t1 t2 r S1 S2 N1 N2 U R). Qed.
Print Assumptions C115_lenient_partial.

(** * Examples *)
(** Q relates a to b; P relates a to c and any other symbol to itself; R relates b to c after a
    flag diacritic; A accepts a only. *)
Definition exq : graph := of_ops [OAddTransition 0 (Arc 1 xa xb 1); OSetFinal 1 0].
Definition exp : graph := of_ops [OAddTransition 0 (Arc 1 xa xc 2); OAddTransition 0 (Arc 1 IDN IDN 0); OSetFinal 1 0].
Definition uf : bstr := B "@U.F.V@".
Definition exr : graph := of_ops [OAddTransition 0 (Arc 1 uf uf 0); OAddTransition 1 (Arc 2 xb xc 0); OSetFinal 2 0].
Definition exa : graph := of_ops [OAddTransition 0 (Arc 1 xa xa 5); OSetFinal 1 0].
Lemma sound_ops os : sym_check (of_ops os) = true -> check (of_ops os) = true -> sound (of_ops os).
Proof. intros Y K. destruct (check_ok _ K) as (S & P & N). split; [split; [apply structure_of|split; [apply sym_check_sound, Y|exact S]]|auto]. Qed.
Lemma sound_exq : sound exq. Proof. apply sound_ops; vm_compute; reflexivity. Qed.
Lemma sound_exp : sound exp. Proof. apply sound_ops; vm_compute; reflexivity. Qed.
Lemma sound_exr : sound exr. Proof. apply sound_ops; vm_compute; reflexivity. Qed.
Lemma sound_exa : sound exa. Proof. apply sound_ops; vm_compute; reflexivity. Qed.
Definition plainly (g : graph) : bool := forallb (fun x => bstr_eqb x EPS || bstr_eqb x UNK || bstr_eqb x IDN || negb (is_special_symbol x)) (alpha g).
Lemma plainly_ok g : plainly g = true -> no_internal_symbols g.
Proof.
  intros H x I Hx. unfold plainly in H. rewrite forallb_forall in H. specialize (H x Hx). rewrite (internal_is_special x I) in H.
  rewrite !orb_true_iff, !bstr_eqb_eq in H. destruct H as [[[->| ->]| ->]|H]; [left|right; left|right; right|discriminate H]; reflexivity.
Qed.
Lemma related_q : related exq [xa] [xb] 1.
Proof.
  exists [(xa, xb)]. split; [|split; reflexivity]. exists [(xa, xb)]. split.
  - exists 1, 1%Z, 0%Z. split; [|split; reflexivity]. change 1%Z with (1 + 0)%Z. apply (run_cons _ 0 (Arc 1 xa xb 1)); [left; reflexivity|constructor].
  - constructor; [|constructor]. apply means_itself; [discriminate|discriminate|]. intros [K _]. discriminate.
Qed.
Lemma only_q x z w : related exq x z w -> x = [xa] /\ z = [xb] /\ w = 1%Z.
Proof.
  intros (c & (l & (t & v & f & R & F & ->) & M) & -> & ->). inversion R as [|s a l' v' u Ha R']; subst; [discriminate F|]. destruct Ha as [<-|[]]. cbn [tgt isy osy wt] in *.
  inversion R' as [|s a l'' v'' u' Hb R'']; subst; [|destruct Hb]. injection F as <-. inversion M as [|p q ? c' Mp M']; subst. inversion M'; subst.
  apply means_plain in Mp; [|repeat split; discriminate]. subst q. auto.
Qed.
Lemma related_p : related exp [xb] [xb] 0.
Proof.
  exists [(xb, xb)]. split; [|split; reflexivity]. exists [(IDN, IDN)]. split.
  - exists 1, 0%Z, 0%Z. split; [|split; reflexivity]. change 0%Z with (0 + 0)%Z. apply (run_cons _ 0 (Arc 1 IDN IDN 0)); [right; left; reflexivity|constructor].
  - constructor; [|constructor]. apply means_identity. apply outside_b. vm_compute. intuition discriminate.
Qed.
Lemma related_p_a : related exp [xa] [xc] 2.
Proof.
  exists [(xa, xc)]. split; [|split; reflexivity]. exists [(xa, xc)]. split.
  - exists 1, 2%Z, 0%Z. split; [|split; reflexivity]. change 2%Z with (2 + 0)%Z. apply (run_cons _ 0 (Arc 1 xa xc 2)); [left; reflexivity|constructor].
  - constructor; [|constructor]. apply means_itself; [discriminate|discriminate|]. intros [K _]. discriminate.
Qed.
Lemma ordinary_b : ordinary xb. Proof. exact (proj1 (outside_b [] (fun H => H))). Qed.
Lemma related_r : related exr [uf; xb] [uf; xc] 0.
Proof.
  exists [(uf, uf); (xb, xc)]. split; [|split; reflexivity]. exists [(uf, uf); (xb, xc)]. split.
  - exists 2, 0%Z, 0%Z. split; [|split; reflexivity]. change 0%Z with (0 + (0 + 0))%Z. apply (run_cons _ 0 (Arc 1 uf uf 0)); [left; reflexivity|].
    apply (run_cons _ 1 (Arc 2 xb xc 0)); [left; reflexivity|constructor].
  - constructor; [|constructor; [|constructor]]; apply means_itself; try discriminate; intros [K _]; discriminate.
Qed.
(** C114: the priority union of Q and R has no result for the flag diacritic and b, although R
    has one and Q has none. *)
Theorem C114_flags_refuted : related exr [uf; xb] [uf; xc] 0 /\ ~ has_result exq [uf; xb] /\
  (exists h, priority_union exq exr (Ok h)) /\ forall h, priority_union exq exr (Ok h) -> ~ has_result h [uf; xb].
Proof.
  assert (NR : ~ has_result exq [uf; xb]) by (intros (z & w & H); apply only_q in H; destruct H as [H _]; discriminate).
  destruct (C114_priority_union_partial exq exr sound_exq sound_exr ltac:(apply plainly_ok; vm_compute; reflexivity) ltac:(apply plainly_ok; vm_compute; reflexivity)) as [(r & R) T].
  split; [exact related_r|]. split; [exact NR|]. split; [destruct (T r R) as (h & -> & _); eauto|].
  intros h H (z & w & K). destruct (T _ H) as (h' & E & _ & _ & S & _). injection E as <-. apply S in K. destruct K as [K|(_ & _ & K)]; [apply NR; exists z, w; exact K|].
  inversion K as [|? ? U _]; subst. destruct U as [(_ & D & _)|(_ & I)]; [discriminate D|]. vm_compute in I. intuition discriminate.
Qed.
Print Assumptions C114_flags_refuted.
Example C114_witness : related exq [xa] [xb] 1 /\ related exp [xa] [xc] 2 /\ related exp [xb] [xb] 0 /\
  exists h, priority_union exq exp (Ok h) /\ related h [xa] [xb] 1 /\ (forall w, ~ related h [xa] [xc] w) /\ exists w, related h [xb] [xb] w /\ (w <= 0)%Z.
Proof.
  split; [exact related_q|]. split; [exact related_p_a|]. split; [exact related_p|].
  destruct (C114_priority_union_partial exq exp sound_exq sound_exp ltac:(apply plainly_ok; vm_compute; reflexivity) ltac:(apply plainly_ok; vm_compute; reflexivity)) as [(r & R) T].
  destruct (T r R) as (h & -> & _ & _ & H1 & H2 & H3). exists h. split; [exact R|]. split; [|split].
  - destruct (H2 _ _ _ related_q) as (w & H & _). destruct (H1 _ _ _ H) as [K|(_ & K & _)]; [apply only_q in K; destruct K as (_ & _ & ->); exact H|]. exfalso. apply K. exists [xb], 1%Z. exact related_q.
  - intros w H. destruct (H1 _ _ _ H) as [K|(_ & K & _)]; [apply only_q in K; destruct K as (_ & K & _); discriminate|]. apply K. exists [xb], 1%Z. exact related_q.
  - apply H3; [exact related_p| |constructor; [left; exact ordinary_b|constructor]]. intros (z & w & H). apply only_q in H. destruct H as [H _]. discriminate.
Qed.
(** Union: a:c and b:b come from P, where b is outside the alphabet; a:b from Q. *)
Example C112_witness : exists t1 t2, knowing_internal_symbols_of exp exq t1 /\ knowing_internal_symbols_of exq exp t2 /\
  pair_string t1 [(xa, xb)] 1 /\ pair_string t2 [(xb, xb)] 0 /\ exists m, disjunct exq exp (Ok m) /\ pair_string m [(xa, xb)] 1 /\ pair_string m [(xb, xb)] 0.
Proof.
  assert (K1 : knowing_internal_symbols_of exp exq exq) by (apply knows_self; [exact sound_exq|apply plainly_ok; vm_compute; reflexivity]).
  assert (K2 : knowing_internal_symbols_of exq exp exp) by (apply knows_self; [exact sound_exp|apply plainly_ok; vm_compute; reflexivity]).
  assert (P1 : pair_string exq [(xa, xb)] 1).
  { exists [(xa, xb)]. split; [|reflexivity]. exists [(xa, xb)]. split.
    - exists 1, 1%Z, 0%Z. split; [|split; reflexivity]. change 1%Z with (1 + 0)%Z. apply (run_cons _ 0 (Arc 1 xa xb 1)); [left; reflexivity|constructor].
    - constructor; [|constructor]. apply means_itself; [discriminate|discriminate|]. intros [K _]. discriminate. }
  assert (P2 : pair_string exp [(xb, xb)] 0).
  { exists [(xb, xb)]. split; [|reflexivity]. exists [(IDN, IDN)]. split.
    - exists 1, 0%Z, 0%Z. split; [|split; reflexivity]. change 0%Z with (0 + 0)%Z. apply (run_cons _ 0 (Arc 1 IDN IDN 0)); [right; left; reflexivity|constructor].
    - constructor; [|constructor]. apply means_identity. apply outside_b. vm_compute. intuition discriminate. }
  exists exq, exp. split; [exact K1|]. split; [exact K2|]. split; [exact P1|]. split; [exact P2|].
  destruct (C112_disjunct exq exp exq exp sound_exq sound_exp K1 K2) as [(r & R) T]. destruct (T r R) as (m & -> & _ & _ & E). exists m. split; [exact R|]. split; apply E; auto.
Qed.
(** Negation of a: b and the empty string are accepted, a is not; Q is refused. *)
Example C113_witness : (exists h, negate exa (Ok h) /\ related h [xb] [xb] 0 /\ related h [] [] 0 /\ forall w, ~ related h [xa] [xa] w) /\ negate exq Throw.
Proof.
  assert (A : automaton exa) by (apply is_automaton_spec; vm_compute; reflexivity).
  assert (Only : forall x v, related exa x x v -> x = [xa]).
  { intros x v (c & (l & (t & v' & f & R & F & _) & M) & -> & _). inversion R as [|s a l' v'' u Ha R']; subst; [discriminate F|]. destruct Ha as [<-|[]]. cbn [tgt isy osy wt] in *.
    inversion R' as [|s a l'' v''' u' Hb R'']; subst; [|destruct Hb]. inversion M as [|p q ? c' Mp M']; subst. inversion M'; subst. apply means_plain in Mp; [|repeat split; discriminate]. subst q. reflexivity. }
  split.
  - destruct (C113_negate exa sound_exa A) as [(r & R) T]. destruct (T r R) as (h & -> & _ & _ & _ & E). exists h. split; [exact R|]. split; [|split].
    + apply E. split; [reflexivity|]. split; [reflexivity|]. split; [|intros (v & K); apply Only in K; discriminate]. constructor; [|constructor]. left. split; [exact ordinary_b|]. intros [_ K]. vm_compute in K. intuition discriminate.
    + apply E. split; [reflexivity|]. split; [reflexivity|]. split; [constructor|]. intros (v & K). apply Only in K. discriminate.
    + intros w K. apply E in K. destruct K as (_ & _ & _ & K). apply K. exists 5%Z. exists [(xa, xa)]. split; [|split; reflexivity]. exists [(xa, xa)]. split.
      * exists 1, 5%Z, 0%Z. split; [|split; reflexivity]. change 5%Z with (5 + 0)%Z. apply (run_cons _ 0 (Arc 1 xa xa 5)); [left; reflexivity|constructor].
      * constructor; [|constructor]. apply means_itself; [discriminate|discriminate|]. intros [X _]. discriminate.
  - apply C113_refused; [exact sound_exq| |reflexivity]. intros A'. apply is_automaton_spec in A'. vm_compute in A'. discriminate.
Qed.
(** P and then Q: b stays b, since Q has no result for it. *)
Example C115_witness : (~ unknown_input exp \/ ~ unknown_output exq) /\ exists h, lenient_composition exp exq (Ok h) /\ exists w, related h [xb] [xb] w /\ (w <= 0)%Z.
Proof.
  assert (U : ~ unknown_input exp) by (intros (s & a & Ha & E); destruct s as [|[|s]]; [destruct Ha as [<-|[<-|[]]]; discriminate E|destruct Ha|cbn in Ha; destruct s; destruct Ha]).
  split; [left; exact U|].
  destruct (C115_lenient_partial exp exq sound_exp sound_exq ltac:(apply plainly_ok; vm_compute; reflexivity) ltac:(apply plainly_ok; vm_compute; reflexivity) (or_introl U)) as [(r & R) T].
  destruct (T r R) as (h & -> & _ & _ & _ & H3). exists h. split; [exact R|]. apply H3; [exact related_p| |constructor; [left; exact ordinary_b|constructor]].
  intros (y & z' & w1 & w2 & H1 & H2). apply only_q in H2. destruct H2 as (-> & _ & _).
  destruct H1 as (c & (l & (t & v & f & Rn & F & _) & M) & X & Y). inversion Rn as [|s a l' v' u Ha R']; subst; [discriminate F|]. destruct Ha as [<-|[<-|[]]]; cbn [tgt isy osy wt] in *;
    (inversion R' as [|s a l'' v'' u' Hb R'']; subst; [|destruct Hb]); inversion M as [|p q ? c' Mp M']; subst; inversion M'; subst.
  - apply means_plain in Mp; [|repeat split; discriminate]. subst q. discriminate.
  - destruct q as [q1 q2]. apply means_iff in Mp; [|split; tauto]. destruct Mp as [(_ & _ & E & O)|(K & _)]; [|congruence]. subst q2.
    cbn [map fst snd] in X, Y. rewrite <- X in Y. discriminate Y.
Qed.
