(** Properties C26-C29 and C61: graph analyses of basic transducers.

    Each function is shown to return an answer (no exception, no divergence) for every
    bound on the recursion depth above a stated number, and the answer is exact. *)
From Verif Require Import Base Flags_Model BT_Model BT_Spec BT_Proofs BT_Proofs3 An_Model An_Spec An_Proofs An_Proofs2.
From Coq Require Import Sorted.

(** C26: has_negative_epsilon_cycles() is true exactly when some cycle of epsilon:epsilon
    transitions has negative total weight. *)
Theorem C26_negative_epsilon_cycles g fuel : structure_ok g -> length (sts g) < fuel ->
  exists b, has_negative_epsilon_cycles fuel g = Ok b /\
    (b = true <-> exists s r, cycle epsilon_arc g s r /\ (path_weight r < 0)%Z).
Proof.
  intros G Hf. unfold has_negative_epsilon_cycles. destruct (existsb (existsb (fun a => both_epsilon a && (wt a <? 0)%Z)) (sts g)) eqn:E; cbn [negb].
  - destruct (neg_any_spec g G fuel Hf (seq 0 (get_max_state g + 1)) []) as (b & Eb & T & F); [reflexivity| |].
    + intros s Hs. apply in_seq in Hs. unfold get_max_state in Hs. pose proof (n_pos g G). lia.
    + exists b. split; [exact Eb|]. split; [exact T|]. intros (s & r & C & W). destruct b; [reflexivity|exfalso].
      apply (no_neg_no_cycle g) in C; [lia|]. intros x Hx. apply (F eq_refl). apply in_seq. unfold get_max_state. lia.
  - exists false. split; [reflexivity|]. split; [discriminate|]. intros (s & r & (_ & P & Fr) & W). exfalso.
    assert (K : forall s r t, path g s r t -> Forall epsilon_arc r -> (0 <= path_weight r)%Z).
    { clear - E. induction 1 as [|s a r t Ha P IH]; intros F; [simpl; lia|]. inversion F as [|? ? Fa F']; subst. specialize (IH F'). cbn [path_weight].
      destruct (Z.ltb_spec (wt a) 0) as [L|L]; [|lia]. exfalso.
      assert (X : existsb (existsb (fun a => both_epsilon a && (wt a <? 0)%Z)) (sts g) = true).
      { apply existsb_exists. exists (nth s (sts g) []). split.
        - apply nth_In. destruct (Nat.lt_ge_cases s (length (sts g))) as [|O]; [assumption|]. rewrite nth_overflow in Ha by exact O. destruct Ha.
        - apply existsb_exists. exists a. split; [exact Ha|]. apply andb_true_iff. split; [apply both_epsilon_iff; exact Fa|apply Z.ltb_lt; exact L]. }
      congruence. }
    specialize (K _ _ _ P Fr). lia.
Qed.
Print Assumptions C26_negative_epsilon_cycles.

(** C27: is_infinitely_ambiguous() is true exactly when the transducer has a cycle of
    transitions whose input side is epsilon or a flag diacritic. *)
Theorem C27_infinitely_ambiguous g fuel : structure_ok g -> length (sts g) < fuel ->
  exists b, is_infinitely_ambiguous fuel g = Ok b /\ (b = true <-> exists s r, cycle free_arc g s r).
Proof.
  intros G Hf. unfold is_infinitely_ambiguous.
  destruct (inf_any_spec g G fuel Hf (seq 0 (get_max_state g + 1)) [] []) as (b & Eb & T & F).
  - intros x [].
  - intros l1 x l2 E. destruct l1; discriminate.
  - intros s Hs. apply in_seq in Hs. unfold get_max_state in Hs. pose proof (n_pos g G). lia.
  - exists b. split; [exact Eb|]. split; [exact T|]. intros (s & r & C). destruct b; [reflexivity|exfalso].
    destruct (F eq_refl) as (H & O & _ & A). refine (ordered_no_cycle g H s r O _ C). apply A. apply in_seq.
    assert (s < length (sts g)) as L.
    { destruct C as (N & P & _). destruct (Nat.lt_ge_cases s (length (sts g))) as [|L]; [assumption|]. inversion P as [|? a ? ? Ha P']; subst; [congruence|]. rewrite nth_overflow in Ha by exact L. destruct Ha. }
    unfold get_max_state. lia.
Qed.
Print Assumptions C27_infinitely_ambiguous.

(** C28: is_lookup_infinitely_ambiguous(s) is true exactly when some prefix of s can be
    consumed from the initial state into a state on a cycle of input-epsilon (or flag)
    transitions. *)
Theorem C28_lookup_infinitely_ambiguous g input fuel : structure_ok g -> (length input + 1) * (length (sts g) + 1) < fuel ->
  exists b, is_lookup_infinitely_ambiguous fuel g input = Ok b /\
    (b = true <-> exists p q t r, input = p ++ q /\ reading g 0 p t /\ cycle free_arc g t r).
Proof.
  intros G Hf. unfold is_lookup_infinitely_ambiguous.
  destruct (lookup_inf_spec g G fuel input 0 [0] []) as (b & P' & E & T & F).
  - intros x [<-|[]]. left. reflexivity.
  - intros x [].
  - constructor.
  - intros x [].
  - exact (n_pos g G).
  - intros [].
  - cbn [length]. lia.
  - intros x [].
  - exists b. rewrite E. split; [reflexivity|]. split; [exact T|]. intros (p & q & t & r & -> & R & C). destruct b; [reflexivity|exfalso].
    destruct (F eq_refl) as (_ & _ & NL). destruct (no_loop_reading g 0 p t R q _ NL) as [D K]. exact (no_loop_no_cycle g t r q D K C).
Qed.
Print Assumptions C28_lookup_infinitely_ambiguous.

(** C29: longest_path_size() of an acyclic transducer is the length of a longest accepted
    path, and -1 when there is none. *)
Theorem C29_longest_path_size g fuel : structure_ok g -> acyclic g -> length (sts g) < fuel ->
  exists z, longest_path_size fuel g = Ok z /\
    ((z = (-1)%Z /\ forall r, ~ accepted g r) \/
     (exists r, accepted g r /\ z = Z.of_nat (length r) /\ forall r', accepted g r' -> length r' <= length r)).
Proof. intros G A Hf. exact (longest_spec g G fuel A Hf). Qed.
Print Assumptions C29_longest_path_size.
(** Why acyclicity is needed: with a cycle reachable from the initial state the call does
    not return, whatever the bound on the number of rounds. *)
Theorem C29_cyclic_diverges g fuel r s c : structure_ok g -> path g 0 r s -> path g s c s -> c <> [] ->
  longest_path_size fuel g = Diverge /\ path_sizes fuel g = Diverge.
Proof. intros G P C N. unfold longest_path_size, path_sizes. rewrite !(topsort_diverges g G _ fuel r s c P C N). split; reflexivity. Qed.
Print Assumptions C29_cyclic_diverges.

(** C61: path_sizes() of an acyclic transducer lists exactly the lengths of its accepted
    paths, in strictly descending order. *)
Theorem C61_path_sizes g fuel : structure_ok g -> acyclic g -> length (sts g) < fuel ->
  exists l, path_sizes fuel g = Ok l /\ StronglySorted gt l /\ forall k, In k l <-> exists r, accepted g r /\ length r = k.
Proof.
  intros G A Hf. destruct (topsort_spec g G false fuel A Hf) as (sets & E & S). unfold path_sizes. rewrite E. cbn [rmap]. eexists. split; [reflexivity|].
  assert (K : forall sets d, StronglySorted gt (final_distances g d sets) /\ forall k, In k (final_distances g d sets) <-> exists j, k = d + j /\ existsb (is_final_state g) (nth j sets []) = true).
  { clear. induction sets as [|s sets IH]; intros d; cbn [final_distances]; [split; [constructor|]; intros k; split; [intros []|intros ([|j] & _ & K); discriminate]|].
    destruct (IH (Datatypes.S d)) as [I1 I2]. split.
    - assert (Q : forall l (m : nat), StronglySorted gt l -> (forall x, In x l -> x > m) -> StronglySorted gt (l ++ [m])).
      { clear. induction l as [|x l IH]; intros m H B; cbn [app]; [constructor; constructor|]. inversion H as [|? ? H1 H2]; subst. constructor; [apply IH; [exact H1|intros y Hy; apply B; right; exact Hy]|].
        apply Forall_app. split; [exact H2|]. constructor; [apply B; left; reflexivity|constructor]. }
      destruct (existsb (is_final_state g) s); [|rewrite app_nil_r; exact I1]. apply Q; [exact I1|]. intros x Hx. apply I2 in Hx. destruct Hx as (j & -> & _). lia.
    - intros k. rewrite in_app_iff, I2. split.
      + intros [(j & -> & Hj)|H]; [exists (Datatypes.S j); split; [lia|exact Hj]|]. destruct (existsb (is_final_state g) s) eqn:Es; [destruct H as [<-|[]]|destruct H]. exists 0. split; [lia|exact Es].
      + intros ([|j] & -> & Hj); [|left; exists j; split; [lia|exact Hj]]. right. cbn [nth] in Hj. rewrite Hj. left. lia. }
  destruct (K sets 0) as [K1 K2]. split; [exact K1|]. intros k. rewrite K2, <- level_accepted. split.
  - intros (j & -> & Hj). apply existsb_final in Hj. destruct Hj as (x & Hx & F). apply S in Hx. exists x. split; [apply Hx|exact F].
  - intros (x & Lx & F). exists k. split; [reflexivity|]. apply existsb_final. exists x. split; [|exact F]. apply S. split; [exact Lx|discriminate].
Qed.
Print Assumptions C61_path_sizes.

(** ** Witnesses *)
Definition eps_ := B "@_EPSILON_SYMBOL_@".
(** 0 -a-> 1 -eps(-3)-> 2 -eps(+2)-> 1, 2 final: a negative epsilon cycle entered after a. *)
Definition an_neg : graph :=
  Graph [[Arc 1 (B "a") (B "b") 0]; [Arc 2 eps_ eps_ (-3)]; [Arc 1 eps_ eps_ 2]] [(2, 0%Z)] [B "@_EPSILON_SYMBOL_@"; B "@_IDENTITY_SYMBOL_@"; B "@_UNKNOWN_SYMBOL_@"; B "a"; B "b"].
(** The same with a flag diacritic instead of epsilon and a non-negative sum. *)
Definition an_pos : graph :=
  Graph [[Arc 1 (B "a") (B "b") 0]; [Arc 2 (B "@P.F.A@") eps_ (-3)]; [Arc 1 eps_ eps_ 3]] [(2, 0%Z)] [B "@P.F.A@"; B "@_EPSILON_SYMBOL_@"; B "@_IDENTITY_SYMBOL_@"; B "@_UNKNOWN_SYMBOL_@"; B "a"; B "b"].
(** Acyclic: paths of lengths 1, 2 and 3 to the final states 2 and 3. *)
Definition an_acyc : graph :=
  Graph [[Arc 1 (B "a") (B "a") 0; Arc 2 (B "a") (B "b") 1]; [Arc 2 (B "b") eps_ 0]; [Arc 3 eps_ (B "a") 0]; []] [(2, 0%Z); (3, 0%Z)]
        [B "@_EPSILON_SYMBOL_@"; B "@_IDENTITY_SYMBOL_@"; B "@_UNKNOWN_SYMBOL_@"; B "a"; B "b"].
Lemma small_structure g : (forallb (forallb (fun a => tgt a <? length (sts g))) (sts g) && forallb (fun p => fst p <? length (sts g)) (fin g))%bool = true -> sts g <> [] -> structure_ok g.
Proof.
  intros H N. apply andb_true_iff in H. destruct H as [H1 H2]. split; [exact N|]. split.
  - intros s a Ha. rewrite forallb_forall in H1. destruct (Nat.lt_ge_cases s (length (sts g))) as [L|L]; [|rewrite nth_overflow in Ha by exact L; destruct Ha].
    pose proof (H1 _ (nth_In _ [] L)) as K. rewrite forallb_forall in K. apply Nat.ltb_lt. exact (K a Ha).
  - intros s w Hw. rewrite forallb_forall in H2. apply Nat.ltb_lt. clear N H1. induction (fin g) as [|[k v] m IH]; [discriminate|]. cbn [mget] in Hw.
    destruct (s ?= k) eqn:E.
    + apply Nat.compare_eq_iff in E. subst. exact (H2 (k, v) (or_introl eq_refl)).
    + apply IH; [intros x Hx; apply H2; right; exact Hx|exact Hw].
    + apply IH; [intros x Hx; apply H2; right; exact Hx|exact Hw].
Qed.
Example C26_witness :
  structure_ok an_neg /\ structure_ok an_pos /\ has_negative_epsilon_cycles 4 an_neg = Ok true /\ has_negative_epsilon_cycles 4 an_pos = Ok false /\
  exists s r, cycle epsilon_arc an_neg s r /\ (path_weight r < 0)%Z.
Proof.
  split; [apply small_structure; [reflexivity|discriminate]|]. split; [apply small_structure; [reflexivity|discriminate]|]. split; [reflexivity|]. split; [reflexivity|].
  exists 1, [Arc 2 eps_ eps_ (-3); Arc 1 eps_ eps_ 2]. split; [|reflexivity]. split; [discriminate|]. split.
  - apply path_cons; [left; reflexivity|]. apply path_cons; [left; reflexivity|]. apply path_nil.
  - repeat constructor.
Qed.
Example C27_witness : is_infinitely_ambiguous 4 an_pos = Ok true /\ is_infinitely_ambiguous 5 an_acyc = Ok false /\ structure_ok an_acyc.
Proof. split; [reflexivity|]. split; [reflexivity|]. apply small_structure; [reflexivity|discriminate]. Qed.
Example C28_witness :
  is_lookup_infinitely_ambiguous 20 an_pos [B "a"; B "c"] = Ok true /\ is_lookup_infinitely_ambiguous 20 an_pos [B "c"; B "a"] = Ok false /\
  exists p q t r, [B "a"; B "c"] = p ++ q /\ reading an_pos 0 p t /\ cycle free_arc an_pos t r.
Proof.
  split; [reflexivity|]. split; [reflexivity|]. exists [B "a"], [B "c"], 1, [Arc 2 (B "@P.F.A@") eps_ (-3); Arc 1 eps_ eps_ 3]. split; [reflexivity|]. split.
  - apply rd_consume with (a := Arc 1 (B "a") (B "b") 0); [left; reflexivity| |apply rd_nil]. split; [|left; reflexivity]. rewrite <- epsilon_like_iff. discriminate.
  - split; [discriminate|]. split; [|constructor; [right; reflexivity|constructor; [left; reflexivity|constructor]]].
    apply path_cons; [left; reflexivity|]. apply path_cons; [left; reflexivity|]. apply path_nil.
Qed.
Lemma an_acyc_acyclic : acyclic an_acyc.
Proof.
  assert (Up : forall s r t, path an_acyc s r t -> s + length r <= t).
  { induction 1 as [|s a r t Ha P IH]; [simpl; lia|]. cbn [length]. assert (s < tgt a); [|lia].
    destruct s as [|[|[|[|s]]]]; simpl in Ha; [destruct Ha as [<-|[<-|[]]]|destruct Ha as [<-|[]]|destruct Ha as [<-|[]]|destruct Ha|destruct s; destruct Ha]; simpl; lia. }
  intros r s c _ C. apply Up in C. destruct c; [reflexivity|simpl in C; lia].
Qed.
Example C29_witness : structure_ok an_acyc /\ acyclic an_acyc /\ longest_path_size 5 an_acyc = Ok 3%Z /\ longest_path_size 2 (Graph [[]] [] []) = Ok (-1)%Z.
Proof. split; [apply small_structure; [reflexivity|discriminate]|]. split; [exact an_acyc_acyclic|]. split; reflexivity. Qed.
Example C61_witness : path_sizes 5 an_acyc = Ok [3; 2; 1].
Proof. reflexivity. Qed.
