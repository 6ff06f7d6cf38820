(** Properties C38-C40: compose-intersect. *)
From Coq Require Import Sorted.
From Verif Require Import Base Flags_Model BT_Model BT_Spec BT_Proofs Isect_Model CI_Model CI_Spec CI_Proofs CI_Proofs2 CI_Proofs3 CI_Proofs4.

(** * C38: transition sets are ordered sets *)
(** For every strict total order and every sequence of insertions, the set is in strict order,
    has no repetition, holds exactly what was inserted, and has_element answers membership. *)
Theorem C38_ordered_set (X : Type) (comparator equal : X -> X -> bool) :
  (forall x y, equal x y = true <-> x = y) -> (forall x, comparator x x = false) ->
  (forall x y z, comparator x y = true -> comparator y z = true -> comparator x z = true) ->
  (forall x y, comparator x y = false -> comparator y x = false -> x = y) ->
  forall inserted, let s := fold_left (fun s x => set_insert comparator equal x s) inserted [] in
    StronglySorted (fun x y => comparator x y = true) s /\ NoDup s
    /\ (forall x, In x s <-> In x inserted)
    /\ (forall x, has_element comparator equal x s = true <-> In x inserted).
Proof.
  intros He Hi Ht Hl inserted s.
  assert (G : forall l s, StronglySorted (fun x y => comparator x y = true) s ->
     StronglySorted (fun x y => comparator x y = true) (fold_left (fun s x => set_insert comparator equal x s) l s)
     /\ forall x, In x (fold_left (fun s x => set_insert comparator equal x s) l s) <-> In x l \/ In x s).
  { induction l as [|y l IH]; intros s0 S0; simpl; [split; [exact S0|intuition]|].
    destruct (IH (set_insert comparator equal y s0)) as [S1 M].
    { apply sorted_set_insert; assumption. }
    split; [exact S1|]. intros x. rewrite M, In_set_insert by exact He. intuition. }
  destruct (G inserted [] (SSorted_nil _)) as [S M]. fold s in S, M.
  assert (M' : forall x, In x s <-> In x inserted) by (intros x; rewrite M; simpl; tauto).
  split; [exact S|]. split; [|split; [exact M'|]].
  - clear -S Hi. induction S as [|x l S IH F]; [constructor|]. constructor; [|exact IH]. intros H. rewrite Forall_forall in F. apply F in H. congruence.
  - intros x. rewrite <- M'. apply has_element_In; assumption.
Qed.
Print Assumptions C38_ordered_set.
(** The comparator of transitions is such an order. *)
Theorem C38_transitions inserted : let s := fold_left (fun s x => trn_insert x s) inserted [] in
  StronglySorted (fun x y => trn_lt x y = true) s /\ NoDup s
  /\ (forall x, In x s <-> In x inserted) /\ (forall x, has_element trn_lt trn_eq x s = true <-> In x inserted).
Proof. apply (C38_ordered_set trn trn_lt trn_eq trn_eq_spec trn_lt_irrefl trn_lt_trans trn_lt_total). Qed.
Print Assumptions C38_transitions.
Example C38_witness :
  fold_left (fun s x => trn_insert x s) [Trn 1 2 0 3; Trn 1 1 5 0; Trn 0 9 0 0; Trn 1 2 0 3; Trn 1 1 (-1) 7] []
  = [Trn 0 9 0 0; Trn 1 1 (-1) 7; Trn 1 1 5 0; Trn 1 2 0 3].
Proof. reflexivity. Qed.

(** * C39: lazy rule pairs compute the intersection *)
(** Deterministic rules, any number of them, any queries made before and in between: the object
    accepts a pair sequence with weight w exactly when every rule does and w is the sum. *)
Theorem C39_lazy_intersection num sym : (forall x, sym (num x) = x) ->
  forall g gs, Forall (fun h => well_formed h /\ one_identity h /\ label_deterministic h) (g :: gs) ->
  forall r, queried num (rule_object num (rule_tree g gs)) r ->
  forall l w, object_accepts num r l w <-> exists ws, Forall2 (fun h v => rules_accept (One h) l v) (g :: gs) ws /\ w = sum ws.
Proof.
  intros SN g gs H r Q l w. rewrite <- rule_tree_accept.
  assert (O : okT (rule_tree g gs)) by (apply every_tree; eapply Forall_impl; [|exact H]; intros h (A & C & _); auto).
  assert (D : detT (rule_tree g gs)) by (apply every_tree; eapply Forall_impl; [|exact H]; intros h (_ & _ & C); auto).
  apply (object_accepts_iff num sym SN (rule_tree g gs) O); [|exact Q]. destruct (rule_tree g gs); [exact I|exact D].
Qed.
Print Assumptions C39_lazy_intersection.
(** The same for any nesting of pairs. *)
Theorem C39_any_nesting num sym : (forall x, sym (num x) = x) -> forall T, usable T ->
  forall r, queried num (rule_object num T) r -> forall l w, object_accepts num r l w <-> rules_accept T l w.
Proof. intros SN T U r Q l w. destruct (usable_fit T U) as [O F]. exact (object_accepts_iff num sym SN T O F r l w Q). Qed.
Print Assumptions C39_any_nesting.
(** A state that a walk has reached can be asked about: no exception, no failed assertion. *)
Theorem C39_queries_answered num sym : (forall x, sym (num x) = x) -> forall T, usable T ->
  forall r l v s, walks num (rule_object num T) 0 l v r s ->
  forall x, (exists r' set, get_transitions num r s (num x) = Ok (r', set)) /\ exists f, rule_final_weight r s = Ok f.
Proof. intros SN T U r l v s W x. destruct (usable_fit T U) as [O F]. exact (walks_safe num sym SN T O F r l v s x W). Qed.
Print Assumptions C39_queries_answered.

(** A numbering of all symbols, for the examples: the listed ones first. *)
Fixpoint bits_pos (l : list bool) : positive := match l with [] => xH | true :: l => xI (bits_pos l) | false :: l => xO (bits_pos l) end.
Fixpoint pos_bits (p : positive) : list bool := match p with xH => [] | xI p => true :: pos_bits p | xO p => false :: pos_bits p end.
Fixpoint bytes_bits (x : bstr) : list bool := match x with [] => [] | Ascii.Ascii a b c d e f g h :: x => a :: b :: c :: d :: e :: f :: g :: h :: bytes_bits x end.
Fixpoint bits_bytes (l : list bool) : bstr :=
  match l with a :: b :: c :: d :: e :: f :: g :: h :: l => Ascii.Ascii a b c d e f g h :: bits_bytes l | _ => [] end.
Lemma bits_inverse x : bits_bytes (pos_bits (bits_pos (bytes_bits x))) = x.
Proof.
  assert (P : forall l, pos_bits (bits_pos l) = l) by (induction l as [|[] l IH]; simpl; congruence).
  rewrite P. induction x as [|[a b c d e f g h] x IH]; simpl; [reflexivity|]. rewrite IH. reflexivity.
Qed.
Fixpoint position (x : bstr) (l : list bstr) : option nat :=
  match l with [] => None | y :: l => if bstr_eqb x y then Some 0 else option_map S (position x l) end.
Definition listed := [EPS; UNK; IDN; B "a"; B "b"; B "c"; B "@P.F.V@"; B "k"; B "g"].
Definition number (x : bstr) : nat :=
  match position x listed with Some n => n | None => length listed + Pos.to_nat (bits_pos (bytes_bits x)) end.
Definition symbol (n : nat) : bstr :=
  match nth_error listed n with Some x => x | None => bits_bytes (pos_bits (Pos.of_nat (n - length listed))) end.
Lemma position_nth x l n : position x l = Some n -> nth_error l n = Some x.
Proof.
  revert n. induction l as [|y l IH]; intros n H; [discriminate|]. cbn [position] in H. destruct (bstr_eqb x y) eqn:E.
  - injection H as <-. apply bstr_eqb_eq in E. subst. reflexivity.
  - destruct (position x l) as [m|]; [|discriminate]. injection H as <-. exact (IH m eq_refl).
Qed.
Lemma symbol_number x : symbol (number x) = x.
Proof.
  unfold symbol, number. destruct (position x listed) as [n|] eqn:E; [rewrite (position_nth _ _ _ E); reflexivity|].
  destruct (nth_error listed (length listed + Pos.to_nat (bits_pos (bytes_bits x)))) eqn:N.
  - exfalso. assert (K : nth_error listed (length listed + Pos.to_nat (bits_pos (bytes_bits x))) <> None) by congruence. apply nth_error_Some in K. lia.
  - rewrite Nat.add_comm, Nat.add_sub, Pos2Nat.id. apply bits_inverse.
Qed.

(** Two rules: the first turns a into b (weight 1) or leaves it, everything else unchanged; the
    second forbids b:b next to another one. *)
Definition specials := [EPS; IDN; UNK].
Definition rule_one := Graph [[Arc 0 (B "a") (B "b") 1; Arc 0 (B "a") (B "a") 0; Arc 0 (B "b") (B "b") 0; Arc 0 IDN IDN 0]]
  [(0, 0%Z)] (specials ++ [B "a"; B "b"]).
Definition rule_two := Graph [[Arc 1 (B "a") (B "b") 2; Arc 0 (B "a") (B "a") 0; Arc 0 (B "b") (B "b") 0; Arc 0 IDN IDN 0]; [Arc 0 (B "a") (B "a") 0; Arc 0 IDN IDN 0]]
  [(0, 0%Z); (1, 5%Z)] (specials ++ [B "a"; B "b"]).
Lemma in_ (x : bstr) l : existsb (bstr_eqb x) l = true -> In x l.
Proof. intros H. apply existsb_exists in H. destruct H as (y & Hy & E). apply bstr_eqb_eq in E. subst. exact Hy. Qed.
Lemma not_in_ (x : bstr) l : existsb (bstr_eqb x) l = false -> ~ In x l.
Proof. intros H K. assert (E : existsb (bstr_eqb x) l = true) by (apply existsb_exists; exists x; auto using bstr_eqb_refl). congruence. Qed.
Lemma rule_one_ok : well_formed rule_one /\ one_identity rule_one /\ label_deterministic rule_one.
Proof.
  split; [|split].
  - split; [|split].
    + split; [discriminate|]. split.
      * intros [|[|s]] a H; simpl in H; [|destruct H|destruct H]. destruct H as [<-|[<-|[<-|[<-|[]]]]]; simpl; lia.
      * intros s w H. apply (mget_In _ Nat.compare_eq_iff) in H. destruct H as [H|[]]. injection H as <- <-. simpl. lia.
    + intros [|[|s]] a H; simpl in H; [|destruct H|destruct H]. destruct H as [<-|[<-|[<-|[<-|[]]]]]; split; apply in_; reflexivity.
    + split; [|split]; apply in_; reflexivity.
  - intros [|[|s]]; vm_compute; lia.
  - intros [|[|s]] a b Ha Hb E1 E2; simpl in Ha, Hb; [|destruct Ha|destruct Ha].
    destruct Ha as [<-|[<-|[<-|[<-|[]]]]]; destruct Hb as [<-|[<-|[<-|[<-|[]]]]]; try reflexivity; vm_compute in E1, E2; discriminate.
Qed.
Lemma rule_two_ok : well_formed rule_two /\ one_identity rule_two /\ label_deterministic rule_two.
Proof.
  split; [|split].
  - split; [|split].
    + split; [discriminate|]. split.
      * intros [|[|[|s]]] a H; simpl in H; [| |destruct H|destruct H].
        -- destruct H as [<-|[<-|[<-|[<-|[]]]]]; simpl; lia.
        -- destruct H as [<-|[<-|[]]]; simpl; lia.
      * intros s w H. apply (mget_In _ Nat.compare_eq_iff) in H. destruct H as [H|[H|[]]]; injection H as <- <-; simpl; lia.
    + intros [|[|[|s]]] a H; simpl in H; [| |destruct H|destruct H].
      * destruct H as [<-|[<-|[<-|[<-|[]]]]]; split; apply in_; reflexivity.
      * destruct H as [<-|[<-|[]]]; split; apply in_; reflexivity.
    + split; [|split]; apply in_; reflexivity.
  - intros [|[|[|s]]]; vm_compute; lia.
  - intros [|[|[|s]]] a b Ha Hb E1 E2; simpl in Ha, Hb; [| |destruct Ha|destruct Ha].
    + destruct Ha as [<-|[<-|[<-|[<-|[]]]]]; destruct Hb as [<-|[<-|[<-|[<-|[]]]]]; try reflexivity; vm_compute in E1, E2; discriminate.
    + destruct Ha as [<-|[<-|[]]]; destruct Hb as [<-|[<-|[]]]; try reflexivity; vm_compute in E1, E2; discriminate.
Qed.
(** a:b c:c is accepted with weight (1+2)+0; after one a:b a second one is not. *)
Example C39_witness : Forall (fun h => well_formed h /\ one_identity h /\ label_deterministic h) [rule_one; rule_two]
  /\ (exists r, queried number (rule_object number (rule_tree rule_one [rule_two])) r
        /\ object_accepts number r [(B "a", B "b"); (B "c", B "c")] 3
        /\ forall w, ~ object_accepts number r [(B "a", B "b"); (B "a", B "b")] w).
Proof.
  assert (H : Forall (fun h => well_formed h /\ one_identity h /\ label_deterministic h) [rule_one; rule_two])
    by (constructor; [exact rule_one_ok|constructor; [exact rule_two_ok|constructor]]).
  split; [exact H|]. exists (rule_object number (rule_tree rule_one [rule_two])). split; [constructor|]. split.
  - apply (C39_lazy_intersection number symbol symbol_number rule_one [rule_two] H); [constructor|]. exists [1%Z; 2%Z]. split; [|reflexivity].
    constructor; [|constructor; [|constructor]].
    + exists (At 0), 1%Z, 0%Z. split; [|split; reflexivity]. apply (follows_cons _ _ _ _ 1 (At 0) _ 0).
      * apply (reads_arc rule_one 0 (Arc 0 (B "a") (B "b") 1)); [left; reflexivity|discriminate].
      * apply (follows_cons _ _ _ _ 0 (At 0) _ 0); [|constructor]. apply (reads_identity rule_one 0 (Arc 0 IDN IDN 0)); [do 3 right; left; reflexivity|reflexivity|].
        apply not_in_. reflexivity.
    + exists (At 0), 2%Z, 0%Z. split; [|split; reflexivity]. apply (follows_cons _ _ _ _ 2 (At 1) _ 0).
      * apply (reads_arc rule_two 0 (Arc 1 (B "a") (B "b") 2)); [left; reflexivity|discriminate].
      * apply (follows_cons _ _ _ _ 0 (At 0) _ 0); [|constructor]. apply (reads_identity rule_two 1 (Arc 0 IDN IDN 0)); [right; left; reflexivity|reflexivity|].
        apply not_in_. reflexivity.
  - intros w K. apply (C39_lazy_intersection number symbol symbol_number rule_one [rule_two] H) in K; [|constructor].
    destruct K as (ws & F & _). inversion F as [|? ? ? ? _ F2]; subst. inversion F2 as [|? ? ? ? (p & v & f & Fo & _) _]; subst.
    inversion Fo as [|? ? ? w1 q1 ? ? ? R1 Fo1]; subst. inversion Fo1 as [|? ? ? w2 q2 ? ? ? R2 _]; subst. cbn [start] in R1.
    inversion R1 as [g0 s0 a0 Ha0 Na0 E0|g0 s0 a0 x0 Ha0 Ia0 Xa0 E0|]; subst.
    assert (T1 : tgt a0 = 1).
    { simpl in Ha0. destruct Ha0 as [<-|[<-|[<-|[<-|[]]]]]; try reflexivity; vm_compute in *; discriminate. }
    rewrite T1 in R2. inversion R2 as [g1 s1 a1 Ha1 Na1 E1|g1 s1 a1 x1 Ha1 Ia1 Xa1 E1|]; subst.
    simpl in Ha1. destruct Ha1 as [<-|[<-|[]]]; vm_compute in *; discriminate.
Qed.

(** Not for rules with several transitions of the same label in a state: the pair of these two
    rules accepts a:a, but the object answers a single transition, to a state that is not final. *)
Definition split_rule := Graph [[Arc 1 (B "a") (B "a") 0; Arc 2 (B "a") (B "a") 0]; []; []] [(2, 0%Z)] (specials ++ [B "a"]).
Definition plain_rule := Graph [[Arc 1 (B "a") (B "a") 0]; []] [(1, 0%Z)] (specials ++ [B "a"]).
Theorem C39_nondeterministic_refuted : exists g1 g2, (well_formed g1 /\ one_identity g1) /\ (well_formed g2 /\ one_identity g2) /\
  rules_accept (Both (One g1) (One g2)) [(B "a", B "a")] 0 /\
  exists r t, get_transitions number (rule_object number (Both (One g1) (One g2))) 0 (number (B "a")) = Ok (r, [t])
    /\ rule_final_weight r (t_to t) = Ok None.
Proof.
  exists split_rule, plain_rule. split; [|split; [|split]].
  - split; [|intros [|[|[|[|s]]]]; vm_compute; lia]. split; [|split].
    + split; [discriminate|]. split.
      * intros [|[|[|[|s]]]] a H; simpl in H; try destruct H as [<-|[<-|[]]]; try destruct H; simpl; lia.
      * intros s w H. apply (mget_In _ Nat.compare_eq_iff) in H. destruct H as [H|[]]. injection H as <- <-. simpl. lia.
    + intros [|[|[|[|s]]]] a H; simpl in H; try destruct H as [<-|[<-|[]]]; try destruct H; split; apply in_; reflexivity.
    + split; [|split]; apply in_; reflexivity.
  - split; [|intros [|[|[|s]]]; vm_compute; lia]. split; [|split].
    + split; [discriminate|]. split.
      * intros [|[|[|s]]] a H; simpl in H; try destruct H as [<-|[]]; try destruct H; simpl; lia.
      * intros s w H. apply (mget_In _ Nat.compare_eq_iff) in H. destruct H as [H|[]]. injection H as <- <-. simpl. lia.
    + intros [|[|[|s]]] a H; simpl in H; try destruct H as [<-|[]]; try destruct H; split; apply in_; reflexivity.
    + split; [|split]; apply in_; reflexivity.
  - exists (AtBoth (At 2) (At 1)), 0%Z, 0%Z. split; [|split; reflexivity].
    apply (follows_cons _ _ _ _ 0 (AtBoth (At 2) (At 1)) _ 0); [|constructor]. apply (reads_both _ _ _ _ _ _ 0 0).
    + apply (reads_arc split_rule 0 (Arc 2 (B "a") (B "a") 0)); [right; left; reflexivity|discriminate].
    + apply (reads_arc plain_rule 0 (Arc 1 (B "a") (B "a") 0)); [left; reflexivity|discriminate].
  - eexists _, _. split; [vm_compute; reflexivity|vm_compute; reflexivity].
Qed.
Print Assumptions C39_nondeterministic_refuted.

(** * C40: compose-intersect is composition with the rules *)
(** compose_with_rules ends, and its result accepts exactly the joined paths of the lexicon and
    the rules, weights added.  One rule need not be deterministic.  [eps] is left by earlier
    calls, [r] is a rule object that may have been used before.
    Missing: several rules must be deterministic and know no flag diacritics (refuted below),
    and the identity symbol of the lexicon matches nothing (refuted below). *)
Theorem C40_joined_paths_partial num sym : (forall x, sym (num x) = x) ->
  forall g T, well_formed g -> identity_outputs g -> usable T -> no_flags_in_pairs T ->
  forall r eps fuel, queried num (rule_object num T) r -> length (sts g) * places T < fuel ->
  exists h, compose_with_rules num sym fuel (make_lexicon num g) eps r = Ok h /\ structure_ok h /\
    forall l w, accepts h l w <->
      exists pl pr w1 w2, accepts g pl w1 /\ rules_accept T pr w2 /\ joined T pl pr l /\ w = (w1 + w2)%Z.
Proof.
  intros SN g T WF IO U NF r eps fuel Q Hf. destruct (usable_fit T U) as [O F].
  exact (composition num sym SN T O F g r fuel eps WF IO NF Q Hf).
Qed.
Print Assumptions C40_joined_paths_partial.

(** The lexicon k:a eps:c, with a flag diacritic in between, composed with the two rules above. *)
Definition flag := B "@P.F.V@".
Definition small_lexicon := Graph [[Arc 1 (B "k") (B "a") 2]; [Arc 2 flag flag 0]; [Arc 3 EPS (B "c") 0]; []] [(3, 1%Z)]
  (specials ++ [B "a"; B "c"; B "k"; flag]).
Example C40_witness : well_formed small_lexicon /\ identity_outputs small_lexicon /\ usable (Both (One rule_one) (One rule_two))
  /\ no_flags_in_pairs (Both (One rule_one) (One rule_two))
  /\ exists h, compose_with_rules number symbol 9 (make_lexicon number small_lexicon) [] (rule_object number (Both (One rule_one) (One rule_two))) = Ok h
        /\ accepts h [(B "k", B "b"); (flag, flag); (EPS, B "c")] 6.
Proof.
  split; [|split; [|split; [|split]]].
  - split; [|split].
    + split; [discriminate|]. split.
      * intros [|[|[|[|[|s]]]]] a H; simpl in H; try destruct H as [<-|[]]; try destruct H; simpl; lia.
      * intros s w H. apply (mget_In _ Nat.compare_eq_iff) in H. destruct H as [H|[]]. injection H as <- <-. simpl. lia.
    + intros [|[|[|[|[|s]]]]] a H; simpl in H; try destruct H as [<-|[]]; try destruct H; split; apply in_; reflexivity.
    + split; [|split]; apply in_; reflexivity.
  - intros [|[|[|[|[|s]]]]] a H K; simpl in H; try destruct H as [<-|[]]; try destruct H; vm_compute in K; discriminate.
  - destruct rule_one_ok as (A1 & A2 & A3), rule_two_ok as (B1 & B2 & B3). split; [exact (conj (conj A1 A2) (conj B1 B2))|exact (conj A3 B3)].
  - intros x D K. assert (M : In x (alpha rule_one)) by (destruct K; assumption). simpl in M.
    repeat (destruct M as [<-|M]; [vm_compute in D; discriminate|]). exact M.
  - eexists. split; [vm_compute; reflexivity|]. exists 5, 5%Z, 1%Z. split; [|split; reflexivity].
    apply (run_cons _ 0 (Arc 2 (B "k") (B "b") 5) _ 0); [right; left; reflexivity|]. apply (run_cons _ 2 (Arc 4 flag flag 0) _ 0); [left; reflexivity|].
    apply (run_cons _ 4 (Arc 5 EPS (B "c") 0) _ 0); [left; reflexivity|]. constructor.
Qed.

(** The identity symbol: lexicon and rule both have a path IDN:IDN; the result has none. *)
Definition identity_word := Graph [[Arc 1 IDN IDN 0]; []] [(1, 0%Z)] specials.
Theorem C40_identity_refuted : exists g, well_formed g /\ usable (One g) /\ accepts g [(IDN, IDN)] 0 /\
  exists h, compose_with_rules number symbol 9 (make_lexicon number g) [] (rule_object number (One g)) = Ok h /\ forall l w, ~ accepts h l w.
Proof.
  assert (WF : well_formed identity_word).
  { split; [|split].
    - split; [discriminate|]. split.
      + intros [|[|[|s]]] a H; simpl in H; try destruct H as [<-|[]]; try destruct H; simpl; lia.
      + intros s w H. apply (mget_In _ Nat.compare_eq_iff) in H. destruct H as [H|[]]. injection H as <- <-. simpl. lia.
    - intros [|[|[|s]]] a H; simpl in H; try destruct H as [<-|[]]; try destruct H; split; apply in_; reflexivity.
    - split; [|split]; apply in_; reflexivity. }
  exists identity_word. split; [exact WF|]. split; [|split].
  - split; [|exact I]. split; [exact WF|]. intros [|[|[|s]]]; vm_compute; lia.
  - exists 1, 0%Z, 0%Z. split; [|split; reflexivity]. apply (run_cons _ 0 (Arc 1 IDN IDN 0) _ 0); [left; reflexivity|constructor].
  - eexists. split; [vm_compute; reflexivity|]. intros l w (t & v & f & _ & F & _). discriminate.
Qed.
Print Assumptions C40_identity_refuted.

(** Flag diacritics: both rules have the flag in their alphabets and no transition for it, so no
    joined path passes it; the composition with the pair does. *)
Definition strict_rule := Graph [[Arc 0 (B "a") (B "a") 0]] [(0, 0%Z)] (specials ++ [flag; B "a"]).
Definition flag_word := Graph [[Arc 1 flag flag 0]; []] [(1, 0%Z)] (specials ++ [flag]).
Theorem C40_flags_refuted : exists g T h, well_formed g /\ identity_outputs g /\ usable T /\
  compose_with_rules number symbol 9 (make_lexicon number g) [] (rule_object number T) = Ok h /\ accepts h [(flag, flag)] 0 /\
  ~ exists pl pr w1 w2, accepts g pl w1 /\ rules_accept T pr w2 /\ joined T pl pr [(flag, flag)] /\ 0%Z = (w1 + w2)%Z.
Proof.
  assert (WF : well_formed strict_rule).
  { split; [|split].
    - split; [discriminate|]. split.
      + intros [|[|s]] a H; simpl in H; try destruct H as [<-|[]]; try destruct H; simpl; lia.
      + intros s w H. apply (mget_In _ Nat.compare_eq_iff) in H. destruct H as [H|[]]. injection H as <- <-. simpl. lia.
    - intros [|[|s]] a H; simpl in H; try destruct H as [<-|[]]; try destruct H; split; apply in_; reflexivity.
    - split; [|split]; apply in_; reflexivity. }
  assert (D : label_deterministic strict_rule).
  { intros [|[|s]] a b Ha Hb _ _; simpl in Ha, Hb; try (destruct Ha; fail). destruct Ha as [<-|[]]. destruct Hb as [<-|[]]. reflexivity. }
  assert (OI : one_identity strict_rule) by (intros [|[|s]]; vm_compute; lia).
  exists flag_word, (Both (One strict_rule) (One strict_rule)). eexists. split; [|split; [|split; [|split; [vm_compute; reflexivity|split]]]].
  - split; [|split].
    + split; [discriminate|]. split.
      * intros [|[|[|s]]] a H; simpl in H; try destruct H as [<-|[]]; try destruct H; simpl; lia.
      * intros s w H. apply (mget_In _ Nat.compare_eq_iff) in H. destruct H as [H|[]]. injection H as <- <-. simpl. lia.
    + intros [|[|[|s]]] a H; simpl in H; try destruct H as [<-|[]]; try destruct H; split; apply in_; reflexivity.
    + split; [|split]; apply in_; reflexivity.
  - intros [|[|[|s]]] a H K; simpl in H; try destruct H as [<-|[]]; try destruct H; vm_compute in K; discriminate.
  - split; [exact (conj (conj WF OI) (conj WF OI))|exact (conj D D)].
  - exists 1, 0%Z, 0%Z. split; [|split; reflexivity]. apply (run_cons _ 0 (Arc 1 flag flag 0) _ 0); [left; reflexivity|constructor].
  - intros (pl & pr & w1 & w2 & _ & (p & v & f & Fo & _) & J & _).
    assert (K : knows (Both (One strict_rule) (One strict_rule)) flag) by (left; apply in_; reflexivity).
    inversion J as [|? ? pl0 ? ? U J1|i x y pl0 pr0 ? U J1|y pl0 pr0 ? J1]; subst.
    + destruct U as [U|[_ U]]; [discriminate|exact (U K)].
    + inversion Fo as [|? ? ? w0 q0 ? ? ? R _]; subst. cbn [start] in R. inversion R as [| |? ? ? ? ? ? ? ? ? ? R1 _]; subst.
      inversion R1 as [g0 s0 a Ha Na E|g0 s0 a x0 Ha Ia Xa E|]; subst.
      * simpl in Ha. destruct Ha as [<-|[]]. vm_compute in *. discriminate.
      * simpl in Ha. destruct Ha as [<-|[]]. discriminate.
Qed.
Print Assumptions C40_flags_refuted.
