(** Properties C97-C103: minimisation, tests and difference in the SFST back end. *)
From Verif Require Import Base SF_Spec SF_Model SF_Proofs5 SF_Proofs7 SM_Model SM_Proofs5 SM_Proofs6 SM_Proofs7 SM_Proofs8 SF_Props.

(** C97: minimisation, by either algorithm, changes nothing that is accepted, keeps the alphabet, and
    no deterministic transducer that accepts the same has fewer nodes. *)
Theorem C97_minimize : forall hopcroft t, trans_ok t -> exists r, minimize hopcroft t = Ok r /\ trans_ok r /\
  mini r = true /\ same_lang r t /\ (forall l, In l (labels t) -> In l (labels r)) /\
  deterministic (nodes r) /\
  (forall u, trans_ok u -> deterministic (nodes u) -> same_lang u t -> length (nodes r) <= length (nodes u)).
Proof.
  intros hop t T. destruct (minimise_correct hop t T) as (r & E & R & M & _ & A & L & _). unfold minimize. rewrite E. cbn [rmap rbind].
  eexists. split; [reflexivity|]. destruct R as (R1 & R2 & R3 & R4). split; [|split; [exact M|split; [exact L|split; [|split]]]].
  - split; [exact R1|]. split; [exact R2|]. split; [exact R3|]. apply no_eps_insert, R4.
  - intros l Hl. apply In_insert_labels. right. split; [exact Hl|]. intros ->. exact (proj2 (proj2 (proj2 T)) Hl).
  - exact (proj1 (R3 M)).
  - intros u U D S. apply (smallest (nodes r) (nodes u) R1 (R3 M) A (proj1 U) D). intros w. rewrite (L w). symmetry. exact (S w).
Qed.
Print Assumptions C97_minimize.
(** Both algorithms give transducers of the same size. *)
Theorem C97_algorithms_agree : forall t a b, trans_ok t -> minimize true t = Ok a -> minimize false t = Ok b ->
  length (nodes a) = length (nodes b).
Proof.
  intros t a b T A B. destruct (C97_minimize true t T) as (a' & A' & Ta & _ & La & _ & Da & Sa). rewrite A in A'. injection A' as <-.
  destruct (C97_minimize false t T) as (b' & B' & Tb & _ & Lb & _ & Db & Sb). rewrite B in B'. injection B' as <-.
  apply Nat.le_antisymm; [exact (Sa b Tb Db Lb)|exact (Sb a Ta Da La)].
Qed.
Print Assumptions C97_algorithms_agree.
(** A transducer with two nodes that accept the same, and one that accepts nothing. *)
Definition tdup : trans :=
  Trans [Node [] [((1, 1), 1); ((2, 2), 2); ((1, 2), 3)] false; Node [] [] true; Node [] [] true; Node [] [((1, 1), 3)] false] true false [(1, 1); (2, 2); (1, 2)].
Lemma tdup_ok : trans_ok tdup.
Proof.
  split; [|split; [|split; [discriminate|]]].
  - split; [discriminate|]. cbn [nodes tdup length]. intros n Hn. destruct n as [|[|[|[|n]]]]; [| | | |lia]; cbn; (split; [intros l t H|intros t H]);
      repeat (destruct H as [H|H]; [injection H; intros; subst; try lia; try discriminate|]); try destruct H.
  - intros _ n _. destruct n as [|[|[|[|n]]]]; cbn; split; try reflexivity; try (repeat constructor; cbn; intros H; repeat (destruct H as [H|H]; [discriminate|]); destruct H).
    + destruct n; reflexivity.
    + destruct n; constructor.
  - cbn. intros H; repeat (destruct H as [H|H]; [discriminate|]); destruct H.
Qed.
Example C97_witness : trans_ok tdup /\ length (nodes tdup) = 4 /\
  (exists r, minimize true tdup = Ok r /\ length (nodes r) = 2) /\ (exists r, minimize false tdup = Ok r /\ length (nodes r) = 2).
Proof. split; [exact tdup_ok|]. split; [reflexivity|]. split; eexists; (split; [vm_compute; reflexivity|reflexivity]). Qed.

(** C98: is_empty answers whether nothing is accepted; the test for the empty string whether it is. *)
Theorem C98_is_empty : forall hopcroft t, trans_ok t -> exists b, is_empty hopcroft t = Ok b /\ (b = true <-> forall w, ~ lang t w).
Proof. exact is_empty_correct. Qed.
Print Assumptions C98_is_empty.
Theorem C98_empty_string : forall hopcroft t, trans_ok t -> exists b, generates_empty_string hopcroft t = Ok b /\ (b = true <-> lang t []).
Proof. exact generates_empty_string_correct. Qed.
Print Assumptions C98_empty_string.
(** A transducer that has transitions but accepts nothing. *)
Definition tnone : trans := Trans [Node [1] [((1, 1), 0)] false; Node [] [((1, 2), 1)] false] false false [(1, 1); (1, 2)].
Lemma tnone_ok : trans_ok tnone.
Proof.
  split; [|split; [discriminate|split; [discriminate|]]].
  - split; [discriminate|]. cbn [nodes tnone length]. intros n Hn. destruct n as [|[|n]]; [| |lia]; cbn; (split; [intros l t H|intros t H]);
      repeat (destruct H as [H|H]; [injection H; intros; subst; try lia; try discriminate|]); try destruct H.
  - cbn. intros H; repeat (destruct H as [H|H]; [discriminate|]); destruct H.
Qed.
Example C98_witness : trans_ok tnone /\ is_empty true tnone = Ok true /\ is_empty false tnone = Ok true /\ is_empty true tdup = Ok false /\
  generates_empty_string true tab = Ok true /\ generates_empty_string false tdup = Ok false.
Proof. split; [exact tnone_ok|]. vm_compute. auto 6. Qed.
(** Refuted for transducers made by free insertion, C92: what was minimal and accepted nothing still
    says that it is minimal after a loop has been put in, so that it is no longer found to be
    empty, nor to be equivalent to what it was. *)
Theorem C92_minimal_refuted : exists t l r, trans_ok t /\ l <> (0, 0) /\ freely_insert l t = Ok r /\
  (forall w, ~ lang t w) /\ (forall w, ~ lang r w) /\ is_empty true t = Ok true /\ is_empty true r = Ok false /\ are_equivalent true t r = Ok false.
Proof.
  exists (Trans [Node [] [] false] true true []), (1, 1). eexists.
  assert (F : forall h n w, forallb (fun d => negb (final d)) h = true -> ~ reads h n w).
  { intros h n w Hf R. induction R as [n Fn|]; [|assumption]. rewrite forallb_forall in Hf.
    destruct (Nat.lt_ge_cases n (length h)) as [Hn|Hn]; [|unfold node_at in Fn; rewrite nth_overflow in Fn by exact Hn; discriminate].
    specialize (Hf (node_at h n) (nth_In _ _ Hn)). rewrite Fn in Hf. discriminate. }
  split; [|split; [discriminate|split; [vm_compute; reflexivity|]]].
  - assert (D : deterministic [Node [] [] false]).
    { intros [|n] _; cbn; [split; [reflexivity|constructor]|destruct n; split; try reflexivity; constructor]. }
    split; [|split; [intros _; exact D|split; [intros _; split; [exact D|split]|intros []]]].
    + split; [discriminate|]. intros n Hn. cbn in Hn. assert (n = 0) by lia. subst. cbn. split; [intros l t []|intros t []].
    + intros n m Hn Hm _. inversion Hn as [|n' l k j Hi]; [|destruct Hi]. inversion Hm as [|n'' l k j Hi]; [|destruct Hi]. reflexivity.
    + intros n l t _ Hi. destruct n as [|[|n]]; destruct Hi.
  - split; [intros w; apply F; reflexivity|]. split; [intros w; apply F; reflexivity|]. vm_compute. auto.
Qed.
Print Assumptions C92_minimal_refuted.

(** C99: subtraction accepts what the first transducer accepts and the second does not. *)
Theorem C99_subtract : forall hopcroft t u, trans_ok t -> trans_ok u -> exists r, subtract hopcroft t u = Ok r /\ trans_ok r /\
  det r = true /\ forall w, lang r w <-> lang t w /\ ~ lang u w.
Proof. exact subtract_correct. Qed.
Print Assumptions C99_subtract.
Example C99_witness : exists r, subtract true tab ta = Ok r /\ lang r [(2, 0)].
Proof.
  destruct (C99_subtract true tab ta tab_ok ta_ok) as (r & E & _ & _ & L). exists r. split; [exact E|]. apply L. split; [exact tab_lang|].
  intros R. unfold lang in R. apply (SF_Proofs8.det_reads_cons _ _ _ _ (proj1 ta_ok) (proj1 (proj2 ta_ok) eq_refl)) in R; [|constructor].
  destruct R as (t & [Hi|[]] & _). discriminate.
Qed.

(** C100: the complement accepts, of the strings over the alphabet, those that the transducer does not
    accept, and no others if the alphabet has all the labels used.  Without labels it is refused. *)
Theorem C100_negate : forall hopcroft t, trans_ok t -> labels t <> [] -> exists r, negation hopcroft t = Ok r /\ trans_ok r /\
  (forall w, (forall l, In l w -> In l (labels t)) -> (lang r w <-> ~ lang t w)) /\
  ((forall v l, lang t v -> In l v -> In l (labels t)) -> forall w, lang r w -> forall l, In l w -> In l (labels t)).
Proof.
  intros hop t T N. destruct (negation_correct hop t T N) as (r & E & R & _ & _ & L & S & _). exists r. split; [exact E|]. split; [exact R|]. split; [exact L|].
  intros H. apply S. intros l (v & Hv & Hl). exact (H v l Hv Hl).
Qed.
Print Assumptions C100_negate.
Theorem C100_refused : forall hopcroft t, labels t = [] -> negation hopcroft t = Throw.
Proof. exact negation_throws. Qed.
Print Assumptions C100_refused.
Example C100_witness : exists r, negation true ta = Ok r /\ lang r [(1, 1); (1, 1)] /\ ~ lang r [(1, 1)].
Proof.
  destruct (C100_negate true ta ta_ok) as (r & E & _ & L & _); [discriminate|]. exists r. split; [exact E|]. split.
  - apply L; [intros l [<-|[<-|[]]]; left; reflexivity|]. intros R. unfold lang in R.
    apply (SF_Proofs8.det_reads_cons _ _ _ _ (proj1 ta_ok) (proj1 (proj2 ta_ok) eq_refl)) in R; [|constructor].
    destruct R as (t & [Hi|[]] & R). injection Hi as <-. apply (SF_Proofs8.det_reads_cons _ _ _ _ (proj1 ta_ok) (proj1 (proj2 ta_ok) eq_refl)) in R; [destruct R as (t & [] & _)|].
    econstructor; [left; reflexivity|constructor].
  - intros C. apply L in C; [exact (C ta_lang)|]. intros l [<-|[]]. left. reflexivity.
Qed.

(** C101: two transducers are found to be equivalent exactly if they accept the same label strings. *)
Theorem C101_are_equivalent : forall hopcroft t u, trans_ok t -> trans_ok u -> exists b, are_equivalent hopcroft t u = Ok b /\
  (b = true <-> same_lang t u).
Proof. exact are_equivalent_correct. Qed.
Print Assumptions C101_are_equivalent.
(** [ta] once more, with a node too many and an epsilon transition. *)
Definition ta2 : trans := Trans [Node [2] [] false; Node [] [] true; Node [] [((1, 1), 1)] false] false false [(1, 1)].
Lemma ta2_ok : trans_ok ta2.
Proof.
  split; [|split; [discriminate|split; [discriminate|]]].
  - split; [discriminate|]. cbn [nodes ta2 length]. intros n Hn. destruct n as [|[|[|n]]]; [| | |lia]; cbn; (split; [intros l t H|intros t H]);
      repeat (destruct H as [H|H]; [injection H; intros; subst; try lia; try discriminate|]); try destruct H.
  - cbn. intros H; repeat (destruct H as [H|H]; [discriminate|]); destruct H.
Qed.
Example C101_witness : trans_ok ta2 /\ are_equivalent true ta ta2 = Ok true /\ are_equivalent false ta2 ta = Ok true /\ are_equivalent true ta tab = Ok false.
Proof. split; [exact ta2_ok|]. vm_compute. auto. Qed.

(** C102: a transducer is found to be cyclic exactly if a way from its root comes to a node twice, and
    to be an automaton exactly if the two sides of every label on a way from the root are equal. *)
Theorem C102_is_cyclic : forall t, trans_ok t -> exists b, is_cyclic t = Ok b /\
  (b = true <-> exists n l m, reachable (nodes t) 0 n /\ In (l, m) (out (node_at (nodes t) n)) /\ reachable (nodes t) m n).
Proof. intros t T. exact (is_cyclic_correct t (proj1 T)). Qed.
Print Assumptions C102_is_cyclic.
Theorem C102_is_automaton : forall t, trans_ok t -> exists b, is_automaton t = Ok b /\
  (b = true <-> forall n l m, reachable (nodes t) 0 n -> In (l, m) (out (node_at (nodes t) n)) -> fst l = snd l).
Proof. intros t T. exact (is_automaton_correct t (proj1 T)). Qed.
Print Assumptions C102_is_automaton.
Example C102_witness : is_cyclic tab = Ok true /\ is_cyclic ta2 = Ok false /\ is_automaton tab = Ok false /\ is_automaton ta2 = Ok true.
Proof. vm_compute. auto. Qed.

(** C103: the projections of the back end accept the label strings with every label replaced by its
    input (output) symbol on both sides and the unknown symbol, number 1, by the identity, number 2. *)
Definition known (s : nat) : nat := if s =? 1 then 2 else s.
Theorem C103_input_language : forall t, trans_ok t -> exists r, extract_language true t = Ok r /\ trans_ok r /\
  forall w, lang r w <-> exists u, lang t u /\ w = relabel (fun l => (known (fst l), known (fst l))) u.
Proof. exact (extract_language_correct true). Qed.
Print Assumptions C103_input_language.
Theorem C103_output_language : forall t, trans_ok t -> exists r, extract_language false t = Ok r /\ trans_ok r /\
  forall w, lang r w <-> exists u, lang t u /\ w = relabel (fun l => (known (snd l), known (snd l))) u.
Proof. exact (extract_language_correct false). Qed.
Print Assumptions C103_output_language.
Example C103_witness : exists r, extract_language true ta = Ok r /\ lang r [(2, 2)].
Proof.
  destruct (C103_input_language ta ta_ok) as (r & E & _ & L). exists r. split; [exact E|]. apply L. exists [(1, 1)]. split; [exact ta_lang|reflexivity].
Qed.
