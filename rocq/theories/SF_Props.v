(** Properties C85-C96: the operations of the SFST back end. *)
From Verif Require Import Base SF_Spec SF_Model SF_Proofs5 SF_Proofs6 SF_Proofs7 SF_Proofs8 SF_Proofs9.

(** Two concrete transducers: [ta] accepts a:a and says that it is minimal; [tab] accepts
    a:b and, after an epsilon transition, any number of b:0. *)
Definition ta : trans := Trans [Node [] [((1, 1), 1)] false; Node [] [] true] true true [(1, 1)].
Definition tab : trans :=
  Trans [Node [2] [((1, 2), 1)] false; Node [] [] true; Node [] [((2, 0), 2)] true] false false [(1, 2); (2, 0)].
Ltac in_list := repeat match goal with H : In _ _ |- _ => progress cbn in H | H : _ \/ _ |- _ => destruct H | H : False |- _ => destruct H end.
Lemma node_out_of_range h n l t : In (l, t) (out (node_at h n)) -> n < length h.
Proof.
  intros H. destruct (Nat.lt_ge_cases n (length h)) as [Hn|Hn]; [exact Hn|].
  unfold node_at in H. rewrite nth_overflow in H by exact Hn. destruct H.
Qed.
Lemma ta_reach n : reachable (nodes ta) 0 n -> n = 0 \/ n = 1.
Proof.
  inversion 1 as [|n' l m k Hi R]; subst; [auto|]. destruct Hi as [Hi|[]]. injection Hi as <- <-.
  inversion R as [|n' l' m k Hi' R']; subst; [auto|destruct Hi'].
Qed.
Lemma ta_ok : trans_ok ta.
Proof.
  assert (D : deterministic (nodes ta)).
  { intros n Hn. destruct (ta_reach n Hn) as [-> | ->]; cbn; split; try reflexivity; repeat constructor; intros []. }
  split; [|split; [intros _; exact D|split]].
  - split; [discriminate|]. cbn [nodes ta length]. intros n Hn. destruct n as [|[|n]]; [| |lia]; cbn; split.
    + intros l t [H|[]]. injection H as <- <-. lia.
    + intros t [H|[]]. discriminate.
    + intros l t [].
    + intros t [].
  - intros _. split; [exact D|]. split.
    + assert (N : ~ forall w, reads (nodes ta) 0 w <-> reads (nodes ta) 1 w).
      { intros C. assert (R1 : reads (nodes ta) 1 [(1, 1)]).
        { apply C. change [(1, 1)] with (emit (1, 1) []). apply reads_step with 1; [left; reflexivity|constructor; reflexivity]. }
        remember [(1, 1)] as w1 eqn:Ew1. inversion R1 as [n' F'|n' l t w' Hi R']; subst; [discriminate|destruct Hi]. }
      intros n m Hn Hm E. destruct (ta_reach n Hn) as [-> | ->]; destruct (ta_reach m Hm) as [-> | ->]; try reflexivity; exfalso; apply N; [exact E|].
      intros w. symmetry. apply E.
    + intros n l t Hn Hi. destruct (ta_reach n Hn) as [-> | ->]; [|destruct Hi]. destruct Hi as [Hi|[]]. injection Hi as <- <-.
      exists []. constructor. reflexivity.
  - cbn. intros [H|[]]. discriminate.
Qed.
Lemma tab_ok : trans_ok tab.
Proof.
  split; [|split; [discriminate|split; [discriminate|]]].
  - split; [discriminate|]. cbn [nodes tab length]. intros n Hn. destruct n as [|[|[|n]]]; [| | |lia]; cbn; (split; [intros l t H|intros t H]);
      repeat (destruct H as [H|H]; [injection H; intros; subst; try lia; try discriminate|]); try destruct H.
  - cbn. intros [H|[H|[]]]; discriminate.
Qed.
Lemma ta_lang : lang ta [(1, 1)].
Proof. change [(1, 1)] with (emit (1, 1) []). apply reads_step with 1; [left; reflexivity|constructor; reflexivity]. Qed.
Lemma tab_lang : lang tab [(2, 0)].
Proof.
  change [(2, 0)] with (emit (0, 0) (emit (2, 0) [])). apply reads_step with 2; [left; reflexivity|].
  apply reads_step with 2; [left; reflexivity|constructor; reflexivity].
Qed.

(** C85: a copy accepts what the original accepts; the inverse the label strings with the two sides
    of every label exchanged, hence the inverse relation.  What they say about themselves holds. *)
Theorem C85_copy : forall t, trans_ok t -> exists r, copy false t = Ok r /\ trans_ok r /\ same_lang r t /\
  det r = det t /\ mini r = mini t /\ (forall l, In l (labels r) <-> In l (labels t)).
Proof.
  intros t T. destruct (copy_correct false t T) as (r & E & R & L & D & M & A). exists r. cbn [recode_label] in L, A.
  split; [exact E|]. split; [exact R|]. split; [intros w; rewrite L, map_id; reflexivity|]. auto.
Qed.
Print Assumptions C85_copy.
Theorem C85_invert : forall t, trans_ok t -> exists r, switch_levels t = Ok r /\ trans_ok r /\
  (forall w, lang r w <-> lang t (map (fun l => (snd l, fst l)) w)) /\
  (forall x y, relates r x y <-> relates t y x).
Proof.
  intros t T. destruct (copy_correct true t T) as (r & E & R & L & D & M & A). exists r.
  split; [exact E|]. split; [exact R|]. split; [exact L|].
  assert (S : forall w, side fst (map (recode_label true) w) = side snd w /\ side snd (map (recode_label true) w) = side fst w).
  { intros w. unfold side. rewrite !map_map. auto. }
  intros x y. split; intros (w & H & -> & ->).
  - exists (map (recode_label true) w). destruct (S w) as [-> ->]. split; [apply L, H|auto].
  - exists (map (recode_label true) w). destruct (S w) as [-> ->]. split; [|auto]. apply L. rewrite map_recode_twice. exact H.
Qed.
Print Assumptions C85_invert.
Example C85_witness : trans_ok ta /\ mini ta = true /\ trans_ok tab /\ lang tab [(2, 0)] /\
  exists r, switch_levels tab = Ok r /\ lang r [(0, 2)].
Proof.
  split; [exact ta_ok|]. split; [reflexivity|]. split; [exact tab_ok|]. split; [exact tab_lang|].
  destruct (C85_invert tab tab_ok) as (r & E & _ & L & _). exists r. split; [exact E|]. apply L. exact tab_lang.
Qed.

(** C86: disjunction accepts what either transducer accepts. *)
Theorem C86_disjunct : forall t u, trans_ok t -> trans_ok u -> exists r, union t u = Ok r /\ trans_ok r /\
  (forall w, lang r w <-> lang t w \/ lang u w) /\
  (forall l, In l (labels r) <-> In l (labels t) \/ In l (labels u)).
Proof. exact union_correct. Qed.
Print Assumptions C86_disjunct.
Theorem C86_optionalize : forall t, trans_ok t -> exists r, optionalize t = Ok r /\ trans_ok r /\
  (forall w, lang r w <-> lang t w \/ w = []) /\ (forall l, In l (labels r) <-> In l (labels t)).
Proof. exact optionalize_correct. Qed.
Print Assumptions C86_optionalize.
Example C86_witness : exists r, union ta tab = Ok r /\ lang r [(1, 1)] /\ lang r [(2, 0)].
Proof.
  destruct (C86_disjunct ta tab ta_ok tab_ok) as (r & E & _ & L & _). exists r. split; [exact E|].
  split; apply L; [left; exact ta_lang|right; exact tab_lang].
Qed.

(** C87: concatenation accepts a string of the first transducer followed by one of the second. *)
Theorem C87_concatenate : forall t u, trans_ok t -> trans_ok u -> exists r, concatenation t u = Ok r /\ trans_ok r /\
  (forall w, lang r w <-> exists w1 w2, w = w1 ++ w2 /\ lang t w1 /\ lang u w2) /\
  (forall l, In l (labels r) <-> In l (labels t) \/ In l (labels u)).
Proof.
  intros t u T U. destruct (concatenation_correct t u) as (r & E & R & L & A & _); [apply T|apply U|]. exists r.
  split; [exact E|]. split; [exact R|]. split; [exact L|]. intros l. rewrite A. split; [tauto|]. intros H. split; [exact H|].
  destruct T as (_ & _ & _ & T), U as (_ & _ & _ & U). intros ->. tauto.
Qed.
Print Assumptions C87_concatenate.
Example C87_witness : exists r, concatenation ta tab = Ok r /\ lang r [(1, 1); (2, 0)].
Proof.
  destruct (C87_concatenate ta tab ta_ok tab_ok) as (r & E & _ & L & _). exists r. split; [exact E|].
  apply L. exists [(1, 1)], [(2, 0)]. split; [reflexivity|]. split; [exact ta_lang|exact tab_lang].
Qed.

(** C88: repetition: any number of times, at least once, a given number of times, at most a given
    number of times. *)
Theorem C88_star : forall t, trans_ok t -> exists r, kleene_star t = Ok r /\ trans_ok r /\
  (forall w, lang r w <-> star (lang t) w) /\ (forall l, In l (labels r) <-> In l (labels t)).
Proof. exact kleene_star_correct. Qed.
Print Assumptions C88_star.
Theorem C88_plus : forall t, trans_ok t -> exists r, repeat_plus t = Ok r /\ trans_ok r /\
  (forall w, lang r w <-> exists u v, w = u ++ v /\ lang t u /\ star (lang t) v) /\
  (forall l, In l (labels r) <-> In l (labels t)).
Proof. exact repeat_plus_correct. Qed.
Print Assumptions C88_plus.
Theorem C88_n : forall t n, trans_ok t -> exists r, repeat_n t n = Ok r /\ trans_ok r /\
  (forall w, lang r w <-> power (lang t) n w).
Proof. intros t n T. destruct (repeat_n_correct t n T) as (r & E & R & L & _). eauto. Qed.
Print Assumptions C88_n.
Theorem C88_le_n : forall t n, trans_ok t -> exists r, repeat_le_n t n = Ok r /\ trans_ok r /\
  (forall w, lang r w <-> exists k, k <= n /\ power (lang t) k w).
Proof. intros t n T. destruct (repeat_le_n_correct t n T) as (r & E & R & L & _). eauto. Qed.
Print Assumptions C88_le_n.
Example C88_witness : exists r, kleene_star ta = Ok r /\ lang r [(1, 1); (1, 1)].
Proof.
  destruct (C88_star ta ta_ok) as (r & E & _ & L & _). exists r. split; [exact E|]. apply L.
  change [(1, 1); (1, 1)] with ([(1, 1)] ++ [(1, 1)] ++ []). apply star_app; [exact ta_lang|]. apply star_app; [exact ta_lang|constructor].
Qed.

(** C89: the reversal accepts the reversed strings. *)
Theorem C89_reverse : forall t, trans_ok t -> exists r, reverse true t = Ok r /\ trans_ok r /\
  (forall w, lang r w <-> lang t (rev w)) /\ (forall l, In l (labels r) <-> In l (labels t)).
Proof.
  intros t T. destruct (reverse_correct true t (proj1 T)) as (r & E & R & L & A). exists r. split; [exact E|]. split; [exact R|].
  split; [exact L|]. intros l. rewrite A. split; [tauto|]. intros H. split; [reflexivity|]. split; [exact H|].
  intros ->. destruct T as (_ & _ & _ & T). exact (T H).
Qed.
Print Assumptions C89_reverse.
Example C89_witness : exists c r, concatenation ta tab = Ok c /\ reverse true c = Ok r /\ lang r [(2, 0); (1, 1)].
Proof.
  destruct (C87_concatenate ta tab ta_ok tab_ok) as (c & E & T & L & _). destruct (C89_reverse c T) as (r & E' & _ & L' & _).
  exists c, r. split; [exact E|]. split; [exact E'|]. apply L'. apply L. exists [(1, 1)], [(2, 0)]. split; [reflexivity|]. split; [exact ta_lang|exact tab_lang].
Qed.

(** C90: the projections accept the strings with every label replaced by its input (lower) or
    output (upper) symbol on both sides. *)
Theorem C90_input : forall t, trans_ok t -> exists r, level true t = Ok r /\ trans_ok r /\
  (forall w, lang r w <-> exists u, lang t u /\ w = relabel (fun l => (fst l, fst l)) u) /\
  (forall l, In l (labels r) <-> l <> (0, 0) /\ exists k, In k (labels t) /\ l = (fst k, fst k)).
Proof. intros t T. exact (level_correct true t (proj1 T)). Qed.
Print Assumptions C90_input.
Theorem C90_output : forall t, trans_ok t -> exists r, level false t = Ok r /\ trans_ok r /\
  (forall w, lang r w <-> exists u, lang t u /\ w = relabel (fun l => (snd l, snd l)) u) /\
  (forall l, In l (labels r) <-> l <> (0, 0) /\ exists k, In k (labels t) /\ l = (snd k, snd k)).
Proof. intros t T. exact (level_correct false t (proj1 T)). Qed.
Print Assumptions C90_output.
Example C90_witness : exists r, level false tab = Ok r /\ lang r [].
Proof.
  destruct (C90_output tab tab_ok) as (r & E & _ & L & _). exists r. split; [exact E|]. apply L. exists [(2, 0)]. split; [exact tab_lang|reflexivity].
Qed.

(** C91: substituting a symbol replaces it everywhere in every label.  Partial: the symbol is not the
    empty one, which it may be in the code.  Refuted: with the empty symbol what comes out depends on
    how the transducer is built, not only on what it accepts. *)
Theorem C91_substitute_partial : forall c nc t, trans_ok t -> c <> 0 -> exists r, replace_char c nc t = Ok r /\ trans_ok r /\
  (forall w, lang r w <-> exists u, lang t u /\
     w = relabel (fun l => (if fst l =? c then nc else fst l, if snd l =? c then nc else snd l)) u).
Proof.
  intros c nc t T Hc. destruct (replace_char_correct c nc t (proj1 T) Hc) as (r & E & R & L & _). eauto.
Qed.
Print Assumptions C91_substitute_partial.
Definition tae : trans :=
  Trans [Node [1] [] false; Node [] [((1, 1), 2)] false; Node [] [] true] false false [(1, 1)].
Lemma ta_lang_inv w : lang ta w -> w = [(1, 1)].
Proof.
  intros H. inversion H as [n F|n l t w' Hi R]; subst; [discriminate|]. destruct Hi as [Hi|[]]. injection Hi as <- <-.
  inversion R as [n F|n l t w'' Hi R']; subst; [reflexivity|destruct Hi].
Qed.
Theorem C91_epsilon_refuted : ~ forall nc t u r s, trans_ok t -> trans_ok u -> same_lang t u ->
  replace_char 0 nc t = Ok r -> replace_char 0 nc u = Ok s -> same_lang r s.
Proof.
  intros C.
  assert (U : trans_ok tae).
  { split; [|split; [discriminate|split; [discriminate|]]].
    - split; [discriminate|]. cbn [nodes tae length]. intros n Hn. destruct n as [|[|[|n]]]; [| | |lia]; cbn; (split; [intros l t H|intros t H]);
        repeat (destruct H as [H|H]; [injection H; intros; subst; try lia; try discriminate|]); try destruct H.
    - cbn. intros [H|[]]; discriminate. }
  assert (S : same_lang ta tae).
  { intros w. split.
    - intros H. apply ta_lang_inv in H. subst. change [(1, 1)] with (emit (0, 0) (emit (1, 1) [])).
      apply reads_step with 1; [left; reflexivity|]. apply reads_step with 2; [left; reflexivity|constructor; reflexivity].
    - intros H. inversion H as [n F|n l t w' Hi R]; subst; [discriminate|]. destruct Hi as [Hi|[]]. injection Hi as <- <-. cbn [emit].
      inversion R as [n F|n l t w'' Hi R']; subst; [discriminate|]. destruct Hi as [Hi|[]]. injection Hi as <- <-.
      inversion R' as [n F|n l t w3 Hi R'']; subst; [exact ta_lang|destruct Hi]. }
  specialize (C 2 ta tae _ _ ta_ok U S eq_refl eq_refl [(1, 1)]).
  destruct C as [C _]. assert (H : lang (Trans [Node [] [((2, 2), 1)] false; Node [] [((1, 1), 2)] false; Node [] [] true] false false [(1, 1)]) [(1, 1)]).
  { apply C. change [(1, 1)] with (emit (1, 1) []). apply reads_step with 1; [left; reflexivity|constructor; reflexivity]. }
  remember [(1, 1)] as w0 eqn:Ew. inversion H as [n F|n l t w' Hi R]; subst; [discriminate|]. destruct Hi as [Hi|[]]. injection Hi as <- <-. discriminate.
Qed.
Print Assumptions C91_epsilon_refuted.
Example C91_witness : exists r, replace_char 2 0 tab = Ok r /\ lang r [].
Proof.
  destruct (C91_substitute_partial 2 0 tab tab_ok ltac:(discriminate)) as (r & E & _ & L). exists r. split; [exact E|].
  apply L. exists [(2, 0)]. split; [exact tab_lang|reflexivity].
Qed.

(** C92: free insertion of a label accepts the strings with any number of copies of it put in
    anywhere.  Partial: what the result says about itself is shown to hold only if no transition has
    that label, and if something is accepted or the transducer does not say that it is minimal.  Refuted: otherwise a transducer that says that it is deterministic need not be,
    and intersecting it with itself loses strings. *)
Theorem C92_insert_freely_partial : forall l t, trans_ok t -> l <> (0, 0) -> exists r, freely_insert l t = Ok r /\ graph_ok (nodes r) /\
  (forall w, lang r w <-> exists u, lang t u /\ with_inserted l u w) /\
  (forall k, In k (labels r) <-> In k (labels t)) /\
  ((forall n k, reachable (nodes t) 0 n -> ~ In (l, k) (out (node_at (nodes t) n))) -> mini t = false \/ (exists w, lang t w) -> trans_ok r).
Proof.
  intros l t T Hl. destruct (freely_insert_correct l t T Hl) as (r & E & G & L & A & _ & _ & O). exists r. auto 8.
Qed.
Print Assumptions C92_insert_freely_partial.
Theorem C92_flags_refuted : exists t l r s, trans_ok t /\ l <> (0, 0) /\ freely_insert l t = Ok r /\ ~ trans_ok r /\
  conjunction r r = Ok s /\ lang r [(1, 1)] /\ ~ lang s [(1, 1)].
Proof.
  exists ta, (1, 1). eexists _, _. split; [exact ta_ok|]. split; [discriminate|]. split; [vm_compute; reflexivity|].
  split; [|split; [vm_compute; reflexivity|split]].
  - intros (_ & D & _). destruct (D eq_refl 0) as [_ N]; [constructor|]. cbn in N. inversion N as [|? ? N1 _]; subst. apply N1. left. reflexivity.
  - change [(1, 1)] with (emit (1, 1) []). apply reads_step with 1; [right; left; reflexivity|constructor; reflexivity].
  - assert (F : forall h n w, forallb (fun d => negb (final d)) h = true -> ~ reads h n w).
    { intros h n w Hf R. induction R as [n Fn|]; [|assumption]. rewrite forallb_forall in Hf.
      destruct (Nat.lt_ge_cases n (length h)) as [Hn|Hn]; [|unfold node_at in Fn; rewrite nth_overflow in Fn by exact Hn; discriminate].
      specialize (Hf (node_at h n) (nth_In _ _ Hn)). rewrite Fn in Hf. discriminate. }
    apply F. reflexivity.
Qed.
Print Assumptions C92_flags_refuted.
Example C92_witness : exists r, freely_insert (3, 3) tab = Ok r /\ lang r [(3, 3); (2, 0); (3, 3)].
Proof.
  destruct (C92_insert_freely_partial (3, 3) tab tab_ok ltac:(discriminate)) as (r & E & _ & L & _). exists r. split; [exact E|].
  apply L. exists [(2, 0)]. split; [exact tab_lang|]. repeat constructor.
Qed.

(** C93: determinisation changes nothing that is accepted, and the result is deterministic. *)
Theorem C93_determinize : forall t, trans_ok t -> exists r, determinise true t = Ok r /\ trans_ok r /\ deterministic (nodes r) /\
  det r = true /\ same_lang r t /\ (forall l, In l (labels r) <-> In l (labels t)).
Proof.
  intros t T. destruct (determinise_correct true t T) as (r & E & R & D & F & L & A). exists r. repeat (split; [assumption|]). apply A. reflexivity.
Qed.
Print Assumptions C93_determinize.
Example C93_witness : trans_ok tab /\ det tab = false /\ ~ deterministic (nodes tab).
Proof.
  split; [exact tab_ok|]. split; [reflexivity|]. intros D. destruct (D 0) as [E _]; [constructor|]. discriminate.
Qed.

(** C94: intersection accepts what both transducers accept, label by label. *)
Theorem C94_intersect : forall t u, trans_ok t -> trans_ok u -> exists r, conjunction t u = Ok r /\ trans_ok r /\
  det r = true /\ (forall w, lang r w <-> lang t w /\ lang u w) /\
  (forall l, In l (labels r) <-> In l (labels t) \/ In l (labels u)).
Proof. exact conjunction_correct. Qed.
Print Assumptions C94_intersect.
Example C94_witness : exists s r, kleene_star tab = Ok s /\ conjunction s tab = Ok r /\ lang r [(2, 0)].
Proof.
  destruct (C88_star tab tab_ok) as (s & E & S & L & _). destruct (C94_intersect s tab S tab_ok) as (r & E' & _ & _ & L' & _).
  exists s, r. split; [exact E|]. split; [exact E'|]. apply L'. split; [|exact tab_lang]. apply L.
  change [(2, 0)] with ([(2, 0)] ++ []). apply star_app; [exact tab_lang|constructor].
Qed.

(** C95: composition relates x to z if some y is related to x by the first transducer and to z by
    the second. *)
Theorem C95_compose : forall t u, trans_ok t -> trans_ok u -> exists r, compose t u = Ok r /\ trans_ok r /\
  (forall x z, relates r x z <-> exists y, relates t x y /\ relates u y z) /\
  (forall l, In l (labels r) <-> l <> (0, 0) /\
     ((In l (labels t) /\ snd l = 0) \/ (In l (labels u) /\ fst l = 0) \/
      exists a b, In a (labels t) /\ In b (labels u) /\ snd a = fst b /\ snd a <> 0 /\ l = (fst a, snd b))).
Proof. intros t u T U. exact (compose_correct t u (proj1 T) (proj1 U)). Qed.
Print Assumptions C95_compose.
Example C95_witness : exists r, compose tab tab = Ok r /\ relates r [1] [].
Proof.
  destruct (C95_compose tab tab tab_ok tab_ok) as (r & E & _ & L & _). exists r. split; [exact E|]. apply L. exists [2]. split.
  - exists [(1, 2)]. split; [|auto]. change [(1, 2)] with (emit (1, 2) []). apply reads_step with 1; [right; left; reflexivity|constructor; reflexivity].
  - exists [(2, 0)]. split; [exact tab_lang|auto].
Qed.

(** C96: adding a path to a transducer adds the string of that path.  Partial: the transducer is a
    tree, as it is when it is made by adding paths.  Refuted: otherwise other strings come in as
    well; and a transducer that says that it is deterministic still says so after a path with an
    empty label was added, so that intersecting it with itself loses the path. *)
Theorem C96_add_path_partial : forall t path, graph_ok (nodes t) -> is_tree (nodes t) ->
  graph_ok (nodes (disjunct_path t path)) /\ is_tree (nodes (disjunct_path t path)) /\
  (forall w, lang (disjunct_path t path) w <-> lang t w \/ w = filter (fun l => negb (is_epsilon l)) path) /\
  (forall l, In l (labels (disjunct_path t path)) <-> In l (labels t) \/ In l (filter (fun l => negb (is_epsilon l)) path)).
Proof. exact disjunct_path_correct. Qed.
Print Assumptions C96_add_path_partial.
Theorem C96_paths : forall paths,
  forall w, lang (fold_left disjunct_path paths empty_transducer) w <-> exists p, In p paths /\ w = filter (fun l => negb (is_epsilon l)) p.
Proof.
  assert (Gen : forall paths, let r := fold_left disjunct_path paths empty_transducer in graph_ok (nodes r) /\ is_tree (nodes r) /\
    forall w, lang r w <-> exists p, In p paths /\ w = filter (fun l => negb (is_epsilon l)) p).
  { induction paths as [|p paths IH] using rev_ind; cbn zeta in *.
    - split; [apply (single_ok false false)|]. split.
      + split.
        * intros n l H. pose proof (node_out_of_range _ _ _ _ H) as Hn. cbn in Hn. assert (n = 0) by lia. subst. destruct H.
        * intros n l n' l' t H. pose proof (node_out_of_range _ _ _ _ H) as Hn. cbn in Hn. assert (n = 0) by lia. subst. destruct H.
      + intros w. cbn [fold_left]. rewrite (single_lang false false). split; [intros [C _]; discriminate|intros (p & [] & _)].
    - rewrite fold_left_app. cbn [fold_left]. destruct IH as (G & T & L).
      destruct (C96_add_path_partial _ p G T) as (G' & T' & L' & _). split; [exact G'|]. split; [exact T'|].
      intros w. rewrite L', L. setoid_rewrite in_app_iff. cbn [In]. split.
      + intros [(q & Hq & ->)|H]; [exists q; auto|exists p; auto].
      + intros (q & [Hq|[<-|[]]] & ->); [left; exists q; auto|auto]. }
  intros paths. exact (proj2 (proj2 (Gen paths))).
Qed.
Print Assumptions C96_paths.
Theorem C96_language_refuted : ~ forall t path, trans_ok t -> ~ In (0, 0) path ->
  forall w, lang (disjunct_path t path) w -> lang t w \/ w = path.
Proof.
  intros C. set (t := Trans [Node [] [((1, 1), 1); ((2, 2), 1)] false; Node [] [] true] false false [(1, 1); (2, 2)]).
  assert (T : trans_ok t).
  { split; [|split; [discriminate|split; [discriminate|]]].
    - split; [discriminate|]. cbn [nodes t length]. intros n Hn. destruct n as [|[|n]]; [| |lia]; cbn; (split; [intros l x H|intros x H]);
        repeat (destruct H as [H|H]; [injection H; intros; subst; try lia; try discriminate|]); try destruct H.
    - cbn. intros [H|[H|[]]]; discriminate. }
  destruct (C t [(1, 1); (3, 3)] T) with (w := [(2, 2); (3, 3)]) as [H|H].
  - cbn. intros [H|[H|[]]]; discriminate.
  - change [(2, 2); (3, 3)] with (emit (2, 2) (emit (3, 3) [])). apply reads_step with 1; [right; left; reflexivity|].
    apply reads_step with 2; [left; reflexivity|constructor; reflexivity].
  - remember [(2, 2); (3, 3)] as w0 eqn:Ew. inversion H as [n F|n l x w' Hi R]; subst; [discriminate|].
    assert (x = 1) by (cbn in Hi; destruct Hi as [Hi|[Hi|[]]]; injection Hi; auto). subst x.
    inversion R as [n F|n l' x w'' Hi' R']; subst; [|destruct Hi'].
    destruct Hi as [Hi|[Hi|[]]]; injection Hi as <-; discriminate.
  - discriminate.
Qed.
Print Assumptions C96_language_refuted.
Theorem C96_flags_refuted : exists t path s, trans_ok t /\ is_tree (nodes t) /\
  conjunction (disjunct_path t path) (disjunct_path t path) = Ok s /\
  lang (disjunct_path t path) [(1, 1)] /\ ~ lang s [(1, 1)].
Proof.
  exists (new_trans true), [(0, 0); (1, 1)]. eexists. split; [apply (single_ok true false)|]. split; [|split; [vm_compute; reflexivity|split]].
  - split.
    + intros n l H. pose proof (node_out_of_range _ _ _ _ H) as Hn. cbn in Hn. assert (n = 0) by lia. subst. destruct H.
    + intros n l n' l' t H. pose proof (node_out_of_range _ _ _ _ H) as Hn. cbn in Hn. assert (n = 0) by lia. subst. destruct H.
  - change [(1, 1)] with (emit (0, 0) (emit (1, 1) [])). apply reads_step with 1; [left; reflexivity|].
    apply reads_step with 2; [left; reflexivity|constructor; reflexivity].
  - intros H. remember [(1, 1)] as w0 eqn:Ew. inversion H as [n F|n l x w' Hi R]; subst; [discriminate|destruct Hi].
Qed.
Print Assumptions C96_flags_refuted.
Example C96_witness : lang (fold_left disjunct_path [[(1, 1); (2, 2)]; [(1, 1); (0, 0); (3, 0)]] empty_transducer) [(1, 1); (3, 0)].
Proof. apply C96_paths. exists [(1, 1); (0, 0); (3, 0)]. split; [right; left; reflexivity|reflexivity]. Qed.
