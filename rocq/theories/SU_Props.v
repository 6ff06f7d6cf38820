(** hfst-summarize: properties C157 and C158. *)
From Coq Require Import Permutation.
From Verif Require Import Base OrdMap BT_Model BT_Spec BT_Proofs An_Model SU_Spec SU_Model SU_Proofs SU_Proofs2.

(** C157: the numbers of states, transitions, final states and epsilons. *)
Theorem C157_counts pairs g :
  let v := summarize pairs g in
  v_states v = length (sts g) /\ v_arcs v = length (concat (sts g)) /\ finals_are g (v_finals v) /\
  transitions_are g (fun p => fst p = B "@_EPSILON_SYMBOL_@" /\ snd p = B "@_EPSILON_SYMBOL_@") (v_io v) /\
  transitions_are g (fun p => fst p = B "@_EPSILON_SYMBOL_@") (v_ie v) /\
  transitions_are g (fun p => snd p = B "@_EPSILON_SYMBOL_@") (v_oe v).
Proof.
  cbv zeta. unfold summarize. destruct (all_eps pairs g (sts g) 0 start) as (E1 & E2 & E3). repeat split.
  - apply (all_number pairs g (sts g) 0 start).
  - apply (all_arcs pairs g (sts g) 0 start).
  - rewrite all_finals. exists (filter (is_fin g) (seq 0 (length (sts g)))). split; [apply NoDup_filter, seq_NoDup|]. split; [reflexivity|].
    intros s. rewrite filter_In, in_seq. unfold is_fin. destruct (mget Nat.compare s (fin g)) as [w|]; split.
    + intros [H _]. split; [lia|exists w; reflexivity].
    + intros [H _]. split; [lia|reflexivity].
    + intros [_ H]. discriminate.
    + intros [_ [w H]]. discriminate.
  - cbn [start v_io plus] in E1. rewrite E1. apply are_filter. intros a. unfold io_eps. rewrite andb_true_iff, !is_epsilon_iff. reflexivity.
  - cbn [start v_ie plus] in E2. rewrite E2. apply are_filter. intros a. apply is_epsilon_iff.
  - cbn [start v_oe plus] in E3. rewrite E3. apply are_filter. intros a. apply is_epsilon_iff.
Qed.
Print Assumptions C157_counts.

(** C157: acceptor, input deterministic and output deterministic. *)
Theorem C157_kinds pairs g :
  let v := summarize pairs g in
  (v_acc v = true <-> is_acceptor g) /\
  (v_idet v = true <-> deterministic isy g) /\ (v_odet v = true <-> deterministic osy g).
Proof.
  cbv zeta. unfold summarize. destruct (all_det pairs g (sts g) 0 start) as [-> ->]. rewrite all_acc. cbn [start v_acc v_idet v_odet].
  unfold is_acceptor, deterministic, det. repeat split; try tauto; intros; try (apply H; assumption); auto.
Qed.
Print Assumptions C157_kinds.

(** C157: the symbols that are seen, and the symbols of the alphabet that are not. *)
Theorem C157_symbols pairs g x :
  let v := summarize pairs g in
  (In x (v_found v) <-> occurs g x) /\ (In x (missing_symbols g v) <-> In x (alpha g) /\ ~ occurs g x).
Proof.
  cbv zeta. assert (F : In x (v_found (summarize pairs g)) <-> occurs g x).
  { unfold summarize. rewrite all_found. cbn [start v_found]. unfold occurs. split; [intros [[]|H]; exact H|auto]. }
  split; [exact F|]. unfold missing_symbols. rewrite filter_In, <- F, <- (smem_In bcmp bcmp_eq x (v_found (summarize pairs g))).
  destruct (smem bcmp x (v_found (summarize pairs g))); cbn; intuition congruence.
Qed.
Print Assumptions C157_symbols.

(** C157: the sparsest and the densest state, the symbols that are most ambiguous in some state,
    and the numbers by which the average ambiguities are divided. *)
Theorem C157_extremes pairs g :
  sts g <> [] ->
  let v := summarize pairs g in
  (exists l, In l (sts g) /\ v_sparse v = Some (length l) /\ forall k, In k (sts g) -> length l <= length k) /\
  (exists l, In l (sts g) /\ v_dense v = length l /\ forall k, In k (sts g) -> length k <= length l) /\
  (forall k x, In k (sts g) -> times isy x k <= snd (v_min v)) /\
  (exists l, In l (sts g) /\ times isy (fst (v_min v)) l = snd (v_min v)) /\
  (forall k x, In k (sts g) -> times osy x k <= snd (v_mout v)) /\
  (exists l, In l (sts g) /\ times osy (fst (v_mout v)) l = snd (v_mout v)) /\
  v_uin v = total_distinct isy (sts g) /\ v_uout v = total_distinct osy (sts g).
Proof.
  intros N. cbv zeta. unfold summarize.
  assert (X : exists l, In l (sts g)) by (destruct (sts g) as [|l ls]; [contradiction|exists l; left; reflexivity]).
  destruct X as [l0 I0].
  destruct (all_sparse pairs g (sts g) 0 start) as (_ & S2 & S3).
  destruct (all_dense pairs g (sts g) 0 start) as (_ & D2 & D3).
  destruct (all_most pairs g (sts g) 0 start) as [(_ & M2 & M3) (_ & P2 & P3)].
  destruct (all_uniq pairs g (sts g) 0 start) as [U1 U2]. cbv zeta in *.
  repeat split.
  - destruct S3 as [E|(l & I & E)].
    + destruct (S2 l0 I0) as (m & K & _). rewrite E in K. discriminate.
    + exists l. repeat split; [exact I|exact E|]. intros k J. destruct (S2 k J) as (m & K & L). rewrite E in K. injection K as ->. exact L.
  - destruct D3 as [E|(l & I & E)].
    + exists l0. cbn [start v_dense] in E. pose proof (D2 l0 I0) as Q. rewrite E in Q |- *. repeat split; [exact I0|lia|].
      intros k J. pose proof (D2 k J) as R. rewrite E in R. lia.
    + exists l. repeat split; [exact I|symmetry; exact E|]. intros k J. rewrite E. apply D2, J.
  - exact M2.
  - destruct M3 as [E|M3]; [|exact M3]. exists l0. split; [exact I0|]. pose proof (M2 l0 (fst (v_min (all_states pairs g 0 (sts g) start))) I0) as Q.
    assert (Z : snd (v_min (all_states pairs g 0 (sts g) start)) = 0) by (rewrite E; reflexivity). lia.
  - exact P2.
  - destruct P3 as [E|P3]; [|exact P3]. exists l0. split; [exact I0|]. pose proof (P2 l0 (fst (v_mout (all_states pairs g 0 (sts g) start))) I0) as Q.
    assert (Z : snd (v_mout (all_states pairs g 0 (sts g) start)) = 0) by (rewrite E; reflexivity). lia.
  - exact U1.
  - exact U2.
Qed.
Print Assumptions C157_extremes.

(** C157: with --print-symbol-pair-statistics, each pair is listed once with the number of its
    transitions, if that is at most the number given. *)
Theorem C157_pairs g threshold :
  let lines := pair_lines threshold (summarize true g) in
  NoDup (map fst lines) /\
  forall i o n, In ((i, o), n) lines <->
    n > 0 /\ transitions_are g (fun p => p = (i, o)) n /\ forall m, threshold = Some m -> n <= m.
Proof.
  cbv zeta. unfold pair_lines, summarize. rewrite all_pairs by reflexivity. cbn [start v_pairs].
  change (fold_left (bump pcmp) (map label (concat (sts g))) []) with (counted pcmp (map label (concat (sts g)))).
  assert (D : forall x y : bstr * bstr, {x = y} + {x <> y}) by (intros x y; decide equality; apply bstr_eq_dec).
  split.
  - pose proof (sorted_NoDup pcmp pcmp_eq _ (counted_sorted pcmp pcmp_eq pcmp_trans pcmp_op (map label (concat (sts g))))) as H.
    revert H. generalize (counted pcmp (map label (concat (sts g)))). induction l as [|x l IH]; intros H; [constructor|].
    cbn in *. inversion H as [|? ? N H']; subst. destruct (match threshold with Some n => snd x <=? n | None => true end); [|apply IH, H'].
    cbn. constructor; [|apply IH, H']. intros I. apply N. apply in_map_iff in I. destruct I as (y & E & I). apply filter_In in I.
    apply in_map_iff. exists y. split; [exact E|apply I].
  - intros i o n. rewrite filter_In, (counted_In pcmp D pcmp_eq pcmp_trans pcmp_op).
    assert (C : transitions_are g (fun p => p = (i, o)) n <-> n = count_occ D (map label (concat (sts g))) (i, o)).
    { split.
      - intros (l & r & P & <- & Fl & Fr). apply (Permutation_map label) in P. rewrite (proj1 (Permutation_count_occ D _ _) P).
        rewrite map_app, count_occ_app. rewrite Forall_forall in Fl, Fr.
        rewrite (proj1 (count_occ_not_In D (map label r) (i, o))), Nat.add_0_r.
        + clear - Fl. induction l as [|a l IH]; [reflexivity|]. cbn. pose proof (Fl a (or_introl eq_refl)) as E. cbn in E.
          destruct (D (label a) (i, o)) as [_|Q]; [|unfold label in Q; contradiction]. rewrite <- IH; [reflexivity|]. intros b I. apply Fl. right. exact I.
        + intros I. apply in_map_iff in I. destruct I as (a & E & I). apply (Fr a I). exact E.
      - intros ->. assert (E : count_occ D (map label (concat (sts g))) (i, o) = length (filter (fun a => if D (label a) (i, o) then true else false) (concat (sts g)))).
        { generalize (concat (sts g)). induction l as [|a l IH]; [reflexivity|]. cbn. destruct (D (label a) (i, o)); cbn; rewrite IH; reflexivity. }
        rewrite E. apply are_filter. intros a. unfold label. destruct (D (isy a, osy a) (i, o)); split; congruence. }
    rewrite C. cbn [snd]. destruct threshold as [m|]; [rewrite Nat.leb_le|]; split.
    + intros [[E P] L]. repeat split; [exact P|exact E|]. intros m' Q. injection Q as <-. exact L.
    + intros (P & E & L). repeat split; [exact E|exact P|apply L; reflexivity].
    + intros [[E P] _]. repeat split; [exact P|exact E|discriminate].
    + intros (P & E & _). repeat split; [exact E|exact P].
Qed.
Print Assumptions C157_pairs.

Definition sample : graph :=
  Graph [[Arc 1 (B "a") (B "a") 0; Arc 1 (B "a") (B "b") 0]; [Arc 0 EPS (B "c") 2]; []] [(1, 0%Z)] [EPS; B "a"; B "b"; B "c"; B "d"].
Example C157_witness :
  let v := summarize true sample in
  (v_states v, v_finals v, v_arcs v, v_io v, v_ie v, v_oe v) = (3, 1, 3, 0, 1, 0) /\
  (v_acc v, v_idet v, v_odet v) = (false, false, true) /\
  missing_symbols sample v = [B "d"] /\ (v_sparse v, v_dense v, v_min v, v_uin v) = (Some 0, 2, (B "a", 2), 2) /\
  pair_lines (Some 1) v = [((EPS, B "c"), 1); ((B "a", B "a"), 1); ((B "a", B "b"), 1)] /\ sts sample <> [].
Proof. repeat split; try (vm_compute; reflexivity). discriminate. Qed.

(** C158: cyclic is yes just when some state has a transition to itself, and cyclic at initial state
    just when the initial state has one.  Both then tell the truth.
    Missing: the answer no for transducers whose loops are longer, see below. *)
Theorem C158_cyclic_partial pairs g :
  let v := summarize pairs g in
  (v_cyc v = true <-> exists s, self_loop g s) /\ (v_cyc0 v = true <-> self_loop g 0) /\
  (v_cyc v = true -> exists s, on_loop g s) /\ (v_cyc0 v = true -> on_loop g 0).
Proof.
  cbv zeta. unfold summarize. destruct (all_cyc pairs g (sts g) 0 start) as [H1 H2]. cbv zeta in *. cbn [start v_cyc v_cyc0] in *.
  assert (L : forall s, self_loop g s -> on_loop g s).
  { intros s (a & I & E). exists [(isy a, osy a)], (wt a + 0)%Z. split; [discriminate|]. apply run_cons; [exact I|]. rewrite E. constructor. }
  assert (C1 : v_cyc (all_states pairs g 0 (sts g) start) = true <-> exists s, self_loop g s).
  { rewrite H1. split.
    - intros [H|(k & a & H & I & E)]; [discriminate|]. exists k, a. split; [exact I|exact E].
    - intros (s & a & I & E). right. exists s, a. repeat split; [|exact I|exact E].
      destruct (le_lt_dec (length (sts g)) s) as [Q|Q]; [|exact Q]. rewrite nth_overflow in I by exact Q. destruct I. }
  assert (C2 : v_cyc0 (all_states pairs g 0 (sts g) start) = true <-> self_loop g 0).
  { rewrite H2. split.
    - intros [H|(_ & _ & H)]; [discriminate|exact H].
    - intros (a & I & E). right. repeat split; [|exists a; auto]. intros Q. rewrite Q in I. destruct I. }
  rewrite C1, C2. repeat split; try tauto.
  - intros [s H]. exists s. apply L, H.
  - apply L.
Qed.
Print Assumptions C158_cyclic_partial.

(** C158 as it stands is false: a loop through two states is reported as not cyclic. *)
Theorem C158_cyclic_refuted :
  ~ (forall pairs g, well_formed g -> (v_cyc (summarize pairs g) = true <-> exists s, on_loop g s)).
Proof.
  intros H.
  pose (g := Graph [[Arc 1 (B "a") (B "a") 0]; [Arc 0 (B "b") (B "b") 0]] [(1, 0%Z)] (initialize_alphabet [B "a"; B "b"])).
  assert (W : well_formed g).
  { repeat split; try discriminate; cbn.
    - intros [|[|[|s]]] a I; cbn in *; destruct I as [<-|[]] || destruct I; cbn; lia.
    - intros [|[|s]] w E; cbn in E; try discriminate. lia.
    - destruct s as [|[|[|s]]]; cbn in H0; try (destruct H0 as [<-|[]]); try destruct H0; cbn; tauto.
    - destruct s as [|[|[|s]]]; cbn in H0; try (destruct H0 as [<-|[]]); try destruct H0; cbn; tauto.
    - tauto.
    - tauto.
    - tauto. }
  specialize (H false g W). destruct H as [_ H].
  assert (F : v_cyc (summarize false g) = false) by (vm_compute; reflexivity). rewrite F in H. discriminate H.
  exists 0, [(B "a", B "a"); (B "b", B "b")], 0%Z. split; [discriminate|].
  change 0%Z with (0 + (0 + 0))%Z.
  apply (run_cons g 0 (Arc 1 (B "a") (B "a") 0)); [left; reflexivity|].
  apply (run_cons g 1 (Arc 0 (B "b") (B "b") 0)); [left; reflexivity|]. constructor.
Qed.
Print Assumptions C158_cyclic_refuted.
Example C158_witness : v_cyc (summarize false (Graph [[Arc 1 (B "a") (B "a") 0]; [Arc 1 (B "b") (B "b") 0]] [] [])) = true.
Proof. reflexivity. Qed.
