(** C71: converting a basic transducer to the optimized-lookup format and back. *)
From Coq Require Import Permutation NArith Lia.
From Verif Require Import Base OrdMap Flags_Model BT_Model BT_Spec BT_Proofs An_Props LK_Model OLF_Model OLF_Proofs OLC_Model OLL_Model OLC_Spec OLC_Proofs OLC_Proofs2 OLC_Proofs4 OLC_Proofs5 OLC_Proofs6 OLC_Props OLB_Spec OLB_Proofs OLB_Proofs2.

Lemma same_paths_keep (weighted : bool) g g' :
  (forall l w, accepts g' l w <-> exists v, accepts g l v /\ w = (if weighted then v else 0%Z)) -> same_paths weighted g g'.
Proof.
  intros H l w. rewrite H. destruct weighted.
  - split; [intros (v & A & ->); exact A|intros A; eauto].
  - split; [intros (v & A & ->); split; eauto|intros (-> & v & A); eauto].
Qed.

Lemma back_outcome enc dec g weighted tr fuel :
  well_formed g -> no_insertions g -> faithful enc dec g -> to_ol enc g weighted = Ok tr -> small tr -> length (sts g) <= fuel ->
  (exists g', of_ol dec tr fuel = Ok g' /\ well_formed g' /\ same_paths weighted g g' /\ (forall x, In x (alpha g') <-> In x (alpha g)))
  \/ of_ol dec tr fuel = Ub /\ exists x y, seen_inputs g <= x /\ nth_error (symbol_table g) x = Some y /\ is_diacritic y = false.
Proof.
  intros (SG & SY & SP) NI FF E (SM1 & SM2) LF. destruct (to_ol_Ok enc g weighted tr E) as (k & ix & al & HP & HX & HA & ->).
  cbn [tr_tables t_index t_trans] in SM1, SM2.
  set (T := transition_table enc (flag_numbers g) (placeholders g) (k_starts k)) in *.
  set (t := {| t_wclass := true; t_index := ix; t_trans := T |}).
  set (h := header_make _ _ _ _ _). set (tr := {| tr_header := h; tr_alphabet := al; tr_tables := t |}).
  assert (TAB : a_table al = symbol_table g) by (apply OLC_Proofs6.names, HA).
  set (bad := exists x y, seen_inputs g <= x /\ nth_error (symbol_table g) x = Some y /\ is_diacritic y = false).
  assert (HR : forall s, s < length (sts g) ->
    (exists l, get_transitions_from_state h al t (addr g k s) = Ok l
      /\ (forall p, In p l -> exists a e, In a (arcs g s) /\ get_transition t p = Ok e /\ stands_for dec (a_table al) (addr g k) a e)
      /\ (forall a, In a (arcs g s) -> exists p e, In p l /\ get_transition t p = Ok e /\ stands_for dec (a_table al) (addr g k) a e))
    \/ get_transitions_from_state h al t (addr g k s) = Ub /\ bad).
  { intros s L. destruct (state_read enc g k ix al NI HP HX HA SM1 SM2 h eq_refl s L) as [(l & EL & HL)|(EL & x & Hx & LK)].
    - left. exists l. split; [exact EL|]. split.
      + intros p Hp. apply HL in Hp. destruct Hp as (j & u & H1 & _ & ->).
        pose proof (entry_at enc g k ix SM1 SM2 s j u L H1) as H2. apply nth_error_In in H1.
        apply (Permutation_in u (ord_perm g s L)) in H1. apply in_map_iff in H1. destruct H1 as (a & <- & Ha).
        exists a. eexists. split; [exact Ha|]. split; [exact H2|]. exact (stands enc dec g k al FF HA s a Ha).
      + intros a Ha. assert (Hu : In (tplace_of (symbol_table g) a) (ord g s)).
        { apply (Permutation_in _ (Permutation_sym (ord_perm g s L))). apply in_map, Ha. }
        apply In_nth_error in Hu. destruct Hu as (j & Hj). eexists. eexists. split; [apply HL; exists j; eexists; split; [exact Hj|split; [exact I|reflexivity]]|].
        split; [exact (entry_at enc g k ix SM1 SM2 s j _ L Hj)|]. exact (stands enc dec g k al FF HA s a Ha).
    - right. split; [exact EL|]. destruct (nth_error (symbol_table g) x) as [y|] eqn:EY; [|apply nth_error_None in EY; lia].
      exists x, y. split; [lia|]. split; [exact EY|]. unfold is_like_epsilon in LK. apply orb_false_iff in LK. destruct LK as (LK & _).
      rewrite (flag_symbol_spec (symbol_table g) al x HA (symbol_table_NoDup g)), EY in LK. exact LK. }
  assert (L0 : 0 < length (sts g)) by (destruct SG as (N0 & _); destruct (sts g); [congruence|simpl; lia]).
  assert (HZ : addr g k 0 = 0%N) by exact (addr_zero enc g k ix SG HP SM1 SM2).
  assert (HJ : forall s1 s2, s1 < length (sts g) -> s2 < length (sts g) -> addr g k s1 = addr g k s2 -> s1 = s2)
    by exact (addr_inj enc g k ix HP HX SM1 SM2).
  assert (HF : forall s, s < length (sts g) -> final_weight dec t (addr g k s) = Ok (finw g s))
    by exact (read_final enc dec g k ix FF HP HX SM1 SM2).
  assert (TI : forall x, In x (a_table al) <-> In x (alpha g)).
  { intros x. rewrite TAB, symbol_table_In. split; [|auto]. intros [-> |[H|(a & Ha & X)]]; [exact (proj1 SP)|exact H|].
    apply all_arcs_In in Ha. destruct Ha as (s & Ha). destruct (SY s a Ha). destruct X as [-> | ->]; assumption. }
  set (g0 := add_symbols empty_graph (a_table al)).
  assert (A0 : forall x, In x (alpha g0) <-> In x (alpha g)).
  { intros x. unfold g0. rewrite add_symbols_alpha, TI. split; [|auto]. intros [H|H]; [exact H|].
    destruct SP as (P1 & P2 & P3). vm_compute in H. destruct H as [<- |[<- |[<- |[]]]]; assumption. }
  assert (G0 : sts g0 = [[]] /\ fin g0 = []) by (unfold g0; destruct (add_symbols_sts empty_graph (a_table al)) as (-> & ->); auto).
  destruct G0 as (G1 & G2).
  assert (S0 : structure_ok g0).
  { split; [rewrite G1; discriminate|]. rewrite G1, G2. split; [|discriminate]. intros s a Ha. destruct s as [|[|s]]; destruct Ha. }
  unfold of_ol. cbn [tr tr_alphabet]. fold g0. unfold back_add_state. cbn [tr tr_tables tr_header].
  pose proof (HF 0 L0) as F0. rewrite HZ in F0. rewrite F0. cbn [rbind].
  set (g1 := match finw g 0 with Some w => _ | None => _ end).
  assert (AR : forall q, arcs g1 q = []).
  { intros q. unfold g1. destruct (finw g 0) as [w|].
    - change (arcs (set_final_weight (add_state_n g0 0) 0 (if h_weighted h then w else 0%Z)) q) with (arcs (add_state_n (add_state_n g0 0) 0) q).
      rewrite !arcs_add_state_n. unfold arcs. rewrite G1. destruct q as [|[|q]]; reflexivity.
    - unfold arcs. rewrite G1. destruct q as [|[|q]]; reflexivity. }
  assert (FI : forall q, finw g1 q = if q =? 0 then option_map (fun w => if weighted then w else 0%Z) (finw g 0) else None).
  { intros q. unfold g1. destruct (finw g 0) as [w|].
    - unfold finw, set_final_weight. cbn [with_fin fin add_state_n with_sts]. rewrite G2. destruct q; reflexivity.
    - unfold finw. rewrite G2. destruct q; reflexivity. }
  assert (I0 : inv tr g (addr g k) (alpha g0) (Back g1 (mset N.compare 0%N 0 []) 0 [0%N]) [] []).
  { split; cbn [b_graph b_map b_last b_agenda].
    - intros i j H. cbn [mset mget] in H. destruct (i ?= 0)%N eqn:C in H; try discriminate. apply N.compare_eq_iff in C. subst i. injection H as <-.
      split; [exists 0; split; [exact L0|symmetry; exact HZ]|lia].
    - reflexivity.
    - intros i1 i2 j H1 H2. cbn [mset mget] in H1, H2. destruct (i1 ?= 0)%N eqn:C1 in H1; try discriminate. destruct (i2 ?= 0)%N eqn:C2 in H2; try discriminate.
      apply N.compare_eq_iff in C1, C2. congruence.
    - intros i [<- |[]]. exists 0. split; [exact L0|]. split; [symmetry; exact HZ|]. split; [discriminate|]. split; intros [].
    - constructor; [intros []|constructor].
    - split; [constructor|intros s []].
    - intros s j L H. right. right. left. cbn [mset mget] in H. destruct (addr g k s ?= 0)%N eqn:C in H; try discriminate. apply N.compare_eq_iff in C. auto.
    - intros s j a' _ _ H. rewrite AR in H. destruct H.
    - intros s j a [].
    - intros s j L H. cbn [mset mget] in H. destruct (addr g k s ?= 0)%N eqn:C in H; try discriminate. apply N.compare_eq_iff in C. injection H as <-.
      assert (s = 0) by (apply HJ; [exact L|exact L0|congruence]). subst s. rewrite FI. reflexivity.
    - intros j Lj. split; [apply AR|]. rewrite FI. destruct j; [lia|reflexivity].
    - intros x. unfold g1. destruct (finw g 0); reflexivity.
    - intros q a H. rewrite AR in H. destruct H.
    - unfold g1. destruct (finw g 0); [apply structure_set_final, structure_add_state_n|]; exact S0. }
  assert (TA : forall x, In x (a_table al) -> In x (alpha g0)) by (intros x Hx; apply A0, TI, Hx).
  destruct (loop_ok dec tr g (addr g k) bad SG HZ HJ HF eq_refl HR (alpha g0) TA fuel _ [] I0) as [(g' & m & last & dn & EL & IE)|(EL & HB)].
  { cbn [length]. lia. }
  - left. exists g'. split; [exact EL|].
    assert (ALL : forall x, In x (alpha g') <-> In x (alpha g)) by (intros x; rewrite <- A0; exact (i_alpha _ _ _ _ _ _ _ IE x)).
    assert (LG : forall l w, accepts g' l w <-> exists v, accepts g l v /\ w = (if weighted then v else 0%Z))
      by exact (language dec tr g (addr g k) bad SG HZ HJ HF HR (alpha g0) g' m last dn IE).
    split; [|split; [apply same_paths_keep, LG|exact ALL]].
    split; [exact (i_struct _ _ _ _ _ _ _ IE)|]. split.
    + intros s a Ha. destruct (i_syms _ _ _ _ _ _ _ IE s a Ha) as (H1 & H2). rewrite !ALL, <- !A0. auto.
    + destruct SP as (P1 & P2 & P3). split; [|split]; apply ALL; assumption.
  - right. split; [exact EL|exact HB].
Qed.

(** C71: a transducer converted to the optimized-lookup format and back has the same paths, with
    their weights (0 if the format was unweighted), and the same alphabet.  Partial: every
    symbol of the alphabet but epsilon and flags is the input symbol of some transition
    (otherwise the index table may be read outside its bounds, see below); no "@I.x@" symbols;
    faithful weights; fewer than 2^31 entries. *)
Theorem C71_roundtrip_partial : forall enc dec g weighted tr fuel,
  well_formed g -> no_insertions g -> faithful enc dec g -> all_inputs g ->
  to_ol enc g weighted = Ok tr -> small tr -> length (sts g) <= fuel ->
  exists g', of_ol dec tr fuel = Ok g' /\ well_formed g' /\ same_paths weighted g g'
    /\ (forall x, In x (alpha g') <-> In x (alpha g)).
Proof.
  intros enc dec g weighted tr fuel W NI FF AI E SM LF.
  destruct (back_outcome enc dec g weighted tr fuel W NI FF E SM LF) as [H|(_ & x & y & Lx & Ex & ND)]; [exact H|]. exfalso.
  pose proof (number_nth _ _ _ (symbol_table_NoDup g) Ex) as NB.
  assert (Y : In y (alpha g)).
  { pose proof (nth_error_In _ _ Ex) as H. apply symbol_table_In in H. destruct W as (_ & SY & SP).
    destruct H as [-> |[H|(a & Ha & X)]]; [exact (proj1 SP)|exact H|].
    apply all_arcs_In in Ha. destruct Ha as (s & Ha). destruct (SY s a Ha). destruct X as [-> | ->]; assumption. }
  destruct (AI y Y) as [-> |[D|(s & a & Ha & <-)]]; [|congruence|].
  - change (number (symbol_table g) (B "@_EPSILON_SYMBOL_@")) with 0 in NB. pose proof (seen_pos g). lia.
  - pose proof (arc_input_number g s a Ha) as X. cbv zeta in X. rewrite NB in X. destruct X as [(_ & X)|(X & _)]; [lia|].
    unfold flag_like in X. rewrite ND, (not_insertion _ (NI s a Ha)) in X. discriminate.
Qed.
Print Assumptions C71_roundtrip_partial.

(** Without that condition: the conversion ends, with that result or by reading outside the
    index table; in particular it throws nothing. *)
Theorem C71_outcome_partial : forall enc dec g weighted tr fuel,
  well_formed g -> no_insertions g -> faithful enc dec g ->
  to_ol enc g weighted = Ok tr -> small tr -> length (sts g) <= fuel ->
  match of_ol dec tr fuel with
  | Ok g' => well_formed g' /\ same_paths weighted g g' /\ (forall x, In x (alpha g') <-> In x (alpha g))
  | Ub => ~ all_inputs g
  | _ => False
  end.
Proof.
  intros enc dec g weighted tr fuel W NI FF E SM LF.
  destruct (of_ol dec tr fuel) as [g'| | |] eqn:EO.
  1: { destruct (back_outcome enc dec g weighted tr fuel W NI FF E SM LF) as [(g'' & E2 & H)|(E2 & _)]; [|congruence].
       rewrite EO in E2. injection E2 as <-. exact H. }
  2: { intros AI. destruct (C71_roundtrip_partial enc dec g weighted tr fuel W NI FF AI E SM LF) as (g' & E2 & _). congruence. }
  all: destruct (back_outcome enc dec g weighted tr fuel W NI FF E SM LF) as [(g'' & E2 & H)|(E2 & _)]; congruence.
Qed.
Print Assumptions C71_outcome_partial.

(** The empty transducer and the one with the one path a:b cannot be converted back: the
    index table is read outside its bounds. *)
Definition olb_ab : graph := Graph [[Arc 1 (B "a") (B "b") 0]; []] [(1, 0%Z)] (symbols_of [B "a"; B "b"]).
Theorem C71_outside_refuted : 
  (exists tr, well_formed empty_graph /\ to_ol enc0 empty_graph true = Ok tr /\ small tr /\ forall fuel, of_ol dec0 tr (S fuel) = Ub)
  /\ (exists tr, well_formed olb_ab /\ to_ol enc0 olb_ab true = Ok tr /\ small tr /\ forall fuel, of_ol dec0 tr (S fuel) = Ub).
Proof.
  split.
  - destruct (to_ol enc0 empty_graph true) as [tr| | |] eqn:E; vm_compute in E; try discriminate E. injection E as E. exists tr.
    split; [apply small_wf; [apply small_structure; [reflexivity|discriminate]|vm_compute; reflexivity]|]. split; [reflexivity|]. subst tr.
    split; [split; vm_compute; reflexivity|]. intros fuel. vm_compute. reflexivity.
  - destruct (to_ol enc0 olb_ab true) as [tr| | |] eqn:E; vm_compute in E; try discriminate E. injection E as E. exists tr.
    split; [apply small_wf; [apply small_structure; [reflexivity|discriminate]|vm_compute; reflexivity]|]. split; [reflexivity|]. subst tr.
    split; [split; vm_compute; reflexivity|]. intros fuel. vm_compute. reflexivity.
Qed.
Print Assumptions C71_outside_refuted.

(** A cyclic transducer with flags, epsilons, unknown and identity symbols and weights meets the
    hypotheses. *)
Definition olb_ex : graph :=
  Graph [[Arc 1 (B "a") (B "b") 2; Arc 1 (B "@P.F.V@") (B "@P.F.V@") 0; Arc 2 (B "@_IDENTITY_SYMBOL_@") (B "@_IDENTITY_SYMBOL_@") 1];
         [Arc 0 (B "b") (B "@_EPSILON_SYMBOL_@") 0; Arc 2 (B "@_EPSILON_SYMBOL_@") (B "a") 3; Arc 1 (B "b") (B "b") 0];
         [Arc 2 (B "@_UNKNOWN_SYMBOL_@") (B "@_UNKNOWN_SYMBOL_@") 0]] [(0, 7%Z); (2, 4%Z)]
    (symbols_of [B "a"; B "b"; B "@P.F.V@"]).
Example C71_witness : exists tr,
  well_formed olb_ex /\ no_insertions olb_ex /\ faithful enc0 dec0 olb_ex /\ all_inputs olb_ex
  /\ to_ol enc0 olb_ex true = Ok tr /\ small tr
  /\ exists g', of_ol dec0 tr 3 = Ok g' /\ length (sts g') = 3 /\ g' <> olb_ex.
Proof.
  destruct (to_ol enc0 olb_ex true) as [tr| | |] eqn:E; vm_compute in E; try discriminate E. injection E as E. exists tr.
  split; [apply small_wf; [apply small_structure; [reflexivity|discriminate]|vm_compute; reflexivity]|].
  split; [apply small_no_insertions; vm_compute; reflexivity|].
  split; [apply small_faithful; vm_compute; reflexivity|]. split.
  { intros x Hx. vm_compute in Hx.
    repeat (destruct Hx as [<- |Hx]; [first [left; reflexivity|right; left; reflexivity
      |right; right; exists 0; eexists; split; [left; reflexivity|reflexivity]
      |right; right; exists 0; eexists; split; [right; right; left; reflexivity|reflexivity]
      |right; right; exists 1; eexists; split; [left; reflexivity|reflexivity]
      |right; right; exists 2; eexists; split; [left; reflexivity|reflexivity]]|]). destruct Hx. }
  split; [reflexivity|]. subst tr. split; [split; vm_compute; reflexivity|].
  eexists. split; [vm_compute; reflexivity|]. split; [reflexivity|discriminate].
Qed.
