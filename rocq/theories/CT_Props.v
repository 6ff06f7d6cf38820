(** Properties C72 and C73: conversions between basic and tropical transducers. *)
From Coq Require Import Lia Sorted.
From Verif Require Import Base BT_Model BT_Spec Str_Model Str_Proofs Xp_Model Xp_Spec CT_Model CT_Spec CT_Proofs CT_Proofs2.

Lemma reached hist nm ns : requests numbering_init hist = Ok (nm, ns) ->
  num_ok nm /\ names nm 0 EPS /\ names nm 1 UNK /\ names nm 2 IDN.
Proof.
  intros H. destruct (requests_ok hist _ _ _ num_ok_init H) as (Hok & _ & ext & E & _). split; [exact Hok|].
  unfold names. rewrite E. repeat split; reflexivity.
Qed.

(** C72: a transducer converted to a tropical transducer and back is the same: the same
    transitions in the same order, final weights and alphabet.  The conversions may happen in
    different processes, with whatever symbols numbered before each of them. *)
Theorem C72_roundtrip : forall hist nm ns hist' nm' ns' g,
  requests numbering_init hist = Ok (nm, ns) -> requests numbering_init hist' = Ok (nm', ns') ->
  well_formed g -> map_ok g -> symbols_nonempty g ->
  exists nm1 t nm2 g', basic_to_tropical nm g = Ok (nm1, t) /\ tropical_to_basic nm' t true = Ok (nm2, g') /\
    sts g' = sts g /\ (forall s, mget Nat.compare s (fin g') = mget Nat.compare s (fin g)) /\
    (forall x, In x (alpha g') <-> In x (alpha g)).
Proof.
  intros hist nm ns hist' nm' ns' g H H' W M N. destruct (reached _ _ _ H) as (A & A0 & A1 & A2).
  destruct (reached _ _ _ H') as (A' & _). exact (round_trip nm nm' g A A0 A1 A2 A' W M N).
Qed.
Print Assumptions C72_roundtrip.
(** ... and the tropical transducer has the same weighted paths; its symbol table gives the
    symbols of the alphabet, by their global numbers. *)
Theorem C72_to_tropical : forall hist nm ns g,
  requests numbering_init hist = Ok (nm, ns) -> well_formed g -> map_ok g -> symbols_nonempty g ->
  exists nm1 t, basic_to_tropical nm g = Ok (nm1, OFst t true None) /\
    length (t_states t) = length (sts g) /\
    (forall l w, tropical_accepts t l w <-> accepts g l w) /\
    (forall k x, In (k, x) (t_syms t) -> get_symbol nm1 k = Ok x) /\
    (forall x, In x (map snd (t_syms t)) <-> In x (alpha g)).
Proof.
  intros hist nm ns g H W M N. destruct (reached _ _ _ H) as (A & A0 & A1 & A2).
  destruct (to_tropical_ok nm g A A0 A1 A2 W M N) as (nm1 & [t hb ot] & E & Hn1 & X1 & B1 & B2 & B3 & B4 & B5 & B6 & B7 & B8 & B9 & B10).
  cbn [o_fst o_has_table o_out] in *. subst hb ot. exists nm1, t. split; [exact E|]. split; [exact B6|].
  split; [|split; [intros k x K; apply B8 in K; unfold get_symbol; unfold names in K; rewrite K; reflexivity|exact B7]].
  intros l w. symmetry. destruct W as ((Nn & Ht & Hf) & _). apply same_language with (i := 0).
  - rewrite B6. destruct (sts g); [congruence|cbn [length]; lia].
  - exact B5.
  - apply B4.
  - intros s _. rewrite swap_0. symmetry. apply B9.
  - intros s _. rewrite swap_0. symmetry. apply B10.
  - exact B3.
  - intros s L. destruct (finw g s) as [z|] eqn:F; [|reflexivity]. exfalso. apply Hf in F. lia.
Qed.
Print Assumptions C72_to_tropical.
(** A transducer with a transition whose symbol has been removed from the alphabet is not
    preserved: after the round trip the symbol is epsilon. *)
Definition missing : graph := Graph [[Arc 1 (B "a") (B "b") 0]; []] [(1, 0%Z)] [B "b"; EPS; IDN; UNK].
Theorem C72_alphabet_refuted : exists nm ns nm1 t nm2 g',
  requests numbering_init [B "a"; B "b"] = Ok (nm, ns) /\
  basic_to_tropical nm missing = Ok (nm1, t) /\ tropical_to_basic nm t true = Ok (nm2, g') /\
  arcs g' 0 = [Arc 1 EPS (B "b") 0].
Proof.
  eexists _, _, _, _, _, _. split; [vm_compute; reflexivity|]. split; [vm_compute; reflexivity|].
  split; [vm_compute; reflexivity|]. vm_compute. reflexivity.
Qed.
Print Assumptions C72_alphabet_refuted.
Definition sample : graph :=
  Graph [[Arc 1 (B "a") EPS 2; Arc 0 (B "b") (B "a") 1]; [Arc 0 IDN IDN 0]; []] [(1, 3%Z); (2, 0%Z)] [B "a"; B "b"; B "c"; EPS; IDN; UNK].
Example C72_witness : (exists nm ns, requests numbering_init [B "c"; B "x"; B "a"] = Ok (nm, ns)) /\
  well_formed sample /\ map_ok sample /\ symbols_nonempty sample /\ accepts sample [(B "b", B "a"); (B "a", EPS)] 6.
Proof.
  split; [eexists _, _; vm_compute; reflexivity|]. split; [split; [|split]|split; [|split]].
  - split; [discriminate|]. split.
    + intros [|[|[|s]]] a H; cbn in H; try (destruct s; destruct H); intuition; subst; cbn; lia.
    + intros s w H. cbn in *. destruct s as [|[|[|s]]]; try discriminate; lia.
  - intros [|[|[|s]]] a H; cbn [sample sts nth In] in H; try (destruct s; destruct H); intuition; subst; cbn [sample alpha isy osy In]; tauto.
  - unfold specials_ok, sample, EPS, UNK, IDN. cbn [alpha In]. tauto.
  - unfold map_ok. cbn. repeat constructor.
  - unfold symbols_nonempty. cbn. intuition discriminate.
  - exists 1, 3%Z, 3%Z. split; [|split; reflexivity].
    apply (run_cons sample 0 (Arc 0 (B "b") (B "a") 1) _ 2 1); [right; left; reflexivity|].
    apply (run_cons sample 0 (Arc 1 (B "a") EPS 2) _ 0 1); [left; reflexivity|]. constructor.
Qed.

(** C73: a tropical transducer, whatever its start state, becomes a basic transducer with the
    same number of states, starting from state 0, with the same weighted paths, the labels
    named by its symbol table.  The alphabet gets the symbols of both tables. *)
Theorem C73_to_basic : forall hist nm ns t out i hdr,
  requests numbering_init hist = Ok (nm, ns) -> t_start t = Some i -> i < length (t_states t) ->
  table_ok (t_syms t) -> labelled t -> (forall tab, out = Some tab -> ~ In [] (map snd tab)) ->
  exists nm1 g, tropical_to_basic nm (OFst t true out) hdr = Ok (nm1, g) /\
    length (sts g) = length (t_states t) /\
    (forall l w, accepts g l w <-> tropical_accepts t l w) /\
    (forall x, In x (alpha g) <-> special x \/ tabled (t_syms t) x \/ exists tab, out = Some tab /\ tabled tab x).
Proof.
  intros hist nm ns t out i hdr H Es Hi Ht Hl Ho. destruct (reached _ _ _ H) as (A & _).
  destruct (to_basic_ok nm (OFst t true out) i hdr A Es Hi eq_refl Ht Hl Ho) as (nm1 & g & E & _ & L & Ha & Hout & Al).
  exists nm1, g. split; [exact E|]. split; [exact L|]. split.
  - apply same_language with (i := i); try assumption; [apply Ht| |]; intros s Ls; apply Ha; exact Ls.
  - intros x. rewrite Al. unfold empty_graph, initialize_alphabet. cbn [alpha]. rewrite !(In_sadd bcmp bcmp_eq). unfold special.
    fold EPS UNK IDN. cbn [In]. tauto.
Qed.
Print Assumptions C73_to_basic.
(** ... state for state: the start state and state 0 change places, the others keep their
    numbers; every state keeps its transitions, in order, and its final weight. *)
Theorem C73_states : forall hist nm ns t out i hdr,
  requests numbering_init hist = Ok (nm, ns) -> t_start t = Some i -> i < length (t_states t) ->
  table_ok (t_syms t) -> labelled t -> (forall tab, out = Some tab -> ~ In [] (map snd tab)) ->
  exists nm1 g pos, tropical_to_basic nm (OFst t true out) hdr = Ok (nm1, g) /\
    pos i = 0 /\ pos 0 = i /\ (forall s, s <> i -> s <> 0 -> pos s = s) /\
    forall s, s < length (t_states t) ->
      mget Nat.compare (pos s) (fin g) = fst (nth s (t_states t) (None, [])) /\
      Forall2 (fun a b => tgt b = pos (l_to a) /\ wt b = l_w a /\ In (l_in a, isy b) (t_syms t) /\ In (l_out a, osy b) (t_syms t))
        (snd (nth s (t_states t) (None, []))) (nth (pos s) (sts g) []).
Proof.
  intros hist nm ns t out i hdr H Es Hi Ht Hl Ho. destruct (reached _ _ _ H) as (A & _).
  destruct (to_basic_ok nm (OFst t true out) i hdr A Es Hi eq_refl Ht Hl Ho) as (nm1 & g & E & _ & L & Ha & Hout & Al).
  cbn [o_fst] in *. exists nm1, g, (swap i). split; [exact E|]. split; [apply swap_start|].
  split; [unfold swap; destruct (Nat.eqb_spec 0 i); [exact e|reflexivity]|].
  split; [intros s N1 N2; unfold swap; rewrite (proj2 (Nat.eqb_neq s i) N1), (proj2 (Nat.eqb_neq s 0) N2); reflexivity|].
  intros s Ls. destruct (Ha s Ls) as (Ha1 & Ha2). split; [exact Ha2|]. fold (arcs g (swap i s)). rewrite Ha1.
  assert (K : forall a, In a (t_arcs t s) -> In (l_in a) (map fst (t_syms t)) /\ In (l_out a) (map fst (t_syms t))).
  { intros a Ka. destruct (Hl s a Ka) as (K1 & K2 & _). auto. }
  assert (F : forall k, In k (map fst (t_syms t)) -> In (k, find_label (t_syms t) k) (t_syms t)).
  { intros k Hk. apply in_map_iff in Hk. destruct Hk as ([k' x] & Ek & Hk). cbn [fst] in Ek. subst k'.
    rewrite (find_label_eq _ _ _ (proj1 Ht) Hk). exact Hk. }
  fold (t_arcs t s). revert K. generalize (t_arcs t s). intros l K. induction l as [|a l IH]; constructor.
  - destruct (K a (or_introl eq_refl)) as (K1 & K2). cbn [carc tgt wt isy osy]. repeat split; auto.
  - apply IH. intros b Hb. apply K. right. exact Hb.
Qed.
Print Assumptions C73_states.
(** The result has all its symbols in its alphabet when label 0 is named epsilon. *)
Theorem C73_alphabet : forall hist nm ns t out i hdr,
  requests numbering_init hist = Ok (nm, ns) -> t_start t = Some i -> i < length (t_states t) ->
  table_ok (t_syms t) -> labelled t -> (forall tab, out = Some tab -> ~ In [] (map snd tab)) ->
  (forall x, In (0, x) (t_syms t) -> x = B "@_EPSILON_SYMBOL_@") ->
  exists nm1 g, tropical_to_basic nm (OFst t true out) hdr = Ok (nm1, g) /\ well_formed g.
Proof.
  intros hist nm ns t out i hdr H Es Hi Ht Hl Ho H0. destruct (reached _ _ _ H) as (A & _).
  destruct (to_basic_ok nm (OFst t true out) i hdr A Es Hi eq_refl Ht Hl Ho) as (nm1 & g & E & _ & L & Ha & Hout & Al).
  cbn [o_fst] in *. exists nm1, g. split; [exact E|].
  assert (Sp : forall x, special x -> In x (alpha g)).
  { intros x Hx. apply Al. left. unfold empty_graph, initialize_alphabet. cbn [alpha]. rewrite !(In_sadd bcmp bcmp_eq).
    unfold special in Hx. fold EPS UNK IDN in Hx. tauto. }
  assert (Hs : forall s a, In a (nth s (sts g) []) -> s < length (t_states t)).
  { intros s a K. rewrite <- L. destruct (Nat.lt_ge_cases s (length (sts g))) as [|G]; [assumption|]. rewrite nth_overflow in K by exact G. destruct K. }
  assert (Pre : forall s b, In b (nth s (sts g) []) -> exists u a, In a (t_arcs t u) /\ b = carc t i a).
  { intros s b K. pose proof (Hs s b K) as Ls. pose proof (swap_lt i s _ Hi Ls) as Ls'. destruct (Ha _ Ls') as (Ha1 & _).
    rewrite swap_swap in Ha1. unfold arcs in Ha1. rewrite Ha1 in K. apply in_map_iff in K. destruct K as (a & <- & K).
    exists (swap i s), a. auto. }
  assert (F : forall k, In k (map fst (t_syms t)) -> In (find_label (t_syms t) k) (alpha g)).
  { intros k Hk. apply in_map_iff in Hk. destruct Hk as ([k' x] & Ek & Hk). cbn [fst] in Ek. subst k'.
    rewrite (find_label_eq _ _ _ (proj1 Ht) Hk). destruct (Nat.eq_dec k 0) as [->|N].
    - apply Sp. left. apply H0. exact Hk.
    - apply Al. right. left. exists k. auto. }
  split; [split; [|split]|split].
  - intros E0. rewrite E0 in L. cbn [length] in L. lia.
  - intros s b K. destruct (Pre s b K) as (u & a & Ka & ->). rewrite L. cbn [carc tgt]. apply swap_lt; [exact Hi|]. apply (Hl u a Ka).
  - intros s w K. rewrite L. destruct (Nat.lt_ge_cases s (length (t_states t))) as [|G]; [assumption|].
    apply Hout in G. unfold finw in G. congruence.
  - intros s b K. destruct (Pre s b K) as (u & a & Ka & ->). destruct (Hl u a Ka) as (K1 & K2 & _). cbn [carc isy osy]. auto.
  - repeat split; apply Sp; unfold special; tauto.
Qed.
Print Assumptions C73_alphabet.
(** A transducer without states, with a symbol table: no paths, and the symbols as above. *)
Theorem C73_empty : forall hist nm ns tab (out : option (list (nat * bstr))) hdr,
  requests numbering_init hist = Ok (nm, ns) -> table_ok tab -> (forall tab, out = Some tab -> ~ In [] (map snd tab)) ->
  exists nm1 g, tropical_to_basic nm (OFst (TFst [] None tab) true out) hdr = Ok (nm1, g) /\
    (forall l w, ~ accepts g l w) /\
    (forall x, In x (alpha g) <-> special x \/ tabled tab x \/ exists tab, out = Some tab /\ tabled tab x).
Proof.
  intros hist nm ns tab out hdr H Ht Ho. destruct (reached _ _ _ H) as (A & _).
  unfold tropical_to_basic, handle_symbol_tables, copy_alphabet. cbn [o_has_table o_fst t_start o_out t_syms t_states].
  rewrite andb_false_r. destruct (vectors_ok nm tab A Ht) as (v & nm1 & harmv & Ev & Eh & _).
  assert (G : forall g, exists g', match out with Some tab => add_table g tab | None => Ok g end = Ok g' /\ sts g' = sts g /\ fin g' = fin g /\
            forall x, In x (alpha g') <-> In x (alpha g) \/ exists tab, out = Some tab /\ tabled tab x).
  { intros g. destruct out as [o|].
    - destruct (add_table_ok o (Ho o eq_refl) g) as (g3 & E3 & S3 & F3 & A3). exists g3. repeat (split; [assumption|]).
      intros x. rewrite A3. split; [|intros [K|(o' & Et & K)]; [left; exact K|injection Et as <-; right; exact K]].
      intros [K|K]; [left; exact K|right; exists o; auto].
    - exists g. repeat (split; [reflexivity|]). intros x. split; [tauto|]. intros [K|(o & Et & _)]; [exact K|discriminate]. }
  destruct (add_table_ok tab (proj2 (proj2 Ht)) empty_graph) as (g1 & E1 & S1 & F1 & A1). rewrite E1. cbn [rbind].
  assert (G' : exists g', match out with Some tab => if hdr then Ok g1 else add_table g1 tab | None => Ok g1 end = Ok g' /\ sts g' = sts g1 /\ fin g' = fin g1 /\
     (forall x, In x (alpha g') -> In x (alpha g1) \/ exists tab, out = Some tab /\ tabled tab x) /\ incl (alpha g1) (alpha g')).
  { destruct hdr.
    - exists g1. split; [destruct out; reflexivity|]. repeat (split; [reflexivity|]). split; [tauto|apply incl_refl].
    - destruct (G g1) as (g' & E & S2 & F2 & A2). exists g'. repeat (split; [assumption|]).
      split; intros x Hx; apply A2; [exact Hx|left; exact Hx]. }
  destruct G' as (g2 & -> & S2 & F2 & A2 & I2). cbn [rbind]. rewrite Ev. cbn [rbind]. rewrite Eh. cbn [rbind length seq combine rfold].
  destruct (add_table_ok tab (proj2 (proj2 Ht)) g2) as (g3 & -> & S3 & F3 & A3). cbn [rbind].
  destruct (G g3) as (g4 & -> & S4 & F4 & A4). cbn [rbind]. exists nm1, g4. split; [reflexivity|]. split.
  - intros l w (u & z & f & _ & F & _). rewrite F4, F3, F2, F1 in F. discriminate.
  - intros x. assert (Em : In x (alpha empty_graph) <-> special x).
    { unfold empty_graph, initialize_alphabet. cbn [alpha]. rewrite !(In_sadd bcmp bcmp_eq). unfold special. fold EPS UNK IDN. cbn [In]. tauto. }
    rewrite A4, A3. rewrite <- Em. split.
    + intros [[K|K]|K]; [|tauto|tauto]. apply A2 in K. destruct K as [K|K]; [|tauto]. apply A1 in K. tauto.
    + intros [K|[K|K]]; [|tauto|tauto]. left. left.
      apply I2. apply A1. left. exact K.
Qed.
Print Assumptions C73_empty.
(** An OpenFst transducer without states need not have symbol tables, says the code, but then
    the missing table is used. *)
Theorem C73_no_table_refuted : forall nm, tropical_to_basic nm (OFst (TFst [] None []) false None) false = Ub.
Proof. intros nm. reflexivity. Qed.
Print Assumptions C73_no_table_refuted.
(** The output labels are named by the input symbol table even when the transducer has an
    output symbol table that names them otherwise. *)
Theorem C73_output_table_refuted : exists nm g,
  tropical_to_basic numbering_init
    (OFst (TFst [(None, [LArc 3 3 0 1]); (Some 0%Z, [])] (Some 0) [(0, EPS); (3, B "a")]) true (Some [(0, EPS); (3, B "b")])) false = Ok (nm, g) /\
  arcs g 0 = [Arc 1 (B "a") (B "a") 0] /\ ~ accepts g [(B "a", B "b")] 0.
Proof.
  eexists _, _. split; [vm_compute; reflexivity|]. split; [vm_compute; reflexivity|].
  intros (u & v & f & R & _). remember [(B "a", B "b")] as l eqn:El. destruct R as [s|s a l w t Ha R]; [discriminate|].
  injection El as E1 E2 _. destruct s as [|[|s]]; [|destruct Ha|destruct s; destruct Ha].
  destruct Ha as [Ha|[]]. subst a. discriminate.
Qed.
Print Assumptions C73_output_table_refuted.
(** A label that the table lacks is taken for epsilon when the table has a greater label
    (when it has not, the conversion fails). *)
Theorem C73_gap_refuted : (exists nm g,
    tropical_to_basic numbering_init (OFst (TFst [(None, [LArc 3 4 0 1]); (Some 0%Z, [])] (Some 0) [(0, EPS); (4, B "a")]) true None) true = Ok (nm, g) /\
    arcs g 0 = [Arc 1 EPS (B "a") 0]) /\
  tropical_to_basic numbering_init (OFst (TFst [(None, [LArc 3 5 0 1]); (Some 0%Z, [])] (Some 0) [(0, EPS); (4, B "a")]) true None) true = Throw.
Proof.
  split; [|vm_compute; reflexivity]. eexists _, _. split; [vm_compute; reflexivity|]. vm_compute. reflexivity.
Qed.
Print Assumptions C73_gap_refuted.
(** Label 0 is always epsilon to OpenFst, but with another name than epsilon's it becomes an
    ordinary symbol, missing from the alphabet. *)
Theorem C73_foreign_epsilon_refuted : exists nm g,
  tropical_to_basic numbering_init (OFst (TFst [(None, [LArc 1 0 0 1]); (Some 0%Z, [])] (Some 0) [(0, B "<eps>"); (1, B "a")]) true None) false = Ok (nm, g) /\
  arcs g 0 = [Arc 1 (B "a") (B "<eps>") 0] /\ ~ symbols_ok g.
Proof.
  eexists _, _. split; [vm_compute; reflexivity|]. split; [vm_compute; reflexivity|].
  intros H. destruct (H 0 (Arc 1 (B "a") (B "<eps>") 0)) as (_ & K).
  - vm_compute. left. reflexivity.
  - vm_compute in K. intuition discriminate.
Qed.
Print Assumptions C73_foreign_epsilon_refuted.
Definition started : tfst :=
  TFst [(Some 2%Z, []); (None, [LArc 5 0 1 2; LArc 7 5 0 0]); (None, [LArc 5 7 3 1])] (Some 1) [(0, EPS); (7, B "a"); (5, B "b")].
Example C73_witness : t_start started = Some 1 /\ table_ok (t_syms started) /\ labelled started /\
  tropical_accepts started [(B "b", EPS); (B "b", B "a"); (B "a", B "b")] 6.
Proof.
  split; [reflexivity|]. split; [|split].
  - split; [|split]; [repeat constructor; simpl; intuition discriminate|repeat constructor; simpl; intuition discriminate|simpl; intuition discriminate].
  - intros [|[|[|s]]] a H; cbn in H; try (destruct s; destruct H); intuition; subst; cbn; auto.
  - exists 1, [LArc 5 0 1 2; LArc 5 7 3 1; LArc 7 5 0 0], 0, 4%Z, 2%Z. split; [reflexivity|]. split.
    + apply tp_cons; [left; reflexivity|]. apply tp_cons; [left; reflexivity|]. apply tp_cons; [right; left; reflexivity|]. constructor.
    + split; [|split; [reflexivity|split; reflexivity]].
      repeat (apply Forall2_cons; [cbn; split; tauto|]). apply Forall2_nil.
Qed.
