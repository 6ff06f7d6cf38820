(** Properties C147 to C150: hidden flags, affix guessers, and walks through a transducer. *)
From Verif Require Import Base Flags_Model Flags_Spec Flags_Proofs BT_Model BT_Spec BT_Proofs Harm_Spec Harm_Proofs FH_Spec FH_Model FH_Proofs GT_Spec GT_Model GT_Proofs.

(** C147: encode_flag_diacritics refuses transducers with a symbol that looks like a hidden flag, and
    only those.  Otherwise it hides each flag on the paths and leaves no flag in the alphabet;
    decode_flag_diacritics brings back the paths, the weights and the alphabet. *)
Theorem C147_refused g : encode_flag_diacritics g = Throw <-> exists s, In s (alpha g) /\ looks_hidden s.
Proof.
  unfold encode_flag_diacritics. destruct (existsb reserved_symbol (alpha g)) eqn:E.
  - split; [intros _|reflexivity]. apply existsb_exists in E. destruct E as (s & Hs & E). exists s. split; [exact Hs|apply reserved_iff; exact E].
  - split; [discriminate|]. intros (s & Hs & L). apply reserved_iff in L. rewrite (existsb_false _ _ E s Hs) in L. discriminate L.
Qed.
Print Assumptions C147_refused.
Theorem C147_round_trip g : symbols_ok g -> specials_ok g -> (forall s, In s (alpha g) -> ~ looks_hidden s) ->
  exists e, encode_flag_diacritics g = Ok e /\
  (forall l w, accepts e l w <-> exists k, accepts g k w /\ Forall2 (fun p q => hidden (fst p) (fst q) /\ hidden (snd p) (snd q)) k l) /\
  (forall s, In s (alpha e) -> ~ is_flag s) /\
  (forall l w, accepts (decode_flag_diacritics e) l w <-> accepts g l w) /\
  (forall s, In s (alpha (decode_flag_diacritics e)) <-> In s (alpha g)).
Proof.
  intros SO SP N. exists (relabel encode_symbol g).
  assert (SO' : symbols_ok (relabel encode_symbol g)).
  { intros s a Ha. rewrite !relabel_alpha by exact SO. rewrite (proj1 (relabel_sts encode_symbol g)) in Ha. change (@nil arc) with (map (fun a => Arc (tgt a) (encode_symbol (isy a)) (encode_symbol (osy a)) (wt a)) []) in Ha. rewrite map_nth in Ha. apply in_map_iff in Ha. destruct Ha as (b & <- & Hb). destruct (SO s b Hb) as (H1 & H2). cbn [isy osy]. split; right; [exists (isy b)|exists (osy b)]; auto. }
  assert (Sf : forall x, special x -> decode_symbol x = x /\ encode_symbol x = x /\ ~ is_flag x). { intros x [->|[->| ->]]; (split; [reflexivity|split; [reflexivity|apply not_flag_iff; reflexivity]]). }
  split; [|split; [|split; [|split]]].
  - unfold encode_flag_diacritics. destruct (existsb reserved_symbol (alpha g)) eqn:E; [|reflexivity]. apply existsb_exists in E. destruct E as (s & Hs & E). apply reserved_iff in E. destruct (N s Hs E).
  - intros l w. rewrite relabel_accepts. split; intros (k & A & H); exists k; (split; [exact A|]); apply hidden_pairs; exact H.
  - intros s Hs. apply relabel_alpha in Hs; [|exact SO]. destruct Hs as [Hs|(y & _ & ->)]; [apply (Sf s Hs)|apply encoded_no_flag].
  - intros l w. unfold decode_flag_diacritics. rewrite relabel_accepts. setoid_rewrite relabel_accepts.
    assert (M : forall k w, accepts g k w -> map (fun p => (decode_symbol (fst p), decode_symbol (snd p))) (map (fun p => (encode_symbol (fst p), encode_symbol (snd p))) k) = k).
    { intros k w0 (t & v & f & R & _). apply run_symbols in R; [|exact SO]. rewrite map_map. induction R as [|[i o] k (H1 & H2) _ IH]; [reflexivity|]. cbn [map fst snd] in *. rewrite IH, !decode_encode by (apply N; assumption). reflexivity. }
    split.
    + intros (k' & (k & A & ->) & ->). rewrite (M k w A). exact A.
    + intros A. exists (map (fun p => (encode_symbol (fst p), encode_symbol (snd p))) l). split; [exists l; auto|]. symmetry. exact (M l w A).
  - intros s. unfold decode_flag_diacritics. rewrite relabel_alpha by exact SO'. split.
    + intros [H|(y & Hy & ->)]; [destruct SP as (P1 & P2 & P3); destruct H as [->|[->| ->]]; assumption|]. apply relabel_alpha in Hy; [|exact SO]. destruct Hy as [Hy|(x & Hx & ->)]; [rewrite (proj1 (Sf y Hy)); destruct SP as (P1 & P2 & P3); destruct Hy as [->|[->| ->]]; assumption|]. rewrite decode_encode by (apply N; exact Hx). exact Hx.
    + intros H. right. exists (encode_symbol s). split; [|rewrite decode_encode; [reflexivity|apply N; exact H]]. apply relabel_alpha; [exact SO|]. right. exists s. auto.
Qed.
Print Assumptions C147_round_trip.

(** C148: the guesser for suffixes reads one or more copied symbols, of the weight given each, and
    then any ending the transducer knows, with its weight. *)
Theorem C148_guessed_partial weight g l w : structure_ok g -> accepts (guess_suffix weight g) l w <->
  exists u v x, l = u ++ v /\ u <> [] /\ copies (alpha g) u /\ ending g v x /\ w = (Z.of_nat (length u) * weight + x)%Z.
Proof. apply guess_suffix_accepts. Qed.
Print Assumptions C148_guessed_partial.
(** If every state can be reached, the endings are those of the words of the transducer. *)
Theorem C148_endings_partial g v x : structure_ok g -> reachable g -> ending g v x <-> exists p y, accepts g (p ++ v) (y + x) /\ exists s, run g 0 p y s /\ exists t z f, run g s v z t /\ mget Nat.compare t (fin g) = Some f /\ x = (z + f)%Z.
Proof.
  intros SO RC. split.
  - intros (s & t & z & f & L & R & F & ->). destruct (RC s L) as (p & y & P). exists p, y. split; [exists t, (y + z)%Z, f; split; [exact (BT_Proofs3.run_app g 0 p y s v z t P R)|split; [exact F|lia]]|]. exists s. split; [exact P|]. exists t, z, f. auto.
  - intros (p & y & _ & s & P & t & z & f & R & F & ->). exists s, t, z, f. split; [|auto].
    assert (L : 0 < length (sts g)) by (destruct SO as (N & _); destruct (sts g); [congruence|cbn; lia]). clear - P L SO. destruct SO as (_ & ST & _). induction P as [s|s a l w t Ha _ IH]; [exact L|]. exact (IH (ST _ _ Ha)).
Qed.
Print Assumptions C148_endings_partial.

(** C149: the guesser for prefixes keeps the words of the transducer and reads, after any beginning it
    knows, one or more identity symbols, of the weight given each. *)
Theorem C149_guessed_partial weight g l w : structure_ok g -> accepts (guess_prefix weight g) l w <->
  accepts g l w \/ exists p n x, l = p ++ repeat (B "@_IDENTITY_SYMBOL_@", B "@_IDENTITY_SYMBOL_@") (S n) /\ beginning g p x /\ w = (x + Z.of_nat (S n) * weight)%Z.
Proof. apply guess_prefix_accepts. Qed.
Print Assumptions C149_guessed_partial.

(** C150: hfst-traverse shows just the paths that read the labels given so far; labels that no path can
    read are passed over. *)
Theorem C150_walk g labels : exists kept, follows g [] labels kept /\
  forall x s, In (x, s) (traverse g labels) <-> exists l, walks g kept l s /\ x = shown l.
Proof.
  destruct (traverse_from g labels [] [([], 0)]) as (kept & F & _ & H).
  - split; [discriminate|]. intros x s. cbn [In]. split.
    + intros [E|[]]. injection E as <- <-. exists []. split; [split; [reflexivity|exists 0%Z; constructor]|reflexivity].
    + intros (l & (E & w & R) & ->). destruct l; [|discriminate E]. inversion R; subst. left. reflexivity.
  - exists kept. split; [exact F|exact H].
Qed.
Print Assumptions C150_walk.

(** ** Cases *)
Definition flagp : bstr := B "@P.F.V@".
Definition wg : graph := set_final_weight (add_transition (add_transition empty_graph 0 (Arc 1 (B "a") (B "b") 1) true) 1 (Arc 2 flagp flagp 0) true) 2 3.
Lemma wg_arcs s a : In a (nth s (sts wg) []) -> (s = 0 /\ a = Arc 1 (B "a") (B "b") 1) \/ (s = 1 /\ a = Arc 2 flagp flagp 0).
Proof. destruct s as [|[|[|[|s]]]]; cbn; intros H; try (destruct H as [<-|[]]; auto); destruct H. Qed.
Lemma wg_structure : structure_ok wg.
Proof.
  split; [discriminate|]. split.
  - intros s a H. destruct (wg_arcs s a H) as [(-> & ->)|(-> & ->)]; cbn; lia.
  - intros [|[|[|s]]] w; cbn; intros H; try discriminate H; lia.
Qed.
Lemma wg_alpha s : In s (alpha wg) -> s = EPS \/ s = IDN \/ s = UNK \/ s = B "a" \/ s = B "b" \/ s = flagp.
Proof. intros H. change (alpha wg) with [EPS; IDN; flagp; UNK; B "a"; B "b"] in H || change (alpha wg) with [EPS; IDN; UNK; B "a"; B "b"; flagp] in H || vm_compute in H. repeat (destruct H as [<-|H]; [auto 8|]). destruct H. Qed.
Lemma wg_symbols : symbols_ok wg /\ specials_ok wg.
Proof. split; [intros s a H; destruct (wg_arcs s a H) as [(-> & ->)|(-> & ->)]; vm_compute; tauto|repeat split; vm_compute; tauto]. Qed.
Lemma wg_accepts : accepts wg [(B "a", B "b"); (flagp, flagp)] 4.
Proof.
  exists 2, 1%Z, 3%Z. split; [|split; reflexivity]. apply (run_cons wg 0 (Arc 1 (B "a") (B "b") 1) _ 0); [left; reflexivity|]. apply (run_cons wg 1 (Arc 2 flagp flagp 0) _ 0); [left; reflexivity|constructor].
Qed.
Example C147_witness : symbols_ok wg /\ specials_ok wg /\ (forall s, In s (alpha wg) -> ~ looks_hidden s) /\ is_flag flagp /\
  (exists e, encode_flag_diacritics wg = Ok e /\ accepts e [(B "a", B "b"); (B "%P.F.V%", B "%P.F.V%")] 4) /\
  encode_flag_diacritics (add_symbol wg (B "%P.F.V%")) = Throw.
Proof.
  assert (N : forall s, In s (alpha wg) -> ~ looks_hidden s). { intros s H L. apply reserved_iff in L. destruct (wg_alpha s H) as [->|[->|[->|[->|[->| ->]]]]]; discriminate L. }
  assert (F : is_flag flagp) by (apply flag_iff; reflexivity).
  split; [apply wg_symbols|]. split; [apply wg_symbols|]. split; [exact N|]. split; [exact F|]. split.
  - destruct (C147_round_trip wg (proj1 wg_symbols) (proj2 wg_symbols) N) as (e & E & A & _). exists e. split; [exact E|]. apply A. exists [(B "a", B "b"); (flagp, flagp)]. split; [exact wg_accepts|].
    assert (Na : forall s, is_diacritic s = false -> hidden s s) by (intros s H; apply hid_other, not_flag_iff, H).
    constructor; [split; apply Na; reflexivity|]. constructor; [split; exact (hid_flag (B "P.F.V") F)|constructor].
  - apply C147_refused. exists (B "%P.F.V%"). split; [vm_compute; tauto|]. exists (B "P.F.V"). split; [reflexivity|exact F].
Qed.
Example C148_witness : structure_ok wg /\ reachable wg /\ accepts (guess_suffix 5 wg) [(B "b", B "b"); (IDN, IDN); (flagp, flagp)] 13.
Proof.
  split; [exact wg_structure|]. split.
  - intros s L. assert (R1 : run wg 0 [(B "a", B "b")] 1 1) by (apply (run_cons wg 0 (Arc 1 (B "a") (B "b") 1) _ 0); [left; reflexivity|constructor]).
    destruct s as [|[|[|s]]]; [exists [], 0%Z; constructor|exists [(B "a", B "b")], 1%Z; exact R1| |cbn in L; lia].
    exists ([(B "a", B "b")] ++ [(flagp, flagp)]), (1 + 0)%Z. eapply BT_Proofs3.run_app; [exact R1|]. apply (run_cons wg 1 (Arc 2 flagp flagp 0) _ 0); [left; reflexivity|constructor].
  - apply C148_guessed_partial; [exact wg_structure|]. exists [(B "b", B "b"); (IDN, IDN)], [(flagp, flagp)], 3%Z. split; [reflexivity|]. split; [discriminate|]. split; [|split; [|reflexivity]].
    + constructor; [split; [reflexivity|right; vm_compute; tauto]|]. constructor; [split; [reflexivity|left; reflexivity]|constructor].
    + exists 1, 2, 0%Z, 3%Z. split; [cbn; lia|]. split; [|split; reflexivity]. apply (run_cons wg 1 (Arc 2 flagp flagp 0) _ 0); [left; reflexivity|constructor].
Qed.
(** The alphabet has the unknown symbol, so the guessed part need not be copied: x becomes y. *)
Example C148_copied_refuted : exists x y, x <> y /\ relation (guess_suffix 1 wg) [(x, y); (B "a", B "b"); (flagp, flagp)] 5.
Proof.
  exists (B "x"), (B "y"). split; [discriminate|]. exists [(UNK, UNK); (B "a", B "b"); (flagp, flagp)]. split.
  - apply C148_guessed_partial; [exact wg_structure|]. exists [(UNK, UNK)], [(B "a", B "b"); (flagp, flagp)], 4%Z. split; [reflexivity|]. split; [discriminate|]. split; [constructor; [split; [reflexivity|right; vm_compute; tauto]|constructor]|]. split; [|reflexivity].
    destruct wg_accepts as (t & v & f & R & F & E). exists 0, t, v, f. split; [cbn; lia|auto].
  - assert (O : forall s, ordinary s -> smem bcmp s (alpha (guess_suffix 1 wg)) = false -> outside (alpha (guess_suffix 1 wg)) s). { intros s Os M. split; [exact Os|]. intros K. apply (smem_In bcmp bcmp_eq) in K. congruence. }
    constructor; [apply means_unknowns; [refine (O (B "x") _ _); [split; [intros [K|[K|K]]; discriminate K|]; split; [reflexivity|]; intros K; apply pmatch_special_spec in K; discriminate K|vm_compute; reflexivity]|refine (O (B "y") _ _); [split; [intros [K|[K|K]]; discriminate K|]; split; [reflexivity|]; intros K; apply pmatch_special_spec in K; discriminate K|vm_compute; reflexivity]|discriminate]|]. constructor; [apply means_itself; [discriminate|discriminate|intros (K & _); discriminate K]|]. constructor; [apply means_itself; [discriminate|discriminate|intros (K & _); discriminate K]|constructor].
Qed.
Example C149_witness : accepts (guess_prefix 5 wg) [(B "a", B "b"); (IDN, IDN); (IDN, IDN)] 11 /\ accepts (guess_prefix 5 wg) [(B "a", B "b"); (flagp, flagp)] 4.
Proof.
  split; apply C149_guessed_partial; try exact wg_structure; [right|left; exact wg_accepts]. exists [(B "a", B "b")], 1, 1%Z. split; [reflexivity|]. split; [|reflexivity]. exists 1. apply (run_cons wg 0 (Arc 1 (B "a") (B "b") 1) _ 0); [left; reflexivity|constructor].
Qed.
(** Identity does not stand for the symbols of the alphabet: after a:b the letter z is guessed, the
    letter a is not. *)
Example C149_letters_refuted : relation (guess_prefix 1 wg) [(B "a", B "b"); (B "z", B "z")] 2 /\ forall w, ~ relation (guess_prefix 1 wg) [(B "a", B "b"); (B "a", B "a")] w.
Proof.
  split.
  - exists [(B "a", B "b"); (IDN, IDN)]. split.
    + apply C149_guessed_partial; [exact wg_structure|]. right. exists [(B "a", B "b")], 0, 1%Z. split; [reflexivity|]. split; [|reflexivity]. exists 1. apply (run_cons wg 0 (Arc 1 (B "a") (B "b") 1) _ 0); [left; reflexivity|constructor].
    + constructor; [apply means_itself; [discriminate|discriminate|intros (K & _); discriminate K]|]. constructor; [|constructor]. apply means_identity. split; [split; [intros [K|[K|K]]; discriminate K|]; split; [reflexivity|]; intros K; apply pmatch_special_spec in K; discriminate K|]. intros K. apply (smem_In bcmp bcmp_eq) in K. vm_compute in K. discriminate K.
  - intros w (m & A & M). apply C149_guessed_partial in A; [|exact wg_structure]. destruct A as [(t & v & f & R & F & _)|(p & n & x & -> & _ & _)].
    + inversion R as [|? a1 ? ? ? H1 R1]; subst; [inversion M|]. destruct (wg_arcs _ _ H1) as [(_ & ->)|(K & _)]; [|discriminate K]. cbn [tgt isy osy] in *. inversion M as [|? ? ? ? _ M2]; subst. inversion R1 as [|? a2 ? ? ? H2 R2]; subst; [inversion M2|]. destruct (wg_arcs _ _ H2) as [(K & _)|(_ & ->)]; [discriminate K|]. inversion M2 as [|? ? ? ? M3 _]; subst. cbn [isy osy] in M3. change (means (alpha (guess_prefix 1 wg)) (flagp, flagp) (B "a", B "a")) in M3. remember (flagp, flagp) as pf eqn:Ep. remember (B "a", B "a") as pa eqn:Ea. destruct M3; try (apply (f_equal fst) in Ep; vm_compute in Ep; discriminate Ep); try (apply (f_equal snd) in Ep; vm_compute in Ep; discriminate Ep). apply (f_equal fst) in Ep, Ea. cbn [fst] in Ep, Ea. rewrite Ep in Ea. vm_compute in Ea. discriminate Ea.
    + replace (S n) with (n + 1) in M by lia. rewrite repeat_app, app_assoc in M. apply Forall2_app_inv_l in M. destruct M as (l1 & l2 & _ & M & E). inversion M as [|? q ? l3 Q M']; subst. inversion M'; subst. assert (Eq : q = (B "a", B "a")). { change [(B "a", B "b"); (B "a", B "a")] with ([(B "a", B "b")] ++ [(B "a", B "a")]) in E. apply app_inj_tail in E. symmetry. apply E. } rewrite Eq in Q. change (means (alpha (guess_prefix 1 wg)) (IDN, IDN) (B "a", B "a")) in Q.
      remember (IDN, IDN) as pi eqn:Ep. remember (B "a", B "a") as pa eqn:Ea. destruct Q as [y O| | | |i o _ _ NI]; try (apply (f_equal fst) in Ep; vm_compute in Ep; discriminate Ep); try (apply (f_equal snd) in Ep; vm_compute in Ep; discriminate Ep); [|destruct NI; split; [exact (f_equal fst Ep)|exact (f_equal snd Ep)]]. apply (f_equal fst) in Ea. cbn [fst] in Ea. apply (proj2 O). rewrite Ea. vm_compute. tauto.
Qed.
Example C150_witness : traverse wg [B "x"; B "a"; B "b"; flagp] = [(B "a:b " ++ flagp ++ B ":" ++ flagp ++ B " ", 2)] /\
  traverse wg [B "a"] = [(B "a:b ", 1)].
Proof. split; vm_compute; reflexivity. Qed.
