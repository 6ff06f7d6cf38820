(** Theorems about compose_intersect (C130, C131). *)
From Verif Require Import Base Flags_Model BT_Model BT_Spec BT_Proofs Harm_Model Harm_Spec Harm_Proofs
  CI_Model CI_Spec CI_Props CW_Model CW_Spec CW_Proofs CW_Proofs2 CW_Proofs3.

(** * C130: the lexicon filtered by the rules *)
(** A lexicon without unknown and identity symbols and at least one rule: the call succeeds, and
    the paths of the result are exactly the words of the lexicon, with boundaries if the first
    rule knows them, joined with what all rules accept, weights added. *)
Theorem C130_lexicon_filtered_partial num sym : (forall x, sym (num x) = x) ->
  forall lexicon r rs, well_formed lexicon -> closed lexicon -> no_empty_symbol lexicon ->
  usable (rule_tree r rs) -> no_flags_in_pairs (rule_tree r rs) -> identities_paired r -> no_empty_symbol r ->
  (forall x, reserved_name x -> ~ used lexicon x /\ ~ knows (rule_tree r rs) x) ->
  exists n, forall fuel, n < fuel ->
    exists h, compose_intersect num sym fuel lexicon (r :: rs) false = Ok h /\ structure_ok h /\
      forall l w, has h l w <-> filtered lexicon r rs l w.
Proof.
  intros SN lexicon r rs W C N U NF P1 N1 R.
  assert (We := proj1 (tree_every _ r rs) (proj1 U)). assert (S1 : specials_ok r) by (inversion We as [|a b ((_ & _ & K) & _) _]; exact K).
  exact (forward num sym SN lexicon r rs W C N P1 N1 U NF S1 R).
Qed.
Print Assumptions C130_lexicon_filtered_partial.

(** * C131: the lexicon filtered from the other end *)
(** At least two rules, composed the other way round: inputs of the lexicon meet outputs of the
    rules. *)
Theorem C131_inverse_filtered_partial num sym : (forall x, sym (num x) = x) ->
  forall lexicon r r2 rs, well_formed lexicon -> closed lexicon -> no_empty_symbol lexicon ->
  usable (rule_tree r (r2 :: rs)) -> no_flags_in_pairs (rule_tree r (r2 :: rs)) -> identities_paired r -> no_empty_symbol r ->
  Forall turnable (r :: r2 :: rs) ->
  (forall x, reserved_name x -> ~ used lexicon x /\ ~ knows (rule_tree r (r2 :: rs)) x) ->
  exists n, forall fuel, n < fuel ->
    exists h, compose_intersect num sym fuel lexicon (r :: r2 :: rs) true = Ok h /\ structure_ok h /\
      forall l w, has h l w <-> filtered_inverse lexicon r (r2 :: rs) l w.
Proof.
  intros SN lexicon r r2 rs W C N U NF P1 N1 T R. exact (backward num sym SN lexicon r r2 rs W C N P1 N1 U NF T R).
Qed.
Print Assumptions C131_inverse_filtered_partial.

(** * Examples *)
(** A numbering of all symbols: the listed ones first. *)
Definition named := [EPS; UNK; IDN; B "a"; B "b"; B "c"; BND; B "k"; MIDN; MUNK].
Definition num1 (x : bstr) : nat :=
  match position x named with Some n => n | None => length named + Pos.to_nat (bits_pos (bytes_bits x)) end.
Definition sym1 (n : nat) : bstr :=
  match nth_error named n with Some x => x | None => bits_bytes (pos_bits (Pos.of_nat (n - length named))) end.
Lemma sym1_num1 x : sym1 (num1 x) = x.
Proof.
  unfold sym1, num1. destruct (position x named) as [n|] eqn:E; [rewrite (position_nth _ _ _ E); reflexivity|].
  destruct (nth_error named (length named + Pos.to_nat (bits_pos (bytes_bits x)))) eqn:N.
  - exfalso. assert (K : nth_error named (length named + Pos.to_nat (bits_pos (bytes_bits x))) <> None) by congruence. apply nth_error_Some in K. lia.
  - rewrite Nat.add_comm, Nat.add_sub, Pos2Nat.id. apply bits_inverse.
Qed.
Definition wf_test (g : graph) : bool :=
  negb (length (sts g) =? 0) &&
  forallb (forallb (fun a => (tgt a <? length (sts g)) && existsb (bstr_eqb (isy a)) (alpha g) && existsb (bstr_eqb (osy a)) (alpha g))) (sts g) &&
  forallb (fun e => fst e <? length (sts g)) (fin g) &&
  existsb (bstr_eqb EPS) (alpha g) && existsb (bstr_eqb UNK) (alpha g) && existsb (bstr_eqb IDN) (alpha g).
Lemma arcs_test (P : arc -> bool) g : forallb (forallb P) (sts g) = true -> forall s a, In a (nth s (sts g) []) -> P a = true.
Proof.
  intros H s a Ha. rewrite forallb_forall in H. destruct (Nat.lt_ge_cases s (length (sts g))) as [L|L]; [|rewrite nth_overflow in Ha by exact L; destruct Ha].
  assert (K := H _ (nth_In (sts g) [] L)). rewrite forallb_forall in K. exact (K a Ha).
Qed.
Lemma wf_tested g : wf_test g = true -> well_formed g.
Proof.
  unfold wf_test. rewrite !andb_true_iff. intros (((((H1 & H2) & H3) & H4) & H5) & H6).
  assert (A := arcs_test _ g H2). split; [split; [|split]|split; [|split; [|split]]].
  - destruct (sts g); [discriminate|discriminate].
  - intros s a Ha. apply A in Ha. rewrite !andb_true_iff in Ha. destruct Ha as ((Ha & _) & _). apply Nat.ltb_lt. exact Ha.
  - intros s w H. apply (mget_In _ Nat.compare_eq_iff) in H. rewrite forallb_forall in H3. apply H3 in H. apply Nat.ltb_lt. exact H.
  - intros s a Ha. apply A in Ha. rewrite !andb_true_iff in Ha. destruct Ha as ((_ & K1) & K2). split; apply in_; assumption.
  - apply in_. exact H4.
  - apply in_. exact H5.
  - apply in_. exact H6.
Qed.
Lemma used_tested (P : bstr -> bool) g : forallb (forallb (fun a => P (isy a) && P (osy a))) (sts g) = true -> forall x, used g x -> P x = true.
Proof. intros H x (s & a & Ha & Hx). apply (arcs_test _ g H) in Ha. apply andb_true_iff in Ha. destruct Hx as [-> | ->]; tauto. Qed.

(** A lexicon with the word k:a; rules that turn a into b between boundaries, which they delete,
    and that leave everything else as it is. *)
Definition word := Graph [[Arc 1 (B "k") (B "a") 2]; []] [(1, 1%Z)] [EPS; IDN; UNK; B "a"; B "k"].
Definition edges_rule := Graph [[Arc 1 BND EPS 0]; [Arc 1 (B "a") (B "b") 3; Arc 1 IDN IDN 0; Arc 2 BND EPS 0]; []] [(2, 0%Z)] [BND; EPS; IDN; UNK; B "a"; B "b"].
Definition loose_rule := Graph [[Arc 0 (B "a") (B "b") 0; Arc 0 (B "a") (B "a") 0; Arc 0 IDN IDN 0; Arc 0 BND EPS 0]] [(0, 0%Z)] [BND; EPS; IDN; UNK; B "a"; B "b"].
Lemma deterministic_tested g :
  forallb (fun l => forallb (fun a => forallb (fun b => if bstr_eqb (isy a) (isy b) && bstr_eqb (osy a) (osy b) then (tgt a =? tgt b) && Z.eqb (wt a) (wt b) else true) l) l) (sts g) = true ->
  label_deterministic g.
Proof.
  intros H s a b Ha Hb E1 E2. rewrite forallb_forall in H. destruct (Nat.lt_ge_cases s (length (sts g))) as [L|L]; [|rewrite nth_overflow in Ha by exact L; destruct Ha].
  assert (K := H _ (nth_In (sts g) [] L)). rewrite forallb_forall in K. assert (K2 := K a Ha). rewrite forallb_forall in K2. assert (K3 := K2 b Hb).
  rewrite E1, E2, !bstr_eqb_refl in K3. cbn [andb] in K3. apply andb_true_iff in K3. destruct K3 as [K3 K4]. apply Nat.eqb_eq in K3. apply Z.eqb_eq in K4.
  destruct a, b; simpl in *; congruence.
Qed.
Lemma rules_usable : usable (rule_tree edges_rule [loose_rule]).
Proof.
  split; split.
  - split; [apply wf_tested; vm_compute; reflexivity|]. intros [|[|[|[|s]]]]; vm_compute; lia.
  - split; [apply wf_tested; vm_compute; reflexivity|]. intros [|[|s]]; vm_compute; lia.
  - apply deterministic_tested. vm_compute. reflexivity.
  - apply deterministic_tested. vm_compute. reflexivity.
Qed.
Lemma rules_no_flags : no_flags_in_pairs (rule_tree edges_rule [loose_rule]).
Proof.
  intros x D K. assert (M : In x (alpha edges_rule)) by (destruct K; assumption). simpl in M.
  repeat (destruct M as [<-|M]; [vm_compute in D; discriminate|]). exact M.
Qed.
Lemma word_closed : closed word.
Proof.
  intros x U. apply (used_tested (fun x => negb (bstr_eqb x UNK) && negb (bstr_eqb x IDN)) word) in U; [|vm_compute; reflexivity].
  apply andb_true_iff in U. destruct U as [U1 U2]. split; intros ->; [discriminate U1|discriminate U2].
Qed.
Lemma names_free x : reserved_name x -> ~ used word x /\ ~ knows (rule_tree edges_rule [loose_rule]) x.
Proof.
  intros R. split.
  - intros U. apply (used_tested (fun x => negb (bstr_eqb x MIDN) && negb (bstr_eqb x MUNK)) word) in U; [|vm_compute; reflexivity].
    apply andb_true_iff in U. destruct U as [U1 U2]. destruct R as [-> | ->]; [discriminate U1|discriminate U2].
  - intros K. assert (M : In x (alpha edges_rule)) by (destruct K; assumption). simpl in M.
    destruct R as [-> | ->]; repeat (destruct M as [M|M]; [vm_compute in M; discriminate|]); exact M.
Qed.
Lemma rules_paired : identities_paired edges_rule /\ no_empty_symbol edges_rule /\ no_empty_symbol word.
Proof.
  split; [|split].
  - intros s a Ha. apply (arcs_test (fun a => Bool.eqb (bstr_eqb (isy a) IDN) (bstr_eqb (osy a) IDN)) edges_rule) in Ha; [|vm_compute; reflexivity].
    apply Bool.eqb_prop in Ha. change (isy a = IDN <-> osy a = IDN). destruct (bstr_eqb_spec (isy a) IDN), (bstr_eqb_spec (osy a) IDN); try discriminate Ha; tauto.
  - apply no_empty_of. split; [apply not_in_; vm_compute; reflexivity|]. intros U.
    apply (used_tested (fun x => negb (bstr_eqb x [])) edges_rule) in U; [discriminate U|vm_compute; reflexivity].
  - apply no_empty_of. split; [apply not_in_; vm_compute; reflexivity|]. intros U.
    apply (used_tested (fun x => negb (bstr_eqb x [])) word) in U; [discriminate U|vm_compute; reflexivity].
Qed.
Lemma rules_turnable : Forall turnable [edges_rule; loose_rule].
Proof.
  assert (G : forall g, forallb (forallb (fun a => Bool.eqb (bstr_eqb (isy a) IDN) (bstr_eqb (osy a) IDN) && negb (bstr_eqb (isy a) EPS))) (sts g) = true -> used g edge -> turnable g).
  { intros g H U. split; [|auto]. intros s a Ha. apply (arcs_test _ g H) in Ha. apply andb_true_iff in Ha. destruct Ha as [H1 H2]. apply Bool.eqb_prop in H1. split.
    - change (isy a = IDN <-> osy a = IDN). destruct (bstr_eqb_spec (isy a) IDN), (bstr_eqb_spec (osy a) IDN); try discriminate H1; tauto.
    - intros E. injection E as E _. rewrite E in H2. discriminate. }
  constructor; [|constructor; [|constructor]]; (apply G; [vm_compute; reflexivity|]).
  - exists 0, (Arc 1 BND EPS 0). split; [left; reflexivity|left; reflexivity].
  - exists 0, (Arc 0 BND EPS 0). split; [right; right; right; left; reflexivity|left; reflexivity].
Qed.
(** The hypotheses are met and the result maps k to b with weight 2 + 1 + 3. *)
Example C130_witness : well_formed word /\ closed word /\ no_empty_symbol word
  /\ usable (rule_tree edges_rule [loose_rule]) /\ no_flags_in_pairs (rule_tree edges_rule [loose_rule])
  /\ identities_paired edges_rule /\ no_empty_symbol edges_rule
  /\ (forall x, reserved_name x -> ~ used word x /\ ~ knows (rule_tree edges_rule [loose_rule]) x)
  /\ exists h, compose_intersect num1 sym1 20 word [edges_rule; loose_rule] false = Ok h /\ has h [(B "k", B "b")] 6.
Proof.
  split; [apply wf_tested; vm_compute; reflexivity|]. split; [exact word_closed|]. split; [apply rules_paired|]. split; [exact rules_usable|].
  split; [exact rules_no_flags|]. split; [apply rules_paired|]. split; [apply rules_paired|]. split; [exact names_free|].
  eexists. split; [vm_compute; reflexivity|]. exists [(EPS, EPS); (EPS, EPS); (B "k", B "b"); (EPS, EPS); (EPS, EPS)]. split; [|vm_compute; reflexivity].
  exists 5, 6%Z, 0%Z. split; [|split; [vm_compute; reflexivity|reflexivity]].
  eapply (run_cons _ 0 (Arc 1 EPS EPS 0) _ 6); [left; reflexivity|]. cbn [tgt].
  eapply (run_cons _ 1 (Arc 2 EPS EPS 0) _ 6); [left; reflexivity|]. cbn [tgt].
  eapply (run_cons _ 2 (Arc 3 (B "k") (B "b") 5) _ 1); [left; reflexivity|]. cbn [tgt].
  eapply (run_cons _ 3 (Arc 4 EPS EPS 1) _ 0); [left; reflexivity|]. cbn [tgt].
  eapply (run_cons _ 4 (Arc 5 EPS EPS 0) _ 0); [left; reflexivity|]. constructor.
Qed.
(** The other way round: the word b:k, whose b the rules make of an a. *)
Definition turned_lexicon := Graph [[Arc 1 (B "b") (B "k") 2]; []] [(1, 1%Z)] [EPS; IDN; UNK; B "b"; B "k"].
Example C131_witness : well_formed turned_lexicon /\ closed turned_lexicon /\ no_empty_symbol turned_lexicon
  /\ usable (rule_tree edges_rule [loose_rule]) /\ no_flags_in_pairs (rule_tree edges_rule [loose_rule])
  /\ identities_paired edges_rule /\ no_empty_symbol edges_rule /\ Forall turnable [edges_rule; loose_rule]
  /\ (forall x, reserved_name x -> ~ used turned_lexicon x /\ ~ knows (rule_tree edges_rule [loose_rule]) x)
  /\ exists h, compose_intersect num1 sym1 20 turned_lexicon [edges_rule; loose_rule] true = Ok h /\ has h [(B "a", B "k")] 6.
Proof.
  split; [apply wf_tested; vm_compute; reflexivity|]. split.
  { intros x U. apply (used_tested (fun x => negb (bstr_eqb x UNK) && negb (bstr_eqb x IDN)) turned_lexicon) in U; [|vm_compute; reflexivity].
    apply andb_true_iff in U. destruct U as [U1 U2]. split; intros ->; [discriminate U1|discriminate U2]. }
  split.
  { apply no_empty_of. split; [apply not_in_; vm_compute; reflexivity|]. intros U.
    apply (used_tested (fun x => negb (bstr_eqb x [])) turned_lexicon) in U; [discriminate U|vm_compute; reflexivity]. }
  split; [exact rules_usable|]. split; [exact rules_no_flags|]. split; [apply rules_paired|]. split; [apply rules_paired|]. split; [exact rules_turnable|]. split.
  { intros x R. split; [|apply (names_free x R)]. intros U. apply (used_tested (fun x => negb (bstr_eqb x MIDN) && negb (bstr_eqb x MUNK)) turned_lexicon) in U; [|vm_compute; reflexivity].
    apply andb_true_iff in U. destruct U as [U1 U2]. destruct R as [-> | ->]; [discriminate U1|discriminate U2]. }
  eexists. split; [vm_compute; reflexivity|]. exists [(EPS, EPS); (EPS, EPS); (B "a", B "k"); (EPS, EPS); (EPS, EPS)]. split; [|vm_compute; reflexivity].
  exists 5, 6%Z, 0%Z. split; [|split; [vm_compute; reflexivity|reflexivity]].
  eapply (run_cons _ 0 (Arc 1 EPS EPS 0) _ 6); [left; reflexivity|]. cbn [tgt].
  eapply (run_cons _ 1 (Arc 2 EPS EPS 0) _ 6); [left; reflexivity|]. cbn [tgt].
  eapply (run_cons _ 2 (Arc 3 (B "a") (B "k") 5) _ 1); [left; reflexivity|]. cbn [tgt].
  eapply (run_cons _ 3 (Arc 4 EPS EPS 1) _ 0); [left; reflexivity|]. cbn [tgt].
  eapply (run_cons _ 4 (Arc 5 EPS EPS 0) _ 0); [left; reflexivity|]. constructor.
Qed.

(** * What does not hold *)
(** No rules: the comment in the program promises an empty result, but the first element of an
    empty vector is read. *)
Theorem C130_no_rules_refuted : forall num sym fuel lexicon invert, compose_intersect num sym fuel lexicon [] invert = Ub.
Proof. reflexivity. Qed.
Print Assumptions C130_no_rules_refuted.

(** A lexicon with an identity transition: the word a belongs to it, the rule does not accept a,
    and yet a belongs to the result, because the alphabet of the result no longer has a. *)
Definition open_lexicon := Graph [[Arc 1 IDN IDN 0]; []] [(1, 0%Z)] [EPS; IDN; UNK].
Definition forbidding_rule := Graph [[Arc 0 IDN IDN 0]] [(0, 0%Z)] [EPS; IDN; UNK; B "a"].
Theorem C130_open_lexicon_refuted : exists h, well_formed open_lexicon /\ identities_paired open_lexicon /\ usable (One forbidding_rule)
  /\ compose_intersect num1 sym1 20 open_lexicon [forbidding_rule] false = Ok h
  /\ relation open_lexicon [(B "a", B "a")] 0 /\ (forall y w, ~ rules_accept (One forbidding_rule) [(B "a", y)] w) /\ relation h [(B "a", B "a")] 0.
Proof.
  assert (Out : forall al, existsb (bstr_eqb (B "a")) al = false -> outside al (B "a")).
  { intros al H. split; [|apply not_in_; exact H]. split; [intros [K|[K|K]]; discriminate|]. split; [reflexivity|].
    assert (Bt : forall c cs z, c <> "a"%char -> between (c :: cs) z -> z <> B "a") by (intros c cs z N (m & ->) E; apply N; injection E; congruence).
    intros [K|[K|[[K _]|[[K|K] _]]]]; [simpl in K; repeat (destruct K as [K|K]; [discriminate|]); exact K|..];
      (eapply Bt in K; [apply K; reflexivity|discriminate]). }
  eexists. split; [apply wf_tested; vm_compute; reflexivity|]. split.
  { intros [|[|[|s]]] a Ha; simpl in Ha; try destruct Ha as [<-|[]]; try destruct Ha. split; intros; reflexivity. }
  split; [split; [|exact I]; split; [apply wf_tested; vm_compute; reflexivity|intros [|[|s]]; vm_compute; lia]|].
  split; [vm_compute; reflexivity|]. split; [|split].
  - exists [(IDN, IDN)]. split; [|constructor; [apply means_identity; apply Out; vm_compute; reflexivity|constructor]].
    exists 1, 0%Z, 0%Z. split; [|split; reflexivity]. apply (run_cons _ 0 (Arc 1 IDN IDN 0) _ 0); [left; reflexivity|constructor].
  - intros y w (p & v & f & F & _). inversion F as [|p0 x0 y0 w0 q l v0 u R F']; subst. inversion R as [g s a Ha Ni E|g s a z Ha Hi N E|]; subst.
    + destruct Ha as [<-|[]]. apply Ni. reflexivity.
    + apply N. apply in_. vm_compute. reflexivity.
  - exists [(IDN, IDN)]. split; [|constructor; [apply means_identity; apply Out; vm_compute; reflexivity|constructor]].
    exists 1, 0%Z, 0%Z. split; [|split; reflexivity]. apply (run_cons _ 0 (Arc 1 IDN IDN 0) _ 0); [left; reflexivity|constructor].
Qed.
Print Assumptions C130_open_lexicon_refuted.

(** One rule, composed the other way round: the rule c:a and the lexicon a:b should give c:b, but
    the result is b:c, not turned back. *)
Definition ab_lexicon := Graph [[Arc 1 (B "a") (B "b") 0]; []] [(1, 0%Z)] [EPS; IDN; UNK; B "a"; B "b"].
Definition ca_rule := Graph [[Arc 0 (B "c") (B "a") 0]] [(0, 0%Z)] [EPS; IDN; UNK; B "a"; B "c"].
Theorem C131_one_rule_refuted : exists h, well_formed ab_lexicon /\ closed ab_lexicon /\ usable (One ca_rule) /\ turnable ca_rule
  /\ compose_intersect num1 sym1 20 ab_lexicon [ca_rule] true = Ok h
  /\ has h [(B "b", B "c")] 0 /\ ~ filtered_inverse ab_lexicon ca_rule [] [(B "b", B "c")] 0
  /\ ~ has h [(B "c", B "b")] 0 /\ filtered_inverse ab_lexicon ca_rule [] [(B "c", B "b")] 0.
Proof.
  assert (Lx : forall l w, accepts ab_lexicon l w -> l = [(B "a", B "b")]).
  { intros l w (t & v & f & R & F & _). inversion R as [|s a l' w' t' Ha R']; subst; [discriminate|]. destruct Ha as [<-|[]].
    inversion R' as [|s a l2 w2 t2 Ha2 R2]; subst; [reflexivity|destruct Ha2]. }
  assert (NE : ~ In edge (alpha ca_rule)) by (apply not_in_; vm_compute; reflexivity).
  assert (Se : ~ unseen (One ca_rule) (B "a")) by (intros [K|[K _]]; discriminate).
  eexists. split; [apply wf_tested; vm_compute; reflexivity|]. split.
  { intros x U. apply (used_tested (fun x => negb (bstr_eqb x UNK) && negb (bstr_eqb x IDN)) ab_lexicon) in U; [|vm_compute; reflexivity].
    apply andb_true_iff in U. destruct U as [U1 U2]. split; intros ->; [discriminate U1|discriminate U2]. }
  split; [split; [|exact I]; split; [apply wf_tested; vm_compute; reflexivity|intros [|[|s]]; vm_compute; lia]|]. split.
  { split; [|intros K; destruct (NE K)]. intros [|[|s]] a Ha; simpl in Ha; try destruct Ha as [<-|[]]; try destruct Ha. split; [split; intros K; discriminate K|discriminate]. }
  split; [vm_compute; reflexivity|]. split; [|split; [|split]].
  - exists [(B "b", B "c")]. split; [|reflexivity]. exists 1, 0%Z, 0%Z. split; [|split; reflexivity].
    apply (run_cons _ 0 (Arc 1 (B "b") (B "c") 0) _ 0); [left; reflexivity|constructor].
  - intros (pl & pl' & pr & k & w1 & w2 & A & [[K _]|[_ ->]] & Rp & J & E & _); [destruct (NE K)|]. apply Lx in A. subst pl.
    assert (Pr : forall p, In p pr -> p = (B "c", B "a")).
    { destruct Rp as (q & v & f & F & _). clear J. remember (start (One ca_rule)) as st. clear Heqst. cbn [rule_tree] in F.
      induction F as [p1|p0 x y w0 q l v0 u R F' IH]; intros p Hp; [destruct Hp|]. destruct Hp as [<-|Hp]; [|exact (IH p Hp)].
      inversion R as [g s a Ha Ni E0|g s a z Ha Hi N E0|]; subst.
      - destruct s as [|[|s]]; simpl in Ha; try destruct Ha as [<-|[]]; try destruct Ha. reflexivity.
      - destruct s as [|[|s]]; simpl in Ha; try destruct Ha as [<-|[]]; try destruct Ha. discriminate Hi. }
    assert (Ek : forall p, In p k -> swap p = (B "c", B "b") \/ fst p = EPS).
    { assert (G : forall a b c, joined (One ca_rule) a b c -> (forall p, In p a -> p = (B "b", B "a")) -> (forall p, In p b -> p = (B "a", B "c")) ->
        forall p, In p c -> swap p = (B "c", B "b") \/ fst p = EPS).
      { intros a b c J'. induction J' as [|i o a b c U J' IH|i x y a b c U J' IH|y a b c J' IH]; intros Ha Hb p Hp.
        - destruct Hp.
        - specialize (Ha _ (or_introl eq_refl)). injection Ha as -> ->. destruct (Se U).
        - destruct Hp as [<-|Hp]; [|apply IH; auto using in_cons]. assert (A1 := Ha _ (or_introl eq_refl)). assert (B1 := Hb _ (or_introl eq_refl)).
          injection A1 as -> ->. injection B1 as ->. left. reflexivity.
        - assert (B1 := Hb _ (or_introl eq_refl)). discriminate B1. }
      apply (G _ _ _ J); [intros p [<-|[]]; reflexivity|]. intros p Hp. apply in_map_iff in Hp. destruct Hp as (q & <- & Hq). rewrite (Pr q Hq). reflexivity. }
    assert (Hin : In (B "b", B "c") (bare (map swap k))) by (rewrite E; left; reflexivity). apply filter_In in Hin. destruct Hin as [Hin _].
    apply in_map_iff in Hin. destruct Hin as (p & Ep & Hp). destruct (Ek p Hp) as [K|K]; [rewrite K in Ep; discriminate|].
    destruct p as [x y]. cbn [fst] in K. subst x. discriminate.
  - intros (m & (t & v & f & R & F & _) & E). inversion R as [|s a l' w' t' Ha R']; subst; [discriminate|]. destruct Ha as [<-|[]]. cbn in E. discriminate.
  - exists [(B "a", B "b")], [(B "a", B "b")], [(B "c", B "a")], [(B "b", B "c")], 0%Z, 0%Z. split; [|split; [right; auto|split; [|split; [|split; reflexivity]]]].
    + exists 1, 0%Z, 0%Z. split; [|split; reflexivity]. apply (run_cons _ 0 (Arc 1 (B "a") (B "b") 0) _ 0); [left; reflexivity|constructor].
    + exists (At 0), 0%Z, 0%Z. split; [|split; reflexivity]. apply (follows_cons _ (At 0) (B "c") (B "a") 0 (At 0) [] 0 (At 0)); [|constructor].
      apply (reads_arc ca_rule 0 (Arc 0 (B "c") (B "a") 0)); [left; reflexivity|discriminate].
    + apply joined_both; [exact Se|constructor].
Qed.
Print Assumptions C131_one_rule_refuted.
