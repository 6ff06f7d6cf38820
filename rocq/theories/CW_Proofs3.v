(** Proofs about compose_intersect: lexicon and rules turned round. *)
From Verif Require Import Base Flags_Model BT_Model BT_Spec BT_Proofs BT_Proofs2 BT_Proofs3 BT_Proofs5 Harm_Model Harm_Spec Harm_Proofs
  CI_Model CI_Spec CI_Props CW_Model CW_Spec CW_Proofs CW_Proofs2.

Lemma put_rule p : put (EPS, BND) (BND, EPS) (swap p) = turned_rule p.
Proof.
  destruct p as [x y]. unfold put, turned_rule, swap, pair_eqb. cbn [fst snd]. rewrite andb_comm. unfold EPS, BND, edge, epsilon.
  destruct (bstr_eqb_spec x (B "@#@")) as [->|], (bstr_eqb_spec y (B "@_EPSILON_SYMBOL_@")) as [->|]; reflexivity.
Qed.
Lemma put_word p : put (BND, EPS) (EPS, BND) (swap p) = turned_word p.
Proof.
  destruct p as [x y]. unfold put, turned_word, swap, pair_eqb. cbn [fst snd]. rewrite andb_comm. unfold EPS, BND, edge, epsilon.
  destruct (bstr_eqb_spec x (B "@_EPSILON_SYMBOL_@")) as [->|], (bstr_eqb_spec y (B "@#@")) as [->|]; reflexivity.
Qed.
Lemma turned_rule_symbols p : let q := turned_rule p in fst q = fst p /\ snd q = snd p \/ fst q = snd p /\ snd q = fst p.
Proof. unfold turned_rule. destruct (_ && _); [left; auto|right; auto]. Qed.
Lemma turned_word_symbols p : let q := turned_word p in fst q = fst p /\ snd q = snd p \/ fst q = snd p /\ snd q = fst p.
Proof. unfold turned_word. destruct (_ && _); [left; auto|right; auto]. Qed.
Lemma turned_rule_injective p q : p <> (epsilon, edge) -> q <> (epsilon, edge) -> turned_rule p = turned_rule q -> p = q.
Proof.
  destruct p as [x y], q as [u v]. unfold turned_rule, swap. cbn [fst snd]. intros N1 N2.
  destruct (bstr_eqb_spec x edge) as [->|A1], (bstr_eqb_spec y epsilon) as [->|A2], (bstr_eqb_spec u edge) as [->|A3], (bstr_eqb_spec v epsilon) as [->|A4];
    cbn [andb]; intros E; try reflexivity; injection E; intros; subst; try reflexivity; try contradiction; congruence.
Qed.

(** * A turned rule *)
Definition turned_graph (g g' : graph) : Prop :=
  well_formed g' /\ fin g' = fin g
  /\ (forall s a', In a' (nth s (sts g') []) <-> exists a, In a (nth s (sts g) []) /\ a' = relabel a (turned_rule (label a)))
  /\ (forall x, In x (alpha g') <-> In x (alpha g)).
Lemma reread_alpha g x : In x (alpha (reread g)) <-> special x \/ In x (alpha g).
Proof. unfold reread, initialize_alphabet. cbn [alpha with_alpha]. rewrite !(In_sadd bcmp bcmp_eq). unfold special, EPS, UNK, IDN. tauto. Qed.
Lemma reread_wf g : structure_ok g -> symbols_ok g -> well_formed (reread g).
Proof.
  intros S Y. split; [exact S|]. split.
  - intros s a Ha. destruct (Y s a Ha). split; apply reread_alpha; right; assumption.
  - repeat split; apply reread_alpha; unfold special; auto.
Qed.
Lemma turn_symbols g : symbols_ok g -> symbols_ok (turn g).
Proof. intros Y. apply symbols_of_used. intros x Hx. apply (proj1 (turn_used g x)) in Hx. exact (proj1 (symbols_of_used g) Y x Hx). Qed.
Lemma filter_map_length {A B} (P : A -> bool) (Q : B -> bool) (f : A -> B) l : (forall a, In a l -> Q (f a) = P a) ->
  length (filter Q (map f l)) = length (filter P l).
Proof.
  induction l as [|a l IH]; intros H; [reflexivity|]. cbn [map filter]. rewrite H by (left; reflexivity).
  destruct (P a); cbn [length]; rewrite IH; auto; intros b Hb; apply H; right; exact Hb.
Qed.
Lemma prepared g : well_formed g -> turnable g -> exists g', prepare_rule true g = Ok g' /\ turned_graph g g' /\ (one_identity g -> one_identity g').
Proof.
  intros (S & Y & P) (T1 & T2). unfold prepare_rule.
  destruct (substituted (EPS, BND) (BND, EPS) (turn g)) as (g' & E & F & S' & Y' & I & N & A1 & A2);
    [reflexivity|reflexivity|apply turn_structure; exact S|apply turn_symbols; exact Y|simpl; tauto|].
  exists (reread g'). rewrite E. cbn [rmap]. split; [reflexivity|].
  assert (I' : forall s a', In a' (nth s (sts g') []) <-> exists a, In a (nth s (sts g) []) /\ a' = relabel a (turned_rule (label a))).
  { intros s a'. rewrite I. split.
    - intros (b & Hb & ->). rewrite turn_nth in Hb. apply in_map_iff in Hb. destruct Hb as (a & <- & Ha). exists a. split; [exact Ha|].
      rewrite <- put_rule. reflexivity.
    - intros (a & Ha & ->). exists (relabel a (swap (label a))). split; [rewrite turn_nth; apply in_map_iff; eauto|]. rewrite <- put_rule. reflexivity. }
  assert (U : forall x, used g x -> used g' x).
  { intros x (s & a & Ha & Hx). exists s, (relabel a (turned_rule (label a))). split; [apply I'; eauto|].
    destruct (turned_rule_symbols (label a)) as [[E1 E2]|[E1 E2]]; cbn [relabel isy osy label fst snd] in *; rewrite E1, E2; tauto. }
  split.
  - split; [apply reread_wf; assumption|]. split; [exact F|]. split.
    + exact I'.
    + intros x. rewrite reread_alpha. split.
      * intros [K|K]; [|exact (A1 x K)]. destruct P as (P1 & P2 & P3). destruct K as [->|[->| ->]]; assumption.
      * intros K. destruct (bstr_eq_dec x EPS) as [->|NE]; [left; left; reflexivity|]. right. apply A2; [exact K|].
        destruct (bstr_eq_dec x BND) as [->|NB]; [right; apply U; apply T2; exact K|left]. simpl. intuition congruence.
  - intros O s. cbn [reread sts with_alpha]. rewrite N, filter_app, app_length.
    assert (Z : filter (fun a => bstr_eqb (isy a) (B "@_IDENTITY_SYMBOL_@")) (flat_map (fun a => if pair_eqb (label a) (EPS, BND) then [relabel a (BND, EPS)] else []) (nth s (sts (turn g)) [])) = []).
    { induction (nth s (sts (turn g)) []) as [|a l IH]; [reflexivity|]. cbn [flat_map]. rewrite filter_app, IH. destruct (pair_eqb _ _); reflexivity. }
    rewrite Z. cbn [length]. rewrite Nat.add_0_r, turn_nth, map_map.
    rewrite (filter_map_length (fun a => bstr_eqb (isy a) (B "@_IDENTITY_SYMBOL_@"))); [apply O|].
    intros a Ha. change (label (relabel a (swap (label a)))) with (swap (label a)). rewrite put_rule. cbn [relabel isy].
    destruct (T1 s a Ha) as [T _]. destruct (turned_rule_symbols (label a)) as [[E1 _]|[E1 _]]; cbn [label fst snd] in E1; rewrite E1; [reflexivity|].
    destruct (bstr_eqb_spec (osy a) (B "@_IDENTITY_SYMBOL_@")), (bstr_eqb_spec (isy a) (B "@_IDENTITY_SYMBOL_@")); tauto.
Qed.

(** * Turned trees of rules *)
Inductive turned : rules -> rules -> Prop :=
| turned_one g g' : turned_graph g g' -> turnable g -> (one_identity g -> one_identity g') -> turned (One g) (One g')
| turned_both r1 r2 r1' r2' : turned r1 r1' -> turned r2 r2' -> turned (Both r1 r2) (Both r1' r2').
Lemma turned_knows T T' : turned T T' -> forall x, knows T' x <-> knows T x.
Proof. intros H. induction H as [g g' (_ & _ & _ & A) _ _|r1 r2 r1' r2' H1 IH1 H2 IH2]; intros x; cbn [knows]; [apply A|rewrite IH1, IH2; reflexivity]. Qed.
Lemma turned_every T T' : turned T T' -> every (fun g => well_formed g /\ one_identity g) T -> every (fun g => well_formed g /\ one_identity g) T'.
Proof.
  intros H. induction H as [g g' (W & _) _ O|r1 r2 r1' r2' H1 IH1 H2 IH2]; cbn [every]; [intros [_ K]; split; [exact W|exact (O K)]|]. intros [K1 K2]. auto.
Qed.
Lemma turned_deterministic T T' : turned T T' -> every label_deterministic T -> every label_deterministic T'.
Proof.
  intros H. induction H as [g g' (_ & _ & I & _) (T1 & _) _|r1 r2 r1' r2' H1 IH1 H2 IH2]; cbn [every]; [|tauto].
  intros D s a b Ha Hb E1 E2. apply I in Ha, Hb. destruct Ha as (c & Hc & ->), Hb as (d & Hd & ->).
  assert (L : label c = label d).
  { apply turned_rule_injective; [apply (T1 s c Hc)|apply (T1 s d Hd)|]. cbn [relabel isy osy] in E1, E2.
    destruct (turned_rule (label c)), (turned_rule (label d)). cbn [fst snd] in *. congruence. }
  assert (c = d) by (apply (D s); [exact Hc|exact Hd|unfold label in L; congruence|unfold label in L; congruence]). subst d. reflexivity.
Qed.
Lemma turned_usable T T' : turned T T' -> usable T -> usable T'.
Proof.
  intros H [U1 U2]. split; [exact (turned_every T T' H U1)|]. inversion H; subst; [exact I|]. exact (turned_deterministic _ _ H U2).
Qed.
Lemma turned_flags T T' : turned T T' -> no_flags_in_pairs T -> no_flags_in_pairs T'.
Proof.
  intros H N. inversion H as [g g' G _ _ E1 E2|r1 r2 r1' r2' H1 H2 E1 E2]; subst; [exact I|]. intros x D K. apply (turned_knows _ _ H) in K. exact (N x D K).
Qed.
Lemma turned_start T T' : turned T T' -> start T' = start T.
Proof. intros H. induction H; cbn [start]; [reflexivity|congruence]. Qed.
Lemma turned_stops T T' : turned T T' -> forall p, stops T' p = stops T p.
Proof.
  intros H. induction H as [g g' (_ & F & _) _ _|r1 r2 r1' r2' H1 IH1 H2 IH2]; intros [s|p1 p2]; cbn [stops]; try reflexivity; [rewrite F; reflexivity|rewrite IH1, IH2; reflexivity].
Qed.
Lemma reads_not_inserted T T' : turned T T' -> every (fun g => well_formed g /\ one_identity g) T ->
  forall p x y w q, reads T p x y w q -> (x, y) <> (epsilon, edge).
Proof.
  intros H. induction H as [g g' _ (T1 & _) _|r1 r2 r1' r2' H1 IH1 H2 IH2]; cbn [every].
  - intros _ p x y w q R. inversion R as [g0 s a Ha _ E|g0 s a z Ha Hi N E|]; subst; [apply (T1 s a Ha)|]. intros K. injection K as K1 K2. rewrite K1 in K2. discriminate.
  - intros [U1 U2] p x y w q R. inversion R as [| |a b p1 p2 x0 y0 w1 w2 q1 q2 R1 R2]; subst. exact (IH1 U1 _ _ _ _ _ R1).
Qed.
Lemma turned_same x : x <> epsilon \/ x <> edge -> turned_rule (x, x) = (x, x).
Proof. unfold turned_rule, swap. cbn [fst snd]. destruct (_ && _); reflexivity. Qed.
Lemma relabel_parts a q : relabel a q = Arc (tgt a) (fst q) (snd q) (wt a).
Proof. reflexivity. Qed.
Lemma turned_reads T T' : turned T T' -> every (fun g => well_formed g /\ one_identity g) T ->
  forall p x' y' w q, reads T' p x' y' w q <-> exists x y, reads T p x y w q /\ (x', y') = turned_rule (x, y).
Proof.
  intros H. induction H as [g g' (_ & _ & I & A) (T1 & _) _|r1 r2 r1' r2' H1 IH1 H2 IH2]; cbn [every]; intros U p x' y' w q.
  - assert (Id : forall s a, In a (nth s (sts g) []) -> (fst (turned_rule (label a)) = B "@_IDENTITY_SYMBOL_@" <-> isy a = B "@_IDENTITY_SYMBOL_@")).
    { intros s a Ha. destruct (T1 s a Ha) as [P _]. destruct (turned_rule_symbols (label a)) as [[E _]|[E _]]; cbn [label fst snd] in E; rewrite E; tauto. }
    split.
    + intros R. inversion R as [g0 s a' Ha Ni E|g0 s a' z Ha Hi N E|]; subst.
      * apply I in Ha. destruct Ha as (a & Ha & ->). exists (isy a), (osy a). cbn [relabel isy osy tgt wt] in *. split.
        { apply reads_arc; [exact Ha|]. intros K. apply Ni. apply (Id s a Ha). exact K. }
        change (isy a, osy a) with (label a). destruct (turned_rule (label a)); reflexivity.
      * apply I in Ha. destruct Ha as (a & Ha & ->). cbn [relabel isy tgt wt] in *. exists y', y'. split.
        { apply reads_identity; [exact Ha|apply (Id s a Ha); exact Hi|rewrite <- A; exact N]. }
        unfold turned_rule, swap. cbn [fst snd]. destruct (_ && _); reflexivity.
    + intros (x & y & R & E). inversion R as [g0 s a Ha Ni E0|g0 s a z Ha Hi N E0|]; subst.
      * change (isy a, osy a) with (label a) in E. assert (Ha' : In (relabel a (turned_rule (label a))) (nth s (sts g') [])) by (apply I; eauto).
        replace x' with (isy (relabel a (turned_rule (label a)))) by (rewrite <- E; reflexivity).
        replace y' with (osy (relabel a (turned_rule (label a)))) by (rewrite <- E; reflexivity).
        apply (reads_arc g' s (relabel a (turned_rule (label a))) Ha'). cbn [relabel isy]. intros K. apply (Id s a Ha) in K. contradiction.
      * assert (E' : turned_rule (y, y) = (y, y)) by (unfold turned_rule, swap; cbn [fst snd]; destruct (_ && _); reflexivity).
        rewrite E' in E. injection E as -> ->. assert (Ha' : In (relabel a (turned_rule (label a))) (nth s (sts g') [])) by (apply I; eauto).
        apply (reads_identity g' s (relabel a (turned_rule (label a))) y Ha'); [cbn [relabel isy]; apply (Id s a Ha); exact Hi|rewrite A; exact N].
  - destruct U as [U1 U2]. split.
    + intros R. inversion R as [| |a b p1 p2 x0 y0 w1 w2 q1 q2 R1 R2]; subst. apply (IH1 U1) in R1. apply (IH2 U2) in R2.
      destruct R1 as (x1 & y1 & R1 & E1), R2 as (x2 & y2 & R2 & E2).
      assert (K : (x1, y1) = (x2, y2)).
      { apply turned_rule_injective; [exact (reads_not_inserted _ _ H1 U1 _ _ _ _ _ R1)|exact (reads_not_inserted _ _ H2 U2 _ _ _ _ _ R2)|congruence]. }
      injection K as <- <-. exists x1, y1. split; [apply reads_both; assumption|exact E1].
    + intros (x & y & R & E). inversion R as [| |a b p1 p2 x0 y0 w1 w2 q1 q2 R1 R2]; subst. apply reads_both; [apply (IH1 U1)|apply (IH2 U2)]; eauto.
Qed.
Lemma turned_accept T T' : turned T T' -> every (fun g => well_formed g /\ one_identity g) T ->
  forall l' w, rules_accept T' l' w <-> exists l, rules_accept T l w /\ l' = map turned_rule l.
Proof.
  intros H U.
  assert (F : forall p l' v q, follows T' p l' v q <-> exists l, follows T p l v q /\ l' = map turned_rule l).
  { intros p l' v q. split.
    - intros F. induction F as [p|p x y w q l v u R F (m & IH & ->)]; [exists []; split; [constructor|reflexivity]|].
      apply (turned_reads T T' H U) in R. destruct R as (x0 & y0 & R & E). exists ((x0, y0) :: m). split; [econstructor; eassumption|]. cbn [map]. congruence.
    - intros (l & F & ->). induction F as [p|p x y w q l v u R F IH]; [constructor|]. cbn [map].
      destruct (turned_rule (x, y)) as [x' y'] eqn:E. apply follows_cons with (q := q); [|exact IH]. apply (turned_reads T T' H U). eauto. }
  intros l' w. unfold rules_accept. rewrite (turned_start T T' H). split.
  - intros (p & v & f & A & S & ->). apply F in A. destruct A as (l & A & ->). rewrite (turned_stops T T' H) in S. exists l. split; [exists p, v, f; auto|reflexivity].
  - intros (l & (p & v & f & A & S & ->) & ->). exists p, v, f. split; [apply F; eauto|]. rewrite (turned_stops T T' H). auto.
Qed.
Lemma joined_knows T T' : (forall x, knows T' x <-> knows T x) -> forall a b c, joined T a b c -> joined T' a b c.
Proof.
  intros K a b c J. assert (V : forall x, unseen T' x <-> unseen T x) by (intros x; unfold unseen; rewrite K; reflexivity).
  induction J; [constructor|apply joined_lexicon; [apply V|]; assumption|apply joined_both; [rewrite V|]; assumption|apply joined_rules; assumption].
Qed.
Lemma turned_tree r rs r' rs' : turned (One r) (One r') -> Forall2 (fun g g' => turned (One g) (One g')) rs rs' -> turned (rule_tree r rs) (rule_tree r' rs').
Proof.
  intros H F. inversion F as [|r2 r2' l l' H2 F2]; subst; [exact H|]. cbn [rule_tree].
  assert (B : turned (Both (One r) (One r2)) (Both (One r') (One r2'))) by (constructor; assumption).
  revert B. generalize (Both (One r) (One r2)) (Both (One r') (One r2')). clear F H2. induction F2 as [|h h' l l' Hh F2 IH]; intros T T' B; [exact B|].
  cbn [fold_left]. apply IH. constructor; assumption.
Qed.

(** * The turned lexicon *)
Lemma prepared_lexicon g : well_formed g -> closed g -> exists g', prepare_lexicon true g = Ok g' /\ well_formed g' /\ closed g'
  /\ (forall x, used g' x -> used g x) /\ forall l w, accepts g' l w <-> exists m, accepts g m w /\ l = map turned_word m.
Proof.
  intros (S & Y & P) C. unfold prepare_lexicon.
  destruct (substituted (BND, EPS) (EPS, BND) (turn g)) as (g' & E & F & S' & Y' & I & N & A1 & A2);
    [reflexivity|reflexivity|apply turn_structure; exact S|apply turn_symbols; exact Y|simpl; tauto|].
  exists (reread g'). rewrite E. cbn [rmap]. split; [reflexivity|].
  assert (I' : forall s a', In a' (nth s (sts (reread g')) []) <-> exists a q, In a (nth s (sts g) []) /\ q = turned_word (label a) /\ a' = relabel a q).
  { intros s a'. cbn [reread sts with_alpha]. rewrite I. split.
    - intros (b & Hb & ->). rewrite turn_nth in Hb. apply in_map_iff in Hb. destruct Hb as (a & <- & Ha). exists a, (turned_word (label a)). split; [exact Ha|].
      rewrite <- put_word. auto.
    - intros (a & q & Ha & -> & ->). exists (relabel a (swap (label a))). split; [rewrite turn_nth; apply in_map_iff; eauto|]. rewrite <- put_word. reflexivity. }
  assert (U : forall x, used (reread g') x -> used g x).
  { intros x (s & a' & Ha & Hx). apply I' in Ha. destruct Ha as (a & q & Ha & -> & ->). exists s, a. split; [exact Ha|].
    destruct (turned_word_symbols (label a)) as [[E1 E2]|[E1 E2]]; cbn [relabel isy osy label fst snd] in *; rewrite E1, E2 in Hx; tauto. }
  split; [apply reread_wf; assumption|]. split; [intros x Hx; apply C; apply U; exact Hx|]. split; [exact U|].
  intros l w. rewrite (accepts_mapped (fun p q => q = turned_word p) g (reread g')); [|exact F|exact I'].
  split; intros (m & A & M); exists m; (split; [exact A|]); apply mapped_fun; exact M.
Qed.

(** Epsilon:epsilon steps keep out of the way when words are turned. *)
Lemma turned_word_silent p : silent (turned_word p) = silent p.
Proof. destruct p as [x y]. unfold turned_word, swap, silent. cbn [fst snd]. destruct (bstr_eqb x epsilon && bstr_eqb y edge); cbn [fst snd]; [reflexivity|apply andb_comm]. Qed.
Lemma bare_map (f : bstr * bstr -> bstr * bstr) l : (forall p, silent (f p) = silent p) -> bare (map f l) = map f (bare l).
Proof. intros H. induction l as [|p l IH]; [reflexivity|]. unfold bare in *. cbn [map filter]. rewrite H. destruct (silent p); cbn [negb map]; rewrite IH; reflexivity. Qed.
Lemma swap_silent p : silent (swap p) = silent p.
Proof. destruct p. unfold swap, silent. cbn [fst snd]. apply andb_comm. Qed.
Lemma swap_swap l : map swap (map swap l) = l.
Proof. rewrite map_map. apply map_id_in. intros [x y] _. reflexivity. Qed.

Section Backwards.
  Variables (num : bstr -> nat) (sym : nat -> bstr).
  Hypothesis SN : forall x, sym (num x) = x.
  Lemma prepared_rules v : Forall (fun g => well_formed g /\ turnable g) v ->
    exists v', prepare_rules true v = Ok v' /\ Forall2 (fun g g' => turned (One g) (One g')) v v'.
  Proof using.
    intros F. induction F as [|g v (W & T) F (v' & E & F')]; [exists []; split; [reflexivity|constructor]|].
    destruct (prepared g W T) as (g' & Eg & G & O). exists (g' :: v'). cbn [prepare_rules]. rewrite Eg. cbn [rbind]. rewrite E. split; [reflexivity|].
    constructor; [apply turned_one; assumption|exact F'].
  Qed.
  Lemma tree_every P r rs : every P (rule_tree r rs) <-> Forall P (r :: rs).
  Proof using.
    destruct rs as [|r2 rest]; [cbn [rule_tree every]; split; [intros H; constructor; [exact H|constructor]|intros H; inversion H; assumption]|]. cbn [rule_tree].
    assert (G : forall T, every P (fold_left (fun r h => Both (One h) r) rest T) <-> every P T /\ Forall P rest).
    { induction rest as [|h rest IH]; intros T; cbn [fold_left]; [split; [auto|tauto]|]. rewrite IH. cbn [every]. rewrite Forall_cons_iff. tauto. }
    rewrite G. cbn [every]. rewrite !Forall_cons_iff. tauto.
  Qed.
  Lemma backward lex r r2 rest : well_formed lex -> closed lex -> no_empty_symbol lex -> identities_paired r -> no_empty_symbol r ->
    usable (rule_tree r (r2 :: rest)) -> no_flags_in_pairs (rule_tree r (r2 :: rest)) -> Forall turnable (r :: r2 :: rest) ->
    (forall x, reserved_name x -> ~ used lex x /\ ~ knows (rule_tree r (r2 :: rest)) x) ->
    exists n, forall fuel, n < fuel -> exists h, compose_intersect num sym fuel lex (r :: r2 :: rest) true = Ok h /\ structure_ok h /\
      forall l w, has h l w <-> filtered_inverse lex r (r2 :: rest) l w.
  Proof using SN.
    intros W C N P1 N1 U NF Tb R. assert (We := proj1 (tree_every _ r (r2 :: rest)) (proj1 U)).
    assert (S1 : specials_ok r) by (inversion We as [|a b ((_ & _ & K) & _) _]; exact K).
    destruct (ready r lex S1 P1 N1 W C N) as (h1 & hl & E & Wl & Cl & Ul & Al).
    destruct (prepared_lexicon hl Wl Cl) as (tl & Et & Wt & Ct & Ut & At).
    destruct (prepared_rules (r :: r2 :: rest)) as (v' & Ev & Fv).
    { rewrite Forall_forall in *. intros g Hg. split; [exact (proj1 (We g Hg))|exact (Tb g Hg)]. }
    inversion Fv as [|x r' l rs' Hr Fr]; subst. assert (Fr' := Fr). inversion Fr' as [|x r2' l rest' Hr2 Fr2]; subst.
    assert (Tt := turned_tree r (r2 :: rest) r' (r2' :: rest') Hr Fr). set (T := rule_tree r (r2 :: rest)) in *. set (T' := rule_tree r' (r2' :: rest')) in *.
    assert (R' : forall x, reserved_name x -> ~ used tl x /\ ~ knows T' x).
    { intros x Hx. destruct (R x Hx) as [R1 R2]. split; [|intros K; apply (turned_knows T T' Tt) in K; contradiction].
      intros K. apply Ut, Ul in K. destruct K as [K|[K|K]]; [contradiction| |]; destruct Hx; subst x; discriminate. }
    destruct (composed num sym SN T' tl Wt Ct (turned_usable T T' Tt U) (turned_flags T T' Tt NF) R') as (hid & n & Eh & H). exists n. intros fuel Hf.
    destruct (H fuel Hf) as (h & Ec & Sh & Ah & Nh). destruct (prune_same true h) as (Ps & Pf).
    destruct (unhide_absent (turn (prune_alphabet true h))) as (g' & Eg & Sg & Ag).
    { intros l w p A Hp x Hx. apply turn_accepts in A. destruct A as (m & A & ->). apply (accepts_same h _ Ps Pf) in A. apply in_map_iff in Hp.
      destruct Hp as (q & <- & Hq). destruct (Nh m w q A Hq x Hx). split; assumption. }
    exists g'. split; [|split].
    - unfold compose_intersect. rewrite E. cbn [rbind]. rewrite Et. cbn [rbind]. rewrite Eh. cbn [rbind]. rewrite Ev. cbn [rbind].
      rewrite <- rule_object_tree. change (rule_tree r' (r2' :: rest')) with T'. rewrite Ec. exact Eg.
    - apply Sg, turn_structure. exact (structure_same h _ Ps Pf Sh).
    - assert (Ah' : forall l w, accepts g' l w <-> exists pl pr w1 w2, accepts lex pl w1 /\ rules_accept T pr w2 /\
          joined T (map turned_word (edging r pl)) (map turned_rule pr) (map swap l) /\ w = (w1 + w2)%Z).
      { intros l w. rewrite Ag, turn_accepts. split.
        - intros (m & A & ->). apply (accepts_same h _ Ps Pf) in A. apply Ah in A. destruct A as (pl & pr & w1 & w2 & A & Rp & J & ->).
          apply At in A. destruct A as (m1 & A & ->). apply Al in A. destruct A as (m0 & A & ->).
          apply (turned_accept T T' Tt (proj1 U)) in Rp. destruct Rp as (pr0 & Rp & ->).
          exists m0, pr0, w1, w2. rewrite swap_swap. repeat (split; [assumption|]). split; [|reflexivity].
          apply (joined_knows T' T); [intros x; symmetry; apply (turned_knows T T' Tt)|exact J].
        - intros (pl & pr & w1 & w2 & A & Rp & J & ->). exists (map swap l). rewrite swap_swap. split; [|reflexivity].
          apply (accepts_same h _ Ps Pf). apply Ah. exists (map turned_word (edging r pl)), (map turned_rule pr), w1, w2.
          split; [apply At; exists (edging r pl); split; [apply Al; eauto|reflexivity]|].
          split; [apply (turned_accept T T' Tt (proj1 U)); eauto|]. split; [|reflexivity].
          apply (joined_knows T T' (turned_knows T T' Tt)). exact J. }
      assert (Bw : forall a b, bare a = bare b -> bare (map turned_word a) = bare (map turned_word b)).
      { intros a b Eb. rewrite !(bare_map turned_word) by apply turned_word_silent. rewrite Eb. reflexivity. }
      assert (Bs : forall a b, bare a = bare b -> bare (map swap a) = bare (map swap b)).
      { intros a b Eb. rewrite !(bare_map swap) by apply swap_silent. rewrite Eb. reflexivity. }
      intros l w. unfold has. split.
      + intros (m & A & B). apply Ah' in A. destruct A as (pl & pr & w1 & w2 & A & Rp & J & ->). destruct (edged_exists r pl) as (l' & El).
        destruct (joined_bare _ _ (map turned_word l') _ _ (Bw _ _ (edging_bare r pl l' El)) J) as (k & J' & Bk).
        exists pl, l', pr, k, w1, w2. repeat (split; [assumption|]). split; [|reflexivity].
        rewrite (Bs k (map swap m) Bk), swap_swap. exact B.
      + intros (pl & l' & pr & k & w1 & w2 & A & El & Rp & J & B & ->).
        destruct (joined_bare _ _ (map turned_word (edging r pl)) _ _ (Bw _ _ (eq_sym (edging_bare r pl l' El))) J) as (k' & J' & Bk).
        exists (map swap k'). split; [|rewrite (Bs k' k Bk); exact B]. apply Ah'. exists pl, pr, w1, w2. rewrite swap_swap. auto.
  Qed.
End Backwards.
