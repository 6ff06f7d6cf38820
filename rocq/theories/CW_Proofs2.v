(** Proofs about compose_intersect: the composition, in both directions. *)
From Verif Require Import Base Flags_Model BT_Model BT_Spec BT_Proofs BT_Proofs2 BT_Proofs3 BT_Proofs5 Harm_Model Harm_Spec Harm_Proofs
  CI_Model CI_Spec CI_Props CW_Model CW_Spec CW_Proofs.

(** * The lexicon with its boundaries, harmonized *)
Definition edging (r : graph) (m : list (bstr * bstr)) := if smem bcmp BND (alpha r) then wrapped_word m else m.
Lemma edging_bare r m l' : edged r m l' -> bare (edging r m) = bare l'.
Proof.
  unfold edging. intros [[H ->]|[H ->]].
  - apply (smem_In bcmp bcmp_eq) in H. change edge with BND in H. rewrite H. unfold wrapped_word.
    change ((EPS, BND) :: (EPS, EPS) :: m ++ [(EPS, EPS); (EPS, BND)]) with ([(EPS, BND); (EPS, EPS)] ++ m ++ [(EPS, EPS); (EPS, BND)]).
    change ((epsilon, edge) :: m ++ [(epsilon, edge)]) with ([(epsilon, edge)] ++ m ++ [(epsilon, edge)]).
    rewrite !bare_app. reflexivity.
  - destruct (smem bcmp BND (alpha r)) eqn:E; [|reflexivity]. apply (smem_In bcmp bcmp_eq) in E. contradiction.
Qed.
Lemma edged_exists r m : exists l', edged r m l'.
Proof.
  destruct (smem bcmp BND (alpha r)) eqn:E.
  - eexists. left. split; [apply (smem_In bcmp bcmp_eq); exact E|reflexivity].
  - eexists. right. split; [|reflexivity]. intros K. apply (smem_In bcmp bcmp_eq) in K. change edge with BND in K. congruence.
Qed.
Lemma ready r lex : specials_ok r -> identities_paired r -> no_empty_symbol r -> well_formed lex -> closed lex -> no_empty_symbol lex ->
  exists h1 hl, harmonize r (if smem bcmp BND (alpha r) then with_boundaries lex else lex) = Ok (h1, hl) /\ well_formed hl /\ closed hl
    /\ (forall x, used hl x -> used lex x \/ x = EPS \/ x = BND)
    /\ forall l w, accepts hl l w <-> exists m, accepts lex m w /\ l = edging r m.
Proof.
  intros S1 P1 N1 W C N. set (lx := if smem bcmp BND (alpha r) then with_boundaries lex else lex).
  assert (U : forall x, used lx x -> used lex x \/ x = EPS \/ x = BND) by (unfold lx; destruct (smem _ _ _); [apply with_boundaries_used|auto]).
  assert (Wx : well_formed lx) by (unfold lx; destruct (smem _ _ _); [apply with_boundaries_wf|]; exact W).
  assert (Cx : closed lx).
  { intros x Hx. apply U in Hx. destruct Hx as [Hx|[->| ->]]; [exact (C x Hx)|split; discriminate|split; discriminate]. }
  assert (Nx : no_empty_symbol lx).
  { apply no_empty_of in N. apply no_empty_of. split.
    - unfold lx. destruct (smem _ _ _); [|tauto]. intros K. apply with_boundaries_alpha in K. rewrite boundary_alpha in K.
      destruct K as [[[K|[K|K]]|K]|[K|K]]; try discriminate. tauto.
    - intros K. apply U in K. destruct K as [K|[K|K]]; [tauto|discriminate|discriminate]. }
  destruct (harmonize_closed r lx S1 P1 N1 (proj2 (proj2 Wx)) Cx Nx) as (h1 & hl & E & Es & Ef & A).
  exists h1, hl. split; [exact E|]. destruct Wx as (Sx & Yx & Px). split; [split; [|split]|split; [|split]].
  - exact (structure_same lx hl Es Ef Sx).
  - apply symbols_of_used. intros x Hx. apply A. right. apply (proj1 (symbols_of_used lx) Yx). apply (used_same lx hl Es). exact Hx.
  - destruct Px as (Q1 & Q2 & Q3). split; [|split]; apply A; right; assumption.
  - intros x Hx. apply Cx. apply (used_same lx hl Es). exact Hx.
  - intros x Hx. apply U. apply (used_same lx hl Es). exact Hx.
  - intros l w. rewrite (accepts_same lx hl Es Ef). unfold lx, edging. destruct (smem _ _ _).
    + apply with_boundaries_accepts. exact (proj1 W).
    + split; [intros H; exists l; auto|intros (m & H & ->); exact H].
Qed.

(** * The composition *)
Lemma rule_object_tree num r1 r2 rest :
  rule_object num (rule_tree r1 (r2 :: rest)) = fold_left (fun p r => make_pair (make_rule num r) p) rest (make_pair (make_rule num r1) (make_rule num r2)).
Proof.
  cbn [rule_tree]. change (make_pair (make_rule num r1) (make_rule num r2)) with (rule_object num (Both (One r1) (One r2))).
  generalize (Both (One r1) (One r2)). induction rest as [|r rest IH]; intros T; [reflexivity|]. cbn [fold_left]. rewrite IH. reflexivity.
Qed.
Lemma accepts_used_pair g l w p : accepts g l w -> In p l -> used g (fst p) /\ used g (snd p).
Proof. apply accepts_used. Qed.
Section Both_ways.
  Variables (num : bstr -> nat) (sym : nat -> bstr).
  Hypothesis SN : forall x, sym (num x) = x.
  Lemma composed T hl : well_formed hl -> closed hl -> usable T -> no_flags_in_pairs T ->
    (forall x, reserved_name x -> ~ used hl x /\ ~ knows T x) ->
    exists hid n, hide hl = Ok hid /\ forall fuel, n < fuel ->
      exists h, compose_with_rules num sym fuel (make_lexicon num hid) [] (rule_object num T) = Ok h /\ structure_ok h
        /\ (forall l w, accepts h l w <-> exists pl pr w1 w2, accepts hl pl w1 /\ rules_accept T pr w2 /\ joined T pl pr l /\ w = (w1 + w2)%Z)
        /\ (forall l w p, accepts h l w -> In p l -> forall x, reserved_name x -> fst p <> x /\ snd p <> x).
  Proof using SN.
    intros W C U NF R. destruct (hide_closed hl W C) as (hid & E & Es & Ef & W').
    exists hid, (length (sts hid) * places T). split; [exact E|]. intros fuel Hf.
    assert (IO : identity_outputs hid).
    { intros s a Ha K. exfalso. assert (Ua : used hl (isy a)) by (apply (used_same hl hid Es); exists s, a; auto).
      apply C in Ua. destruct Ua as [_ Ua]. exact (Ua K). }
    destruct (C40_joined_paths_partial num sym SN hid T W' IO U NF (rule_object num T) [] fuel (queried_none num _) Hf) as (h & Eh & Sh & Ah).
    assert (Ah' : forall l w, accepts h l w <-> exists pl pr w1 w2, accepts hl pl w1 /\ rules_accept T pr w2 /\ joined T pl pr l /\ w = (w1 + w2)%Z).
    { intros l w. rewrite Ah. split; intros (pl & pr & w1 & w2 & A & K); exists pl, pr, w1, w2; (split; [apply (accepts_same hl hid Es Ef); exact A|exact K]). }
    exists h. split; [exact Eh|]. split; [exact Sh|]. split; [exact Ah'|].
    intros l w p A Hp x Hx. apply Ah' in A. destruct A as (pl & pr & w1 & w2 & A & Rp & J & _). destruct (R x Hx) as [R1 R2].
    assert (NE : x <> EPS) by (destruct Hx; subst x; discriminate).
    destruct (joined_symbols T pl pr l J (rules_known T (proj1 U) pr w2 Rp) p Hp) as [F S]. split; intros Ex; subst x.
    - destruct F as [F|(q & Hq & F)]; [contradiction|]. rewrite F in R1. apply R1. apply (accepts_used_pair hl pl w1 q A Hq).
    - destruct S as [S|[S|(q & Hq & S)]]; [contradiction|contradiction|]. rewrite S in R1. apply R1. apply (accepts_used_pair hl pl w1 q A Hq).
  Qed.

  Lemma prepare_rules_false v : prepare_rules false v = Ok v.
  Proof using. induction v as [|r v IH]; [reflexivity|]. cbn [prepare_rules prepare_rule rbind]. rewrite IH. reflexivity. Qed.

  Lemma forward lex r rs : well_formed lex -> closed lex -> no_empty_symbol lex -> identities_paired r -> no_empty_symbol r ->
    usable (rule_tree r rs) -> no_flags_in_pairs (rule_tree r rs) -> specials_ok r ->
    (forall x, reserved_name x -> ~ used lex x /\ ~ knows (rule_tree r rs) x) ->
    exists n, forall fuel, n < fuel -> exists h, compose_intersect num sym fuel lex (r :: rs) false = Ok h /\ structure_ok h /\
      forall l w, has h l w <-> filtered lex r rs l w.
  Proof using SN.
    intros W C N P1 N1 U NF S1 R. destruct (ready r lex S1 P1 N1 W C N) as (h1 & hl & E & Wl & Cl & Ul & Al).
    assert (R' : forall x, reserved_name x -> ~ used hl x /\ ~ knows (rule_tree r rs) x).
    { intros x Hx. destruct (R x Hx) as [R1 R2]. split; [|exact R2]. intros K. apply Ul in K. destruct K as [K|[K|K]]; [contradiction| |]; destruct Hx; subst x; discriminate. }
    destruct (composed (rule_tree r rs) hl Wl Cl U NF R') as (hid & n & Eh & H). exists n. intros fuel Hf.
    destruct (H fuel Hf) as (h & Ec & Sh & Ah & Nh).
    destruct (prune_same true h) as (Ps & Pf).
    destruct (unhide_absent (prune_alphabet true h)) as (g' & Eg & Sg & Ag).
    { intros l w p A. apply (accepts_same h _ Ps Pf) in A. exact (Nh l w p A). }
    exists g'. split; [|split].
    - unfold compose_intersect. rewrite E. cbn [rbind prepare_lexicon]. rewrite Eh. cbn [rbind]. rewrite prepare_rules_false. cbn [rbind].
      destruct rs as [|r2 rest].
      + change (make_rule num r) with (rule_object num (rule_tree r [])). rewrite Ec. exact Eg.
      + rewrite <- rule_object_tree. rewrite Ec. exact Eg.
    - apply Sg. exact (structure_same h _ Ps Pf Sh).
    - intros l w. unfold has. split.
      + intros (m & A & B). apply Ag in A. apply (accepts_same h _ Ps Pf) in A. apply Ah in A. destruct A as (pl & pr & w1 & w2 & A & Rp & J & ->).
        apply Al in A. destruct A as (m0 & A & ->). destruct (edged_exists r m0) as (l' & El).
        destruct (joined_bare _ _ l' _ _ (edging_bare r m0 l' El) J) as (k & J' & Bk).
        exists m0, l', pr, k, w1, w2. repeat (split; [assumption|]). split; [congruence|reflexivity].
      + intros (m0 & l' & pr & k & w1 & w2 & A & El & Rp & J & B & ->).
        destruct (joined_bare _ _ (edging r m0) _ _ (eq_sym (edging_bare r m0 l' El)) J) as (k' & J' & Bk).
        exists k'. split; [|congruence]. apply Ag. apply (accepts_same h _ Ps Pf). apply Ah. exists (edging r m0), pr, w1, w2.
        split; [apply Al; exists m0; auto|auto].
  Qed.
End Both_ways.

(** * Turning *)
Lemma turn_nth g s : nth s (sts (turn g)) [] = map (fun a => relabel a (swap (label a))) (nth s (sts g) []).
Proof. unfold turn. cbn [sts with_sts]. rewrite nth_map_nil by reflexivity. apply map_ext. intros a. reflexivity. Qed.
Lemma turn_accepts g l w : accepts (turn g) l w <-> exists m, accepts g m w /\ l = map swap m.
Proof. apply (accepts_relabelled swap); [reflexivity|]. intros s. apply turn_nth. Qed.
Lemma turn_used g x : used (turn g) x <-> used g x.
Proof.
  split; intros (s & a & Ha & Hx).
  - rewrite turn_nth in Ha. apply in_map_iff in Ha. destruct Ha as (b & <- & Hb). exists s, b. split; [exact Hb|]. simpl in Hx. tauto.
  - exists s, (relabel a (swap (label a))). split; [rewrite turn_nth; apply in_map_iff; eauto|]. simpl. tauto.
Qed.
Lemma turn_structure g : structure_ok g -> structure_ok (turn g).
Proof.
  intros (S1 & S2 & S3). unfold structure_ok, turn. cbn [sts fin with_sts]. rewrite map_length. split; [|split; [|exact S3]].
  - destruct (sts g); [congruence|discriminate].
  - intros s a Ha. rewrite nth_map_nil in Ha by reflexivity. apply in_map_iff in Ha. destruct Ha as (b & <- & Hb). exact (S2 s b Hb).
Qed.
Definition put (old new p : bstr * bstr) : bstr * bstr := if pair_eqb p old then new else p.
(** Substituting a pair: every transition of the result is a relabelled one. *)
Lemma substituted old new g : valid_pair old = true -> valid_pair new = true -> structure_ok g -> symbols_ok g ->
  (forall x, In x [fst new; snd new] -> In x [fst old; snd old]) ->
  exists g', substitute_pair old new g = Ok g' /\ fin g' = fin g /\ structure_ok g' /\ symbols_ok g'
    /\ (forall s a', In a' (nth s (sts g') []) <-> exists a, In a (nth s (sts g) []) /\ a' = relabel a (put old new (label a)))
    /\ (forall s, nth s (sts g') [] = map (fun a => relabel a (put old new (label a))) (nth s (sts g) [])
          ++ flat_map (fun a => if pair_eqb (label a) old then [relabel a new] else []) (nth s (sts g) []))
    /\ (forall x, In x (alpha g') -> In x (alpha g))
    /\ (forall x, In x (alpha g) -> ~ In x [fst old; snd old] \/ used g' x -> In x (alpha g')).
Proof.
  intros V1 V2 S Y Sub. unfold substitute_pair. rewrite V1, V2. cbn [negb orb]. eexists. split; [reflexivity|].
  unfold substitute_pair_set_. set (matched := existsb _ _).
  set (g1 := with_sts g (map (subst_set_state old [new]) (sts g))). set (g2 := if matched then add_pairs g1 [new] else g1).
  assert (E2 : sts g2 = sts g1 /\ fin g2 = fin g) by (unfold g2; destruct matched; [destruct (add_pairs_sts g1 [new]) as [-> ->]|]; auto).
  destruct E2 as (Es2 & Ef2). destruct (prune_after_sts g2 [fst old; snd old]) as (Ep & Fp).
  assert (Nt : forall s, nth s (sts g1) [] = map (fun a => relabel a (put old new (label a))) (nth s (sts g) [])
          ++ flat_map (fun a => if pair_eqb (label a) old then [relabel a new] else []) (nth s (sts g) [])).
  { intros s. cbn [g1 sts with_sts]. rewrite nth_map_nil by reflexivity. unfold subst_set_state. f_equal. apply map_ext. intros a.
    unfold put. destruct (pair_eqb (label a) old); [reflexivity|symmetry; apply relabel_label]. }
  assert (In1 : forall s a', In a' (nth s (sts g1) []) <-> exists a, In a (nth s (sts g) []) /\ a' = relabel a (put old new (label a))).
  { intros s a'. rewrite Nt, in_app_iff, in_map_iff, in_flat_map. split.
    - intros [(a & <- & Ha)|(a & Ha & K)]; exists a; (split; [exact Ha|]); [reflexivity|]. unfold put.
      destruct (pair_eqb (label a) old); [destruct K as [<-|[]]; reflexivity|destruct K].
    - intros (a & Ha & ->). left. exists a. auto. }
  assert (Ag2 : forall x, In x (alpha g2) <-> In x (alpha g) \/ matched = true /\ In x [fst new; snd new]).
  { intros x. unfold g2. destruct matched.
    - destruct new as [n1 n2]. cbn [add_pairs fold_left]. unfold add_pairs, add_symbols, add_symbol. cbn. rewrite !(In_sadd bcmp bcmp_eq). intuition congruence.
    - intuition discriminate. }
  assert (Mt : matched = true -> forall x, In x [fst old; snd old] -> In x (alpha g)).
  { intros M x Hx. unfold matched in M. apply existsb_exists in M. destruct M as (a & Ha & Ea). apply pair_eqb_eq in Ea.
    apply in_concat in Ha. destruct Ha as (l & Hl & Ha). apply (In_nth _ _ []) in Hl. destruct Hl as (s & _ & <-).
    destruct (Y s a Ha) as [Y1 Y2]. rewrite <- Ea in Hx. cbn [label fst snd In] in Hx. destruct Hx as [<-|[<-|[]]]; assumption. }
  assert (Inc : forall x, In x (alpha g2) -> In x (alpha g)).
  { intros x Hx. apply Ag2 in Hx. destruct Hx as [Hx|[M Hx]]; [exact Hx|]. apply (Mt M). apply Sub. exact Hx. }
  assert (Us : forall x, used g1 x -> In x (alpha g2)).
  { intros x (s & a' & Ha & Hx). apply In1 in Ha. destruct Ha as (a & Ha & ->). apply Ag2. destruct (Y s a Ha) as [Y1 Y2].
    unfold put in Hx. destruct (pair_eqb (label a) old) eqn:Eo.
    - right. split; [|simpl in *; intuition congruence]. unfold matched. apply existsb_exists. exists a. split; [|exact Eo].
      apply in_concat. destruct (Nat.lt_ge_cases s (length (sts g))) as [L|L]; [|rewrite nth_overflow in Ha by exact L; destruct Ha].
      exists (nth s (sts g) []). split; [apply nth_In; exact L|exact Ha].
    - left. simpl in Hx. destruct Hx as [-> | ->]; assumption. }
  rewrite Fp, Ef2. split; [reflexivity|]. split; [|split; [|split; [|split; [|split]]]].
  - destruct S as (S1 & S2 & S3). unfold structure_ok. rewrite Ep, Fp, Es2, Ef2. cbn [g1 sts with_sts]. rewrite map_length. split; [|split; [|exact S3]].
    + destruct (sts g); [congruence|discriminate].
    + intros s a Ha. change (map (subst_set_state old [new]) (sts g)) with (sts g1) in Ha. apply In1 in Ha. destruct Ha as (b & Hb & ->). exact (S2 s b Hb).
  - apply symbols_of_used. intros x Hx. apply prune_after_alpha. assert (U2 : used g2 x) by (apply (used_same g2 (prune_after g2 [fst old; snd old]) Ep); exact Hx).
    split; [|intros (_ & K); exact (K U2)]. apply Us. apply (used_same g1 g2 Es2). exact U2.
  - intros s a'. rewrite Ep, Es2. apply In1.
  - intros s. rewrite Ep, Es2. apply Nt.
  - intros x Hx. apply prune_after_alpha in Hx. apply Inc. apply Hx.
  - intros x Hx K. apply prune_after_alpha. split; [apply Ag2; left; exact Hx|]. intros (K1 & K2). destruct K as [K|K]; [contradiction|].
    apply K2. apply (used_same g2 (prune_after g2 [fst old; snd old]) Ep). exact K.
Qed.
