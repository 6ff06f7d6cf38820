(** Shuffling: the operands of the intersection. *)
From Verif Require Import Base BT_Model BT_Spec BT_Proofs BT_Proofs3 BT_Proofs4 BT_Props Harm_Model Harm_Spec Harm_Proofs Sh_Spec Sh_Model Sh_Proofs Sh_Proofs2.

Lemma grown_same new m g : (forall s a, In a (nth s (sts g) []) -> new m a = []) -> grown new m g = g.
Proof.
  intros H. unfold grown. destruct g as [ls f al]. cbn [sts with_sts fin alpha] in *. unfold with_sts. cbn [fin alpha]. f_equal.
  assert (K : forall l, In l ls -> l ++ flat_map (new m) l = l).
  { intros l Hl. apply (In_nth _ _ []) in Hl. destruct Hl as (s & _ & <-). specialize (H s).
    replace (flat_map (new m) (nth s ls [])) with (@nil arc); [apply app_nil_r|].
    induction (nth s ls []) as [|a l IH]; [reflexivity|]. simpl. rewrite (H a (or_introl eq_refl)). simpl. apply IH. intros b Hb. apply H. right; exact Hb. }
  clear H. induction ls as [|l ls IH]; [reflexivity|]. simpl. rewrite K by (left; reflexivity). f_equal. apply IH. intros k Hk. apply K. right; exact Hk.
Qed.
Lemma harmonized_same m g al : no_wildcards g -> harmonized m g al = with_alpha g al.
Proof.
  intros [NU NI]. unfold harmonized.
  assert (E : grown id_new m g = g).
  { apply grown_same. intros s a Ha. destruct (id_new m a) as [|b l] eqn:E; [reflexivity|exfalso].
    assert (H : In b (id_new m a)) by (rewrite E; left; reflexivity). apply id_new_In in H. apply NI. exists s, a. split; [exact Ha|left; symmetry; tauto]. }
  rewrite E, grown_same; [reflexivity|]. intros s a Ha. destruct (unk_new m a) as [|b l] eqn:E2; [reflexivity|exfalso].
  assert (H : In b (unk_new m a)) by (rewrite E2; left; reflexivity). apply unk_new_In in H. apply NU. exists s, a. split; [exact Ha|].
  destruct H as [[H _]|[[H _]|[H _]]]; [left|right|left]; symmetry; exact H.
Qed.
Lemma harmonize_plain g1 g2 : specials_ok g1 -> specials_ok g2 -> no_empty_symbol g1 -> no_empty_symbol g2 -> no_wildcards g1 -> no_wildcards g2 ->
  exists al1 al2, harmonize g1 g2 = Ok (with_alpha g1 al1, with_alpha g2 al2)
    /\ (forall x, In x al1 <-> In x (alpha g1) \/ In x (alpha g2)) /\ (forall x, In x al2 <-> In x (alpha g1) \/ In x (alpha g2)).
Proof.
  intros S1 S2 N1 N2 W1 W2.
  assert (P : forall g, no_wildcards g -> identities_paired g).
  { intros g [_ NI] s a Ha. split; intros E; exfalso; apply NI; exists s, a; (split; [exact Ha|]); [left|right]; symmetry; exact E. }
  destruct (harmonize_ok g1 g2 S1 S2 (P _ W1) (P _ W2) N1 N2) as (al1 & al2 & E & A1 & A2).
  rewrite !harmonized_same in E by assumption. eauto.
Qed.

Lemma run_same g h : sts g = sts h -> forall s l v t, run g s l v t -> run h s l v t.
Proof. intros K s l v t R. induction R; constructor; [rewrite <- K; assumption|assumption]. Qed.
Lemma recognizes_alpha g al x w : recognizes (with_alpha g al) x w <-> recognizes g x w.
Proof.
  split; intros (l & (t & v & f & R & X) & E); exists l; (split; [|exact E]); exists t, v, f; (split; [|exact X]);
  eapply run_same; [|exact R| |exact R]; reflexivity.
Qed.

Section Operands.
  Variables g1 g2 : graph.
  Hypothesis St1 : structure_ok g1.
  Hypothesis St2 : structure_ok g2.
  Hypothesis Sp1 : specials_ok g1.
  Hypothesis Sp2 : specials_ok g2.
  Hypothesis Ne1 : no_empty_symbol g1.
  Hypothesis Ne2 : no_empty_symbol g2.
  Hypothesis W1 : no_wildcards g1.
  Hypothesis W2 : no_wildcards g2.

  Lemma operands_fail : ~ (automaton g1 /\ automaton g2) -> shuffle_operands g1 g2 = Throw.
  Proof using All.
    intros N. unfold shuffle_operands. destruct (harmonize_plain g1 g2) as (al1 & al2 & E & _); try assumption. rewrite E. cbn [rbind].
    destruct (encode_total ENCODE_FIRST (with_alpha g1 al1)) as (e1 & ->); [discriminate|].
    destruct (encode_total ENCODE_SECOND (with_alpha g2 al2)) as (e2 & ->); [discriminate|]. cbn [rbind].
    destruct (fails (with_alpha g1 al1)) eqn:F1; [reflexivity|]. destruct (fails (with_alpha g2 al2)) eqn:F2; [reflexivity|].
    exfalso. apply N. apply failsE in F1. apply failsE in F2. split; assumption.
  Qed.

  Hypothesis A1 : automaton g1.
  Hypothesis A2 : automaton g2.
  Hypothesis P1 : not_prefixed g1.
  Hypothesis P2 : not_prefixed g2.

  Lemma operands_ok : exists p1 p2 al1 al2, shuffle_operands g1 g2 = Ok (p1, p2, al1, al2) /\
    structure_ok p1 /\ structure_ok p2 /\ automaton p1 /\ automaton p2 /\
    (forall z, In z al1 <-> exists y, used g1 y /\ y <> EPS /\ z = recode ENCODE_FIRST y) /\
    (forall z, In z al2 <-> exists y, used g2 y /\ y <> EPS /\ z = recode ENCODE_SECOND y) /\
    (forall x w, recognizes p1 x w <-> exists y, recognizes g1 y w /\ mix al2 (map (recode ENCODE_FIRST) y) x) /\
    (forall x w, recognizes p2 x w <-> exists y, recognizes g2 y w /\ mix al1 (map (recode ENCODE_SECOND) y) x) /\
    (forall z, used p1 z -> z = EPS \/ coded_by g1 g2 z).
  Proof using All.
    unfold shuffle_operands. destruct (harmonize_plain g1 g2) as (b1 & b2 & E & B1 & B2); try assumption. rewrite E. cbn [rbind].
    set (h1 := with_alpha g1 b1). set (h2 := with_alpha g2 b2).
    destruct (encode_total ENCODE_FIRST h1) as (e1 & E1); [discriminate|]. destruct (encode_total ENCODE_SECOND h2) as (e2 & E2); [discriminate|].
    rewrite E1, E2. cbn [rbind].
    assert (F1 : fails h1 = false) by (apply failsE; exact A1). assert (F2 : fails h2 = false) by (apply failsE; exact A2).
    rewrite F1, F2. cbn [orb].
    assert (U1 : ~ used h1 UNK) by exact (proj1 W1). assert (U2 : ~ used h2 UNK) by exact (proj1 W2).
    assert (AL1 : forall z, In z (alpha e1) <-> exists y, used g1 y /\ y <> EPS /\ z = recode ENCODE_FIRST y).
    { intros z. apply (alpha_enc ENCODE_FIRST h1 e1 A1 U1 E1). intros x y Hx. apply B1 in Hx. destruct Hx as [Hx|Hx]; [apply (P1 x y Hx)|apply (P2 x y Hx)]. }
    assert (AL2 : forall z, In z (alpha e2) <-> exists y, used g2 y /\ y <> EPS /\ z = recode ENCODE_SECOND y).
    { intros z. apply (alpha_enc ENCODE_SECOND h2 e2 A2 U2 E2). intros x y Hx. apply B2 in Hx. destruct Hx as [Hx|Hx]; [apply (P1 x y Hx)|apply (P2 x y Hx)]. }
    assert (V : forall al c, (forall z, In z al -> exists y, z = recode c y) -> c <> DECODE -> Forall (fun p => fst p <> [] /\ snd p <> []) (pairset al)).
    { intros al c H C. apply Forall_forall. intros p Hp. unfold pairset in Hp. apply in_map_iff in Hp. destruct Hp as (z & <- & Hz). destruct (H z Hz) as (y & ->).
      cbn [fst snd]. destruct c; [split; discriminate|split; discriminate|congruence]. }
    destruct (C23_insert_freely_total e1 (pairset (alpha e2)) 0) as (p1 & Q1).
    { apply (V _ ENCODE_SECOND); [|discriminate]. intros z Hz. apply AL2 in Hz. destruct Hz as (y & _ & _ & K). eauto. }
    destruct (C23_insert_freely_total e2 (pairset (alpha e1)) 0) as (p2 & Q2).
    { apply (V _ ENCODE_FIRST); [|discriminate]. intros z Hz. apply AL1 in Hz. destruct Hz as (y & _ & _ & K). eauto. }
    rewrite Q1, Q2. cbn [rbind rmap]. exists p1, p2, (alpha e1), (alpha e2). split; [reflexivity|].
    assert (Se1 : structure_ok e1) by (apply (structure_enc ENCODE_FIRST h1 e1 E1), structure_alpha, St1).
    assert (Se2 : structure_ok e2) by (apply (structure_enc ENCODE_SECOND h2 e2 E2), structure_alpha, St2).
    assert (NE1 : ~ In EPS (alpha e1)) by (intros K; apply AL1 in K; destruct K as (y & _ & _ & K); discriminate).
    assert (NE2 : ~ In EPS (alpha e2)) by (intros K; apply AL2 in K; destruct K as (y & _ & _ & K); discriminate).
    split; [exact (structure_insert_freely _ _ _ _ Se1 Q1)|]. split; [exact (structure_insert_freely _ _ _ _ Se2 Q2)|].
    assert (EA : forall c h e, automaton h -> ~ used h UNK -> encode c h = Ok e -> forall s a, In a (nth s (sts e) []) ->
      isy a = osy a /\ (isy a = EPS \/ exists y, used h y /\ y <> EPS /\ isy a = recode c y)).
    { intros c h e Ah Uh Ee s a Ha. destruct (enc_parts c h e Ee) as (k & Ek & ->). rewrite (proj1 (remove_symbols_sts k (alpha h))) in Ha.
      apply (proj2 (BT_Proofs5.substitute_func_arcs _ _ _ Ek)) in Ha. destruct Ha as (b & q & Hb & Hq & ->). unfold relabel. cbn [isy osy].
      destruct (code_symbols_for_shuffle c (label b)) as [qs|] eqn:Q.
      - apply code_some in Q. destruct Q as (_ & Q2' & _ & ->). destruct Hq as [<-|[]]. cbn [fst snd label]. split; [reflexivity|]. right. exists (isy b).
        split; [exists s, b; auto|auto].
      - subst q. cbn [fst snd label]. split; [apply (Ah s b Hb)|]. apply code_none in Q. cbn [fst snd label] in Q. left.
        destruct Q as [Q|[Q|Q]]; [destruct (Q (Ah s b Hb))|exact Q|]. exfalso. apply Uh. exists s, b. split; [exact Hb|left; symmetry; exact Q]. }
    assert (IA : forall al e p, insert_freely (pairset al) 0 e = Ok p -> forall s a, In a (nth s (sts p) []) -> In a (nth s (sts e) []) \/ isy a = osy a /\ In (isy a) al).
    { intros al e p Q s a Ha. unfold insert_freely in Q. destruct (existsb _ _); [discriminate|]. injection Q as <-. cbn [sts with_sts] in Ha.
      rewrite (proj1 (add_pairs_sts e _)) in Ha. revert Ha. generalize (sts e). generalize 0 at 1.
      intros n ls. revert n s. induction ls as [|l ls IH]; intros n s Ha; [destruct s; destruct Ha|]. cbn [add_loops] in Ha. destruct s as [|s]; cbn [nth] in *.
      - apply in_app_iff in Ha. destruct Ha as [Ha|Ha]; [left; exact Ha|right]. apply in_map_iff in Ha. destruct Ha as (q & <- & Hq).
        unfold pairset in Hq. apply in_map_iff in Hq. destruct Hq as (z & <- & Hz). cbn [isy osy fst snd]. auto.
      - apply (IH (S n) s Ha). }
    split. { intros s a Ha. apply (IA _ _ _ Q1) in Ha. destruct Ha as [Ha|[Ha _]]; [apply (EA _ h1 _ A1 U1 E1 s a Ha)|exact Ha]. }
    split. { intros s a Ha. apply (IA _ _ _ Q2) in Ha. destruct Ha as [Ha|[Ha _]]; [apply (EA _ h2 _ A2 U2 E2 s a Ha)|exact Ha]. }
    split; [exact AL1|]. split; [exact AL2|].
    split. { intros x w. rewrite (recognizes_ins (alpha e2) e1 p1 Se1 NE2 Q1). split.
      - intros (y & H & M). apply (recognizes_enc ENCODE_FIRST h1 e1 ltac:(discriminate) A1 U1 E1) in H. destruct H as (z & H & ->). exists z. split; [exact (proj1 (recognizes_alpha _ _ _ _) H)|exact M].
      - intros (z & H & M). eexists. split; [|exact M]. apply (recognizes_enc ENCODE_FIRST h1 e1 ltac:(discriminate) A1 U1 E1). exists z. split; [exact (proj2 (recognizes_alpha _ _ _ _) H)|reflexivity]. }
    split. { intros x w. rewrite (recognizes_ins (alpha e1) e2 p2 Se2 NE1 Q2). split.
      - intros (y & H & M). apply (recognizes_enc ENCODE_SECOND h2 e2 ltac:(discriminate) A2 U2 E2) in H. destruct H as (z & H & ->). exists z. split; [exact (proj1 (recognizes_alpha _ _ _ _) H)|exact M].
      - intros (z & H & M). eexists. split; [|exact M]. apply (recognizes_enc ENCODE_SECOND h2 e2 ltac:(discriminate) A2 U2 E2). exists z. split; [exact (proj2 (recognizes_alpha _ _ _ _) H)|reflexivity]. }
    intros z (s & a & Ha & K). apply (IA _ _ _ Q1) in Ha. destruct Ha as [Ha|[Ha1 Ha2]].
    - destruct (EA _ h1 _ A1 U1 E1 s a Ha) as [Ks [K1|(y & Hy & Ny & K1)]]; [left; destruct K as [->| ->]; congruence|right]. exists y. split; [exact Ny|]. left.
      split; [exact Hy|]. destruct K as [->| ->]; congruence.
    - right. apply AL2 in Ha2. destruct Ha2 as (y & Hy & Ny & K1). exists y. split; [exact Ny|]. right. split; [exact Hy|]. destruct K as [->| ->]; congruence.
  Qed.
End Operands.
