(** Hopcroft's algorithm: the transducer that is built from the groups. *)
From Verif Require Import Base SF_Spec SF_Model SF_Proofs SF_Proofs2 SF_Proofs3 SF_Proofs5 SF_Proofs7 SF_Proofs8 SM_Model SM_Proofs SM_Proofs2 SM_Proofs3.

Lemma number_lt root M g : root < M -> g < M -> number_of root g < M.
Proof. intros H1 H2. unfold number_of. destruct (Nat.eqb_spec g root); [lia|]. destruct (Nat.ltb_spec g root); lia. Qed.
Lemma number_inj root g g' : number_of root g = number_of root g' -> g = g'.
Proof.
  unfold number_of. destruct (Nat.eqb_spec g root); destruct (Nat.eqb_spec g' root);
    destruct (Nat.ltb_spec g root); destruct (Nat.ltb_spec g' root); lia.
Qed.
Lemma number_surj root M n : root < M -> n < M -> exists g, g < M /\ number_of root g = n.
Proof.
  intros H1 H2. destruct n as [|n]; [exists root; split; [exact H1|]; unfold number_of; rewrite Nat.eqb_refl; reflexivity|].
  destruct (Nat.lt_ge_cases n root) as [L|L].
  - exists n. split; [lia|]. unfold number_of. destruct (Nat.eqb_spec n root); [lia|]. destruct (Nat.ltb_spec n root); lia.
  - exists (S n). split; [lia|]. unfold number_of. destruct (Nat.eqb_spec (S n) root); [lia|]. destruct (Nat.ltb_spec (S n) root); lia.
Qed.
Lemma number_root root : number_of root root = 0.
Proof. unfold number_of. rewrite Nat.eqb_refl. reflexivity. Qed.

Definition add_arcs (f : nat -> nat) (l : list (label * nat)) (d : node) : node :=
  fold_left (fun d a => with_arc (fst a) (f (snd a)) d) l d.
Lemma add_arcs_out f l : forall d x, In x (out (add_arcs f l d)) <-> (exists a, In a l /\ x = (fst a, f (snd a))) \/ In x (out d).
Proof.
  induction l as [|a l IH]; intros d x; cbn [add_arcs fold_left].
  - split; [auto|]. intros [(a & [] & _)|H]; exact H.
  - fold (add_arcs f l (with_arc (fst a) (f (snd a)) d)). rewrite IH, out_with_arc. split.
    + intros [(b & Hb & E)|[E|H]]; [left; exists b; split; [right; exact Hb|exact E]|left; exists a; split; [left; reflexivity|exact E]|auto].
    + intros [(b & [<-|Hb] & E)|H]; [auto|left; exists b; auto|auto].
Qed.
Lemma add_arcs_final f l : forall d, final (add_arcs f l d) = final d.
Proof. induction l as [|a l IH]; intros d; [reflexivity|]. cbn [add_arcs fold_left]. etransitivity; [apply IH|apply final_with_arc]. Qed.
Lemma add_arcs_det f l : forall d, (forall t, ~ In ((0, 0), t) l) -> eps (add_arcs f l d) = eps d /\ map fst (arcs (add_arcs f l d)) = rev (map fst l) ++ map fst (arcs d).
Proof.
  induction l as [|[a x] l IH]; intros d H; [split; reflexivity|]. cbn [add_arcs fold_left fst snd].
  fold (add_arcs f l (with_arc a (f x) d)). destruct (IH (with_arc a (f x) d)) as [E1 E2]; [intros t C; apply (H t); right; exact C|].
  rewrite E1, E2. assert (Na : is_epsilon a = false).
  { destruct (is_epsilon a) eqn:Ea; [|reflexivity]. apply is_epsilon_eq in Ea. subst. destruct (H x (or_introl eq_refl)). }
  unfold with_arc. rewrite Na. cbn [eps arcs map fst rev]. split; [reflexivity|]. rewrite <- app_assoc. reflexivity.
Qed.

Section Build.
  Variables (h : list node) (arr : list nat).
  Hypothesis G : graph_ok h.
  Hypothesis D : deterministic h.
  Hypothesis ND : NoDup arr.
  Hypothesis HA : forall x, In x arr <-> reachable h 0 x.
  Hypothesis H0 : nth 0 arr 0 = 0.
  Let N := length arr.
  Variable st : mstate.
  Hypothesis P : parts N whole st.
  Hypothesis St : stable N (dl h arr) st.
  Hypothesis Fi : fins N (fun s => final (nd h arr s)) st.
  Let M := length (groups st).
  Let root := gof st 0.
  Definition tgt (x : nat) : nat := number_of (gof st 0) (match position x arr with Some t => gof st t | None => 0 end).
  Lemma N_pos : 0 < N.
  Proof using HA. assert (H : In 0 arr) by (apply HA; constructor). unfold N. destruct (In_nth _ _ 0 H) as (i & Hi & _). exact (Nat.le_lt_trans 0 i _ (Nat.le_0_l i) Hi). Qed.
  Lemma gof_lt s : s < N -> gof st s < M.
  Proof using P. intros H. exact (parts_range N whole st s P H). Qed.
  Lemma rep_of g : g < M -> exists s, hd_error (members (group_at st g)) = Some s /\ s < N /\ gof st s = g.
  Proof using P.
    intros Hg. destruct (pt_ne _ _ _ P g Hg) as [H|H].
    - destruct (members (group_at st g)) as [|x r] eqn:E; [contradiction|]. exists x. split; [reflexivity|].
      assert (Hx : In x (members (group_at st g))) by (rewrite E; left; reflexivity). apply (pt_mem _ _ _ P) in Hx. tauto.
    - destruct (news (group_at st g)) as [|x r] eqn:E; [contradiction|].
      assert (Hx : In x (news (group_at st g))) by (rewrite E; left; reflexivity). apply (pt_new _ _ _ P) in Hx. destruct Hx as (_ & _ & C). discriminate.
  Qed.
  Lemma build_arcs_result n l : forall g, n < length g -> (forall a, In a l -> exists t, position (snd a) arr = Some t) ->
    exists g', fold_left (build_arc arr st root n) l (Ok g) = Ok g' /\ length g' = length g /\
      forall m, node_at g' m = if m =? n then add_arcs tgt l (node_at g n) else node_at g m.
  Proof.
    induction l as [|a l IH]; intros g Hn Hl.
    - exists g. split; [reflexivity|]. split; [reflexivity|]. intros m. destruct (Nat.eqb_spec m n) as [->|]; reflexivity.
    - destruct (Hl a (or_introl eq_refl)) as [t Et]. cbn [fold_left]. unfold build_arc at 2. cbn [rbind]. rewrite Et.
      assert (Ea : number_of root (nth t (group_of st) 0) = tgt (snd a)) by (unfold tgt; rewrite Et; reflexivity). rewrite Ea.
      destruct (IH (add_arc n (fst a) (tgt (snd a)) g)) as (g' & E & L & F).
      + rewrite add_arc_length. exact Hn.
      + intros b Hb. apply Hl. right. exact Hb.
      + exists g'. split; [exact E|]. rewrite add_arc_length in L. split; [exact L|]. intros m. rewrite F, !node_at_add_arc by exact Hn.
        rewrite Nat.eqb_refl. destruct (Nat.eqb_spec m n); reflexivity.
  Qed.
  Definition made (s : nat) : node := add_arcs tgt (out (nd h arr s)) (Node [] [] (final (nd h arr s))).
  Lemma build_result : exists g, build_transducer h arr st = Ok g /\ length g = M /\
    forall i, i < M -> exists s, s < N /\ gof st s = i /\ node_at g (number_of root i) = made s.
  Proof using HA H0 P.
    unfold build_transducer. fold root M.
    assert (Lr : root < M) by (apply gof_lt, N_pos).
    assert (Gen : forall k, k <= M -> exists g, fold_left (build_node h arr st root) (seq 0 k) (Ok (repeat fresh M)) = Ok g /\ length g = M /\
              (forall i, i < k -> exists s, s < N /\ gof st s = i /\ node_at g (number_of root i) = made s) /\
              (forall i, k <= i -> i < M -> node_at g (number_of root i) = fresh)).
    { induction k as [|k IH]; intros Hk.
      - exists (repeat fresh M). split; [reflexivity|]. split; [apply repeat_length|]. split; [intros i Hi; lia|].
        intros i _ Hi. unfold node_at. apply (nth_repeat fresh M).
      - destruct (IH ltac:(lia)) as (g & E & L & F1 & F2). rewrite seq_S, fold_left_app, E. cbn [fold_left plus].
        destruct (rep_of k ltac:(lia)) as (s & Es & Ls & Gs). unfold build_node.
        destruct (members (group_at st k)) as [|s' r]; [discriminate|]. cbn in Es. injection Es as ->. cbn [rmap]. fold (nd h arr s).
        assert (Ln : number_of root k < length g) by (rewrite L; apply number_lt; lia).
        destruct (build_arcs_result (number_of root k) (out (nd h arr s)) (set_final (number_of root k) (final (nd h arr s)) g)) as (g' & E' & L' & F').
        + rewrite set_final_length. exact Ln.
        + intros a Ha. exact (nd_target h arr HA s a Ls Ha).
        + exists g'. split; [exact E'|]. rewrite set_final_length in L'. split; [lia|]. split.
          * intros i Hi. destruct (Nat.eq_dec i k) as [->|Ni].
            -- exists s. split; [exact Ls|]. split; [exact Gs|]. rewrite F', Nat.eqb_refl, node_at_set_final by exact Ln. rewrite Nat.eqb_refl.
               rewrite (F2 k) by lia. reflexivity.
            -- destruct (F1 i ltac:(lia)) as (s1 & S1 & S2 & S3). exists s1. split; [exact S1|]. split; [exact S2|].
               assert (Nn : number_of root i <> number_of root k) by (intros C; apply number_inj in C; contradiction).
               rewrite F', (proj2 (Nat.eqb_neq _ _) Nn), node_at_set_final by exact Ln. rewrite (proj2 (Nat.eqb_neq _ _) Nn). exact S3.
          * intros i Hi HM. assert (Nn : number_of root i <> number_of root k) by (intros C; apply number_inj in C; lia).
            rewrite F', (proj2 (Nat.eqb_neq _ _) Nn), node_at_set_final by exact Ln. rewrite (proj2 (Nat.eqb_neq _ _) Nn). apply F2; lia. }
    destruct (Gen M (Nat.le_refl M)) as (g & E & L & F & _). exists g. auto.
  Qed.

  Lemma built_right : exists g, build_transducer h arr st = Ok g /\ length g = M /\ graph_ok g /\
    (forall n, n < length g -> eps (node_at g n) = [] /\ NoDup (map fst (arcs (node_at g n)))) /\
    (forall s, s < N -> number_of root (gof st s) < length g /\ forall w, reads g (number_of root (gof st s)) w <-> reads h (nth s arr 0) w) /\
    (forall n, n < length g -> exists s, s < N /\ n = number_of root (gof st s)) /\
    (forall n, n < length g -> reachable g 0 n).
  Proof using G D ND HA H0 P St Fi.
    destruct build_result as (g & E & L & F). exists g. split; [exact E|]. split; [exact L|].
    assert (Lr : root < M) by (apply gof_lt, N_pos).
    assert (All : forall n, n < length g -> exists s, s < N /\ n = number_of root (gof st s) /\ node_at g n = made s).
    { intros n Hn. rewrite L in Hn. destruct (number_surj root M n Lr Hn) as (i & Hi & <-). destruct (F i Hi) as (s & S1 & S2 & S3).
      exists s. split; [exact S1|]. split; [congruence|exact S3]. }
    assert (Tlt : forall s l x, s < N -> In (l, x) (out (nd h arr s)) -> tgt x < length g).
    { intros s l x Hs Hi. destruct (nd_target h arr HA s (l, x) Hs Hi) as [t Et]. cbn [snd] in Et. unfold tgt. rewrite Et.
      apply position_nth in Et. rewrite L. apply number_lt; [exact Lr|]. apply gof_lt, Et. }
    assert (Mout : forall s l n', s < N -> (In (l, n') (out (made s)) <-> exists x, In (l, x) (out (nd h arr s)) /\ n' = tgt x)).
    { intros s l n' Hs. unfold made. rewrite add_arcs_out. cbn [out eps arcs map app]. split.
      - intros [([l' x] & Hi & Ex)|[]]. cbn [fst snd] in Ex. injection Ex as -> ->. eauto.
      - intros (x & Hi & ->). left. exists (l, x). auto. }
    assert (Mdet : forall s, s < N -> eps (made s) = [] /\ NoDup (map fst (arcs (made s))) /\ (forall t, ~ In ((0, 0), t) (arcs (made s)))).
    { intros s Hs. destruct (nd_out h arr G D HA s Hs) as (Eo & N1 & N2).
      destruct (add_arcs_det tgt (out (nd h arr s)) (Node [] [] (final (nd h arr s)))) as [E1 E2]; [rewrite Eo; exact N2|].
      unfold made. split; [exact E1|]. cbn [arcs map] in E2. rewrite app_nil_r in E2. rewrite E2. split; [apply NoDup_rev; rewrite Eo; exact N1|].
      intros t C. pose proof (in_map (@fst label nat) _ _ C) as C'. rewrite E2 in C'.
      rewrite <- in_rev in C'. apply in_map_iff in C'. destruct C' as ([l x] & El & Hi). cbn [fst] in El. subst l. rewrite Eo in Hi. exact (N2 x Hi). }
    assert (Gg : graph_ok g).
    { split; [intros C; rewrite C in L; cbn in L; lia|]. intros n Hn. destruct (All n Hn) as (s & Hs & _ & ->). split.
      - intros l t Hi. apply (Mout s l t Hs) in Hi. destruct Hi as (x & Hi & ->). exact (Tlt s l x Hs Hi).
      - apply (Mdet s Hs). }
    split; [exact Gg|]. split; [|split; [|split]].
    - intros n Hn. destruct (All n Hn) as (s & Hs & _ & ->). destruct (Mdet s Hs) as (M1 & M2 & _). auto.
    - set (sc := fun s => map (fun a => (fst a, match position (snd a) arr with Some t => t | None => 0 end)) (out (nd h arr s))).
      set (fin := fun s => final (nd h arr s)).
      assert (Sc : forall s l y, s < N -> (In (l, y) (sc s) <-> dl h arr s l = Some y)).
      { intros s l y Hs. unfold sc. rewrite in_map_iff, (dl_out h arr G D ND HA s l y Hs). split.
        - intros ([l' x] & Ex & Hi). cbn [fst snd] in Ex. destruct (nd_target h arr HA s (l', x) Hs Hi) as [t Et]. cbn [snd] in Et. rewrite Et in Ex.
          injection Ex as -> ->. apply position_nth in Et. destruct Et as [Lt Ex]. rewrite Ex. auto.
        - intros [Lt Hi]. exists (l, nth y arr 0). cbn [fst snd]. rewrite (nth_position arr y ND Lt). auto. }
      intros s Hs. split; [rewrite L; apply number_lt; [exact Lr|apply gof_lt, Hs]|]. intros w.
      rewrite (represented_reads sc fin (fun s n => s < N /\ n = number_of root (gof st s)) g) with (k := s) (n := number_of root (gof st s)); [| | |auto].
      + symmetry. apply (represented_reads sc fin (fun s n => s < N /\ n = nth s arr 0) h); [| |auto].
        * intros k n [Hk ->]. split; [reflexivity|]. intros l t. fold (nd h arr k). split.
          -- intros Hi. destruct (nd_target h arr HA k (l, t) Hk Hi) as [y Ey]. cbn [snd] in Ey. apply position_nth in Ey. destruct Ey as [Ly <-].
             exists y. split; [|auto]. apply (Sc k l y Hk), (dl_out h arr G D ND HA k l y Hk). auto.
          -- intros (y & Hi & Ly & ->). apply (Sc k l y Hk), (dl_out h arr G D ND HA k l y Hk) in Hi. apply Hi.
        * intros k [l y] n [Hk ->] Hi. apply (Sc k l y Hk) in Hi. exists (nth y arr 0). split; [|reflexivity]. exact (dl_lt h arr G D ND HA k l y Hk Hi).
      + intros k n [Hk ->]. destruct (F (gof st k) (gof_lt k Hk)) as (s1 & S1 & S2 & S3). rewrite S3. split.
        * unfold made. rewrite add_arcs_final. cbn [final]. exact (Fi s1 k S1 Hk S2).
        * intros l n'. rewrite (Mout s1 l n' S1). pose proof (St s1 k l S1 Hk S2) as Ed. split.
          -- intros (x & Hi & ->). destruct (nd_target h arr HA s1 (l, x) S1 Hi) as [y Ey]. cbn [snd] in Ey. unfold tgt. rewrite Ey.
             apply position_nth in Ey. destruct Ey as [Ly Ex]. rewrite <- Ex in Hi.
             assert (E1 : dl h arr s1 l = Some y) by (apply (dl_out h arr G D ND HA s1 l y S1); auto).
             rewrite E1 in Ed. cbn [ogof option_map] in Ed. destruct (dl h arr k l) as [y'|] eqn:E2; [|discriminate]. cbn in Ed. injection Ed as Eg.
             exists y'. split; [apply (Sc k l y' Hk), E2|]. split; [exact (dl_lt h arr G D ND HA k l y' Hk E2)|]. rewrite <- Eg. reflexivity.
          -- intros (y & Hi & Ly & ->). apply (Sc k l y Hk) in Hi. rewrite Hi in Ed. cbn [ogof option_map] in Ed.
             destruct (dl h arr s1 l) as [y'|] eqn:E1; [|discriminate]. cbn in Ed. injection Ed as Eg.
             apply (dl_out h arr G D ND HA s1 l y' S1) in E1. destruct E1 as [Ly' Hi']. exists (nth y' arr 0). split; [exact Hi'|].
             unfold tgt. rewrite (nth_position arr y' ND Ly'), Eg. reflexivity.
      + intros k [l y] n [Hk ->] Hi. apply (Sc k l y Hk) in Hi. exists (number_of root (gof st y)). split; [|reflexivity]. exact (dl_lt h arr G D ND HA k l y Hk Hi).
    - intros n Hn. destruct (All n Hn) as (s & S1 & S2 & _). exists s. auto.
    - assert (Rx : forall a x, reachable h a x -> reachable h 0 a -> reachable g (tgt a) (tgt x)).
      { induction 1 as [a|a l b x Hi R IH]; intros Ra; [constructor|].
        assert (Rb : reachable h 0 b) by exact (reachable_next h a l b Ra Hi).
        destruct (position_In a arr) as [s Es]; [apply HA, Ra|]. pose proof (position_nth _ _ _ Es) as [Ls Ns].
        assert (Hd : In (l, b) (out (nd h arr s))) by (unfold nd; rewrite Ns; exact Hi).
        destruct (nd_target h arr HA s (l, b) Ls Hd) as [y Ey]. cbn [snd] in Ey. pose proof (position_nth _ _ _ Ey) as [Ly Ny].
        assert (E1 : dl h arr s l = Some y) by (apply (dl_out h arr G D ND HA s l y Ls); rewrite Ny; auto).
        destruct (F (gof st s) (gof_lt s Ls)) as (s1 & S1 & S2 & S3).
        pose proof (St s1 s l S1 Ls S2) as Ed. rewrite E1 in Ed. cbn [ogof option_map] in Ed. destruct (dl h arr s1 l) as [y'|] eqn:E2; [|discriminate].
        cbn in Ed. injection Ed as Eg. apply (dl_out h arr G D ND HA s1 l y' S1) in E2. destruct E2 as [Ly' Hi'].
        apply (reach_step g (tgt a) l (tgt b) (tgt x)); [|apply IH, Rb]. replace (node_at g (tgt a)) with (made s1) by (unfold tgt; rewrite Es; symmetry; exact S3).
        apply (Mout s1 l (tgt b) S1). exists (nth y' arr 0). split; [exact Hi'|]. unfold tgt. rewrite Ey, (nth_position arr y' ND Ly'), Eg. reflexivity. }
      intros n Hn. destruct (All n Hn) as (s & S1 & -> & _). pose proof (Rx 0 (nth s arr 0) (nd_reach h arr HA s S1) (reach_here h 0)) as R.
      unfold tgt in R. rewrite (nth_position arr s ND S1) in R.
      assert (E0 : position 0 arr = Some 0) by (rewrite <- H0 at 1; apply nth_position; [exact ND|exact N_pos]). rewrite E0, number_root in R. exact R.
  Qed.
End Build.
