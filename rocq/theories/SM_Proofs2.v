(** Hopcroft's algorithm: what the loop ends with. *)
From Verif Require Import Base SF_Spec SF_Model SF_Proofs SF_Proofs2 SF_Proofs7 SM_Model SM_Proofs.

Notation whole := (fun _ : nat => false).
Definition agenda_ok (st : mstate) : Prop := NoDup (map snd (agenda st)) /\ forall g, on_agenda st g -> g < length (groups st).
Record refined (N : nat) (X : nat -> bool) (st0 st : mstate) : Prop := {
  rf_parts : parts N whole st;
  rf_ag : agenda_ok st;
  rf_eq : forall s s', s < N -> s' < N -> (gof st s = gof st s' <-> gof st0 s = gof st0 s' /\ X s = X s');
  rf_keep : forall s, s < N -> on_agenda st0 (gof st0 s) -> on_agenda st (gof st s);
  rf_add : forall s s', s < N -> s' < N -> gof st0 s = gof st0 s' -> gof st s <> gof st s' -> on_agenda st (gof st s) \/ on_agenda st (gof st s');
  rf_size : length (agenda st) + length (groups st0) <= length (agenda st0) + length (groups st) }.

Lemma finish_all N X st0 : forall L st, splitting N X st0 st L -> splitting N X st0 (fold_left finish_group L st) [].
Proof. induction L as [|g L IH]; intros st H; [exact H|]. cbn [fold_left]. apply IH, finish_step, H. Qed.

Lemma process_result N st0 sources : parts N whole st0 -> agenda_ok st0 -> NoDup sources -> (forall s, In s sources -> s < N) ->
  exists st, process_source_groups sources st0 = Ok st /\ refined N (fun s => inb s sources) st0 st.
Proof.
  intros P A ND Hs. unfold process_source_groups.
  destruct (move_sources N sources whole st0 []) as (st1 & srcs & E & (P1 & D1 & S1) & E1 & E2 & E3).
  - split; [exact P|]. split; [constructor|]. intros g. split; [intros []|]. intros C. apply C.
    destruct (news (group_at st0 g)) as [|x r] eqn:En; [reflexivity|]. exfalso.
    assert (H : In x (news (group_at st0 g))) by (rewrite En; left; reflexivity). apply (pt_new _ _ _ P) in H. destruct H as (_ & _ & H). discriminate.
  - exact ND.
  - intros s H. split; [exact (Hs s H)|reflexivity].
  - rewrite E. cbn [rmap]. eexists. split; [reflexivity|].
    assert (SP : splitting N (fun s => inb s sources) st0 st1 srcs).
    { constructor.
      - apply (parts_ext N _ _ _ P1). intros s Ls. cbn beta. cbn [orb]. destruct (inb s sources) eqn:Ei; [|reflexivity]. cbn [andb]. symmetry.
        apply inb_In, S1. intros C. assert (H : In s (news (group_at st1 (gof st1 s)))) by (apply (pt_new _ _ _ P1); rewrite Ei; auto).
        rewrite C in H. destruct H.
      - exact D1.
      - intros g H. apply S1, H.
      - rewrite E1. auto.
      - rewrite E1. auto.
      - intros s s' L1 L2 Eg Dx. apply S1. intros C.
        assert (None : forall x, x < N -> gof st1 x = gof st1 s -> inb x sources = false).
        { intros x Lx Ex. destruct (inb x sources) eqn:Ei; [|reflexivity]. exfalso.
          assert (H : In x (news (group_at st1 (gof st1 s)))) by (apply (pt_new _ _ _ P1); rewrite Ei; auto).
          rewrite C in H. destruct H. }
        apply Dx. rewrite (None s), (None s'); auto.
      - rewrite E1. unfold group_of. rewrite E2. auto.
      - rewrite E1. intros s s' _ _ H1 H2. contradiction.
      - rewrite E2, E3. exact A.
      - rewrite E2, E3. lia. }
    apply finish_all in SP. set (st := fold_left finish_group srcs st1) in *. destruct SP as [Q1 _ _ Q4 Q5 Q6 Q7 Q8 Q9 Q10].
    constructor; auto.
    + apply (parts_ext N _ _ _ Q1). intros s _. cbn beta. apply Bool.andb_false_r.
    + intros s s' L1 L2. split; [|intros [H1 H2]; exact (Q5 s s' L1 L2 H1 H2)]. intros Eg. split; [exact (Q4 s s' L1 L2 Eg)|].
      destruct (Bool.bool_dec (inb s sources) (inb s' sources)) as [H|H]; [exact H|]. destruct (Q6 s s' L1 L2 Eg H).
Qed.

(** The number of groups. *)
Lemma groups_le N st : parts N whole st -> length (groups st) <= N /\
  (length (groups st) = N -> forall s s', s < N -> s' < N -> gof st s = gof st s' -> s = s').
Proof.
  intros P. set (rep := fun g => hd 0 (members (group_at st g))).
  assert (Rep : forall g, g < length (groups st) -> rep g < N /\ gof st (rep g) = g).
  { intros g Hg. unfold rep. destruct (pt_ne _ _ _ P g Hg) as [H|H].
    - destruct (members (group_at st g)) as [|x r] eqn:E; [contradiction|]. cbn [hd].
      assert (Hx : In x (members (group_at st g))) by (rewrite E; left; reflexivity). apply (pt_mem _ _ _ P) in Hx. tauto.
    - destruct (news (group_at st g)) as [|x r] eqn:E; [contradiction|].
      assert (Hx : In x (news (group_at st g))) by (rewrite E; left; reflexivity). apply (pt_new _ _ _ P) in Hx. destruct Hx as (_ & _ & C). discriminate. }
  set (reps := map rep (seq 0 (length (groups st)))).
  assert (ND : NoDup reps).
  { unfold reps. assert (Gen : forall l, NoDup l -> (forall g, In g l -> g < length (groups st)) -> NoDup (map rep l)).
    { induction l as [|g l IH]; intros H1 H2; [constructor|]. inversion H1 as [|? ? N1 H1']; subst. cbn [map]. constructor.
      - intros C. apply in_map_iff in C. destruct C as (g' & E & Hg'). apply N1.
        assert (g' = g); [|subst; exact Hg']. rewrite <- (proj2 (Rep g' (H2 g' (or_intror Hg')))), <- (proj2 (Rep g (H2 g (or_introl eq_refl)))). rewrite E. reflexivity.
      - apply IH; [exact H1'|]. intros x Hx. apply H2. right. exact Hx. }
    apply Gen; [apply seq_NoDup|]. intros g Hg. apply in_seq in Hg. lia. }
  assert (Inc : incl reps (seq 0 N)).
  { intros x Hx. unfold reps in Hx. apply in_map_iff in Hx. destruct Hx as (g & <- & Hg). apply in_seq in Hg. apply in_seq. destruct (Rep g); lia. }
  assert (Len : length reps = length (groups st)) by (unfold reps; rewrite map_length, seq_length; reflexivity).
  split.
  - rewrite <- Len, <- (seq_length N 0). apply NoDup_incl_length; assumption.
  - intros EN s s' L1 L2 Eg.
    assert (Back : incl (seq 0 N) reps) by (apply NoDup_length_incl; [exact ND|rewrite seq_length; lia|exact Inc]).
    assert (H1 : In s reps) by (apply Back, in_seq; lia). assert (H2 : In s' reps) by (apply Back, in_seq; lia).
    unfold reps in H1, H2. apply in_map_iff in H1, H2. destruct H1 as (g1 & <- & I1), H2 as (g2 & <- & I2). apply in_seq in I1, I2.
    rewrite (proj2 (Rep g1 ltac:(lia))), (proj2 (Rep g2 ltac:(lia))) in Eg. rewrite Eg. reflexivity.
Qed.

(** The sources of the transitions into a set, by label. *)
Lemma by_label_result l : NoDup l -> let m := fold_left by_label l [] in
  lsorted m /\ (forall a srcs, In (a, srcs) m -> NoDup srcs /\ forall s, In s srcs <-> In (s, a) l) /\
  (forall s a, In (s, a) l -> exists srcs, In (a, srcs) m).
Proof.
  induction l as [|[s a] l IH] using rev_ind; intros ND; cbv zeta.
  - split; [constructor|]. split; [intros ? ? []|intros ? ? []].
  - rewrite fold_left_app. cbn [fold_left]. cbv zeta in IH.
    assert (ND' : NoDup l /\ ~ In (s, a) l).
    { apply NoDup_remove in ND. rewrite app_nil_r in ND. exact ND. }
    destruct ND' as [ND' Ns]. destruct (IH ND') as (H1 & H2 & H3). clear IH. set (m := fold_left by_label l []) in *.
    unfold by_label. cbn [fst snd]. set (old := match mget upper_cmp a m with Some l0 => l0 | None => [] end).
    assert (Old : NoDup old /\ forall x, In x old <-> In (x, a) l).
    { unfold old. destruct (mget upper_cmp a m) as [o|] eqn:Em.
      - apply mget_In in Em; [|apply upper_cmp_eq]. exact (H2 _ _ Em).
      - split; [constructor|]. intros x. split; [intros []|]. intros C. destruct (H3 _ _ C) as (srcs & Hs).
        apply (In_mget _ _ _ H1) in Hs. congruence. }
    destruct Old as [O1 O2].
    assert (New : In (a, s :: old) (mset upper_cmp a (s :: old) m)).
    { apply (mget_In upper_cmp upper_cmp_eq). apply mget_mset_same, upper_cmp_eq. }
    split; [apply mset_sorted, H1|]. split.
    + intros a' srcs Hi.
      assert (Hm : mget upper_cmp a' (mset upper_cmp a (s :: old) m) = Some srcs) by (apply In_mget; [apply mset_sorted, H1|exact Hi]).
      destruct (label_eqb a' a) eqn:El.
      * apply label_eqb_eq in El. subst a'. rewrite mget_mset_same in Hm by apply upper_cmp_eq. injection Hm as <-. split.
        -- constructor; [|exact O1]. rewrite O2. exact Ns.
        -- intros x. cbn [In]. rewrite O2, in_app_iff. cbn [In]. split.
           ++ intros [->|H]; auto.
           ++ intros [H|[H|[]]]; [auto|]. injection H as ->. auto.
      * assert (Na : a' <> a) by (intros ->; rewrite (proj2 (label_eqb_eq a a) eq_refl) in El; discriminate).
        rewrite mget_mset_other in Hm by (try apply upper_cmp_eq; exact Na). apply mget_In in Hm; [|apply upper_cmp_eq].
        destruct (H2 _ _ Hm) as [D1 D2]. split; [exact D1|]. intros x. rewrite D2, in_app_iff. cbn [In]. split; [auto|].
        intros [H|[H|[]]]; [exact H|]. injection H as _ E. congruence.
    + intros x a' Hi. apply in_app_iff in Hi. destruct Hi as [Hi|[Hi|[]]].
      * destruct (label_eqb a' a) eqn:El; [apply label_eqb_eq in El; subst a'; exists (s :: old); exact New|].
        destruct (H3 _ _ Hi) as (srcs & Hs). exists srcs. apply (mget_In upper_cmp upper_cmp_eq). rewrite mget_mset_other.
        -- apply In_mget; assumption.
        -- apply upper_cmp_eq.
        -- intros ->. rewrite (proj2 (label_eqb_eq a a) eq_refl) in El. discriminate.
      * injection Hi as <- <-. exists (s :: old). exact New.
Qed.

Lemma first_entry_In a e : first_entry a = Some e -> In e a.
Proof.
  revert e. induction a as [|x a IH]; intros e; cbn [first_entry]; [discriminate|].
  destruct (first_entry a) as [b|]; [|intros H; injection H as ->; left; reflexivity].
  destruct (fst x <=? fst b); intros H; injection H as <-; [left; reflexivity|right; apply IH; reflexivity].
Qed.
Lemma first_entry_None a : first_entry a = None -> a = [].
Proof. destruct a as [|x a]; [reflexivity|]. cbn [first_entry]. destruct (first_entry a) as [b|]; [destruct (_ <=? _)|]; discriminate. Qed.

Section Hopcroft.
  Variable N : nat.
  Variable inc : list (list (nat * label)).
  Variable dl : nat -> label -> option nat.
  Variable fin : nat -> bool.
  Variable eqv : nat -> nat -> Prop.
  Hypothesis inc_dl : forall t s a, t < N -> (In (s, a) (nth t inc []) <-> s < N /\ dl s a = Some t).
  Hypothesis inc_nd : forall t, t < N -> NoDup (nth t inc []).
  Hypothesis dl_lt : forall s a t, s < N -> dl s a = Some t -> t < N.
  Hypothesis eqv_dl : forall s s' a, s < N -> s' < N -> eqv s s' ->
    match dl s a, dl s' a with Some t, Some t' => eqv t t' | None, None => True | _, _ => False end.

  Definition inC (C : nat -> bool) (o : option nat) : bool := match o with Some t => C t | None => false end.
  Definition ogof (st : mstate) (o : option nat) : option nat := option_map (fun t => gof st t) o.
  Definition hop (st : mstate) (C : nat -> bool) (Ls : list label) : Prop :=
    forall s s' a, s < N -> s' < N -> gof st s = gof st s' -> ogof st (dl s a) <> ogof st (dl s' a) ->
    (exists g, on_agenda st g /\ inC (fun t => gof st t =? g) (dl s a) <> inC (fun t => gof st t =? g) (dl s' a)) \/
    (In a Ls /\ inC C (dl s a) <> inC C (dl s' a)).
  Definition coarse (st : mstate) : Prop := forall s s', s < N -> s' < N -> eqv s s' -> gof st s = gof st s'.
  Definition fins (st : mstate) : Prop := forall s s', s < N -> s' < N -> gof st s = gof st s' -> fin s = fin s'.
  Definition good (st : mstate) : Prop := parts N whole st /\ agenda_ok st /\ coarse st /\ fins st.

  Lemma hop_step st st' C a0 Ls X : refined N X st st' -> (forall s, s < N -> X s = inC C (dl s a0)) ->
    hop st C (a0 :: Ls) -> hop st' C Ls.
  Proof using dl_lt.
    intros RF HX H s s' a L L' Eg Dg.
    destruct (proj1 (rf_eq _ _ _ _ RF s s' L L') Eg) as [E0 Ex].
    destruct (dl s a) as [t|] eqn:Et; destruct (dl s' a) as [t'|] eqn:Et'; cbn [ogof option_map] in Dg.
    - assert (Lt := dl_lt _ _ _ L Et). assert (Lt' := dl_lt _ _ _ L' Et').
      assert (Dg' : gof st' t <> gof st' t') by congruence.
      destruct (Nat.eq_dec (gof st t) (gof st t')) as [E|NE].
      + left. destruct (rf_add _ _ _ _ RF t t' Lt Lt' E Dg') as [A|A]; eexists; (split; [exact A|]); cbn [inC].
        * rewrite Nat.eqb_refl. destruct (Nat.eqb_spec (gof st' t') (gof st' t)); congruence.
        * rewrite Nat.eqb_refl. destruct (Nat.eqb_spec (gof st' t) (gof st' t')); congruence.
      + destruct (H s s' a L L' E0) as [(g & Hg & Sg)|(Ha & Sa)]; rewrite ?Et, ?Et' in *; cbn [ogof option_map inC] in *; [congruence| |].
        * left. destruct (Nat.eqb_spec (gof st t) g) as [E1|N1]; destruct (Nat.eqb_spec (gof st t') g) as [E2|N2]; try congruence.
          -- exists (gof st' t). split; [apply (rf_keep _ _ _ _ RF t Lt); rewrite E1; exact Hg|]. rewrite Nat.eqb_refl.
             destruct (Nat.eqb_spec (gof st' t') (gof st' t)) as [C1|]; congruence.
          -- exists (gof st' t'). split; [apply (rf_keep _ _ _ _ RF t' Lt'); rewrite E2; exact Hg|]. rewrite Nat.eqb_refl.
             destruct (Nat.eqb_spec (gof st' t) (gof st' t')) as [C1|]; congruence.
        * destruct Ha as [<-|Ha]; [|right; auto]. exfalso. apply Sa. rewrite !HX, Et, Et' in Ex by assumption. exact Ex.
    - assert (Lt := dl_lt _ _ _ L Et).
      destruct (H s s' a L L' E0) as [(g & Hg & Sg)|(Ha & Sa)]; rewrite ?Et, ?Et' in *; cbn [ogof option_map inC] in *; [discriminate| |].
      + left. exists (gof st' t). rewrite Nat.eqb_refl. split; [|discriminate]. apply (rf_keep _ _ _ _ RF t Lt).
        destruct (Nat.eqb_spec (gof st t) g) as [E1|]; [rewrite E1; exact Hg|congruence].
      + destruct Ha as [<-|Ha]; [|right; auto]. exfalso. apply Sa. rewrite !HX, Et, Et' in Ex by assumption. exact Ex.
    - assert (Lt' := dl_lt _ _ _ L' Et').
      destruct (H s s' a L L' E0) as [(g & Hg & Sg)|(Ha & Sa)]; rewrite ?Et, ?Et' in *; cbn [ogof option_map inC] in *; [discriminate| |].
      + left. exists (gof st' t'). rewrite Nat.eqb_refl. split; [|discriminate]. apply (rf_keep _ _ _ _ RF t' Lt').
        destruct (Nat.eqb_spec (gof st t') g) as [E1|]; [rewrite E1; exact Hg|congruence].
      + destruct Ha as [<-|Ha]; [|right; auto]. exfalso. apply Sa. rewrite !HX, Et, Et' in Ex by assumption. exact Ex.
    - congruence.
  Qed.

  Lemma process_all (C : nat -> bool) : (forall t t', t < N -> t' < N -> eqv t t' -> C t = C t') ->
    forall m st, (forall a srcs, In (a, srcs) m -> NoDup srcs /\ forall s, In s srcs <-> s < N /\ inC C (dl s a) = true) ->
    good st -> hop st C (map fst m) ->
    exists st', fold_left (fun x ls => rbind x (process_source_groups (snd ls))) m (Ok st) = Ok st' /\
      good st' /\ hop st' C [] /\ length (agenda st') + length (groups st) <= length (agenda st) + length (groups st').
  Proof using dl_lt eqv_dl.
    intros HC. induction m as [|[a srcs] m IH]; intros st Hm (P & A & Co & Fi) H.
    - exists st. split; [reflexivity|]. split; [exact (conj P (conj A (conj Co Fi)))|]. split; [exact H|lia].
    - cbn [fold_left rbind snd]. destruct (Hm a srcs (or_introl eq_refl)) as [ND Hs].
      destruct (process_result N st srcs P A ND) as (st1 & E & RF); [intros s Hi; apply Hs, Hi|]. rewrite E.
      assert (HX : forall s, s < N -> inb s srcs = inC C (dl s a)).
      { intros s L. destruct (inC C (dl s a)) eqn:Ei; [apply inb_In, Hs; auto|]. apply inb_not. rewrite Hs. intros [_ C']. congruence. }
      destruct (IH st1) as (st' & E' & G' & H' & Sz).
      + intros a' s' Hi. apply Hm. right. exact Hi.
      + split; [exact (rf_parts _ _ _ _ RF)|]. split; [exact (rf_ag _ _ _ _ RF)|]. split.
        * intros s s' L L' Q. apply (rf_eq _ _ _ _ RF s s' L L'). split; [exact (Co s s' L L' Q)|]. rewrite !HX by assumption.
          pose proof (eqv_dl s s' a L L' Q) as D. destruct (dl s a) as [t|] eqn:Et; destruct (dl s' a) as [t'|] eqn:Et'; try contradiction; [|reflexivity].
          cbn [inC]. apply HC; [exact (dl_lt _ _ _ L Et)|exact (dl_lt _ _ _ L' Et')|exact D].
        * intros s s' L L' Eg. apply (rf_eq _ _ _ _ RF s s' L L') in Eg. apply Fi; tauto.
      + exact (hop_step st st1 C a (map fst m) _ RF HX H).
      + exists st'. split; [exact E'|]. split; [exact G'|]. split; [exact H'|]. pose proof (rf_size _ _ _ _ RF). lia.
  Qed.

  Definition stable (st : mstate) : Prop :=
    forall s s' a, s < N -> s' < N -> gof st s = gof st s' -> ogof st (dl s a) = ogof st (dl s' a).
  Lemma option_nat_dec (a b : option nat) : {a = b} + {a <> b}.
  Proof. decide equality. apply Nat.eq_dec. Qed.
  Lemma refine_result fuel : forall st C, good st -> hop st C [] ->
    length (agenda st) + N < fuel + length (groups st) ->
    exists st', refine fuel inc N st = Ok st' /\ good st' /\ stable st'.
  Proof using inc_dl inc_nd dl_lt eqv_dl.
    induction fuel as [|fuel IH]; intros st C G H M.
    - exfalso. destruct G as (P & _). destruct (groups_le N st P). lia.
    - cbn [refine]. destruct (first_entry (agenda st)) as [[b g]|] eqn:Ef.
      + cbn [snd]. set (st0 := MState (groups st) (group_of st) (agenda_erase g (agenda st))).
        destruct G as (P & [A1 A2] & Co & Fi). apply first_entry_In in Ef.
        assert (Hg : on_agenda st g) by (apply in_map_iff; exists (b, g); auto).
        assert (Lg : g < length (groups st)) by (apply A2, Hg).
        set (cs := members (group_at st g)).
        assert (Hcs : forall t, t < N -> In t cs <-> gof st t = g).
        { intros t Lt. unfold cs. rewrite (pt_mem _ _ _ P). tauto. }
        assert (Ncs : cs <> []).
        { destruct (pt_ne _ _ _ P g Lg) as [D|D]; [exact D|]. exfalso. destruct (news (group_at st g)) as [|x r] eqn:E; [contradiction|].
          assert (Hx : In x (news (group_at st g))) by (rewrite E; left; reflexivity). apply (pt_new _ _ _ P) in Hx. destruct Hx as (_ & _ & D'). discriminate. }
        unfold compute_source_states. change (group_at st0 g) with (group_at st g). fold cs.
        destruct cs as [|c0 cr] eqn:Ecs; [contradiction|]. rewrite <- Ecs in *. cbn [rbind].
        set (l := flat_map (fun s => nth s inc []) cs).
        assert (Hl : forall s a, In (s, a) l <-> s < N /\ inC (fun t => gof st t =? g) (dl s a) = true).
        { intros s a. unfold l. rewrite in_flat_map. split.
          - intros (t & Ht & Hi). assert (Lt : t < N) by (unfold cs in Ht; apply (pt_mem _ _ _ P) in Ht; tauto).
            apply (inc_dl t s a Lt) in Hi. destruct Hi as [Ls E]. split; [exact Ls|]. rewrite E. cbn [inC]. apply Nat.eqb_eq, Hcs; assumption.
          - intros [Ls D]. destruct (dl s a) as [t|] eqn:E; [|discriminate]. cbn [inC] in D. apply Nat.eqb_eq in D. pose proof (dl_lt _ _ _ Ls E) as Lt.
            exists t. split; [apply Hcs; assumption|]. apply inc_dl; auto. }
        assert (NDl : NoDup l).
        { unfold l. assert (NDc : NoDup cs) by apply (pt_nd _ _ _ P g). assert (Rc : forall t, In t cs -> t < N) by (intros t Ht; unfold cs in Ht; apply (pt_mem _ _ _ P) in Ht; tauto).
          clear - NDc Rc inc_nd inc_dl. induction cs as [|t r IHr]; [constructor|]. cbn [flat_map]. inversion NDc as [|? ? N1 N2]; subst.
          assert (App : forall (A : Type) (x y : list A), NoDup x -> NoDup y -> (forall z, In z x -> ~ In z y) -> NoDup (x ++ y)).
          { clear. induction x as [|z x IH]; intros y Hx Hy D; [exact Hy|]. inversion Hx; subst. cbn. constructor.
            - rewrite in_app_iff. intros [C|C]; [contradiction|]. exact (D z (or_introl eq_refl) C).
            - apply IH; auto. intros w Hw. apply D. right. exact Hw. }
          apply App.
          - apply inc_nd, Rc. left. reflexivity.
          - apply IHr; [exact N2|]. intros x Hx. apply Rc. right. exact Hx.
          - intros [s a] H1 H2. apply in_flat_map in H2. destruct H2 as (t' & Ht' & H2).
            apply inc_dl in H1; [|apply Rc; left; reflexivity]. apply inc_dl in H2; [|apply Rc; right; exact Ht'].
            assert (t = t') by (destruct H1 as [_ H1], H2 as [_ H2]; congruence). subst. contradiction. }
        destruct (by_label_result l NDl) as (M1 & M2 & M3). set (m := fold_left by_label l []) in *.
        destruct (process_all (fun t => gof st t =? g)) with (m := m) (st := st0) as (st' & E' & G' & H' & Sz).
        * intros t t' Lt Lt' Q. rewrite (Co t t' Lt Lt' Q). reflexivity.
        * intros a srcs Hi. destruct (M2 a srcs Hi) as [D1 D2]. split; [exact D1|]. intros s. rewrite D2. apply Hl.
        * split; [|split; [|split; assumption]].
          -- destruct P as [P1 P2 P3 P4 P5]. constructor; assumption.
          -- split; cbn [agenda st0 groups]; [apply agenda_erase_NoDup, A1|]. intros x Hx. apply agenda_erase_In in Hx. apply A2. tauto.
        * intros s s' a L L' Eg Dg. destruct (H s s' a L L' Eg Dg) as [(x & Hx & Sx)|([] & _)].
          destruct (Nat.eq_dec x g) as [->|Nx].
          -- right. split; [|exact Sx]. apply in_map_iff.
             assert (Some_in : In (s, a) l \/ In (s', a) l).
             { rewrite !Hl. destruct (inC _ (dl s a)); [auto|]. destruct (inC _ (dl s' a)); [auto|]. exfalso. apply Sx. reflexivity. }
             destruct Some_in as [Hi|Hi]; destruct (M3 _ _ Hi) as (srcs & Hsrc); exists (a, srcs); auto.
          -- left. exists x. split; [|exact Sx]. cbn [agenda st0]. apply agenda_erase_In. auto.
        * rewrite E'. cbn [rbind]. destruct (Nat.eqb_spec (length (groups st')) N) as [EN|NN].
          -- exists st'. split; [reflexivity|]. split; [exact G'|]. intros s s' a L L' Eg.
             destruct (groups_le N st' (proj1 G')) as [_ Inj]. rewrite (Inj EN s s' L L' Eg). reflexivity.
          -- apply (IH st' (fun t => gof st t =? g) G' H'). cbn [agenda st0 groups] in Sz. pose proof (agenda_erase_length g _ A1 Hg). lia.
      + apply first_entry_None in Ef. exists st. split; [reflexivity|]. split; [exact G|].
        intros s s' a L L' Eg. destruct (option_nat_dec (ogof st (dl s a)) (ogof st (dl s' a))) as [E|NE]; [exact E|]. exfalso.
        destruct (H s s' a L L' Eg NE) as [(x & Hx & _)|([] & _)]. rewrite Ef in Hx. destruct Hx.
  Qed.
End Hopcroft.
