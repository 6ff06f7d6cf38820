(** Proofs about reading the tables back: the traversal. *)
From Coq Require Import Sorted Permutation NArith Lia.
From Verif Require Import Base OrdMap Flags_Model BT_Model BT_Spec BT_Proofs LK_Model OLF_Model OLC_Model OLL_Model OLC_Spec.

Section Loop.
  Variable dec : N -> Z.
  Variable tr : transducer.
  Variable g : graph.
  Variable addr : nat -> N.
  Let h := tr_header tr.
  Let al := tr_alphabet tr.
  Let t := tr_tables tr.
  Let n := length (sts g).
  Variable bad : Prop.
  Hypothesis HS : structure_ok g.
  Hypothesis HZ : addr 0 = 0%N.
  Hypothesis HJ : forall s1 s2, s1 < n -> s2 < n -> addr s1 = addr s2 -> s1 = s2.
  Hypothesis HF : forall s, s < n -> final_weight dec t (addr s) = Ok (finw g s).
  Hypothesis HC : t_wclass t = true.
  Hypothesis HR : forall s, s < n ->
    (exists l, get_transitions_from_state h al t (addr s) = Ok l
      /\ (forall p, In p l -> exists a e, In a (arcs g s) /\ get_transition t p = Ok e /\ stands_for dec (a_table al) addr a e)
      /\ (forall a, In a (arcs g s) -> exists p e, In p l /\ get_transition t p = Ok e /\ stands_for dec (a_table al) addr a e))
    \/ get_transitions_from_state h al t (addr s) = Ub /\ bad.

  Let keep (w : Z) : Z := if h_weighted h then w else 0%Z.
  Let ren (a : arc) (j : nat) : arc := Arc j (isy a) (osy a) (keep (wt a)).

  Local Lemma keep_plus v w : keep (v + w)%Z = (keep v + keep w)%Z.
  Proof. unfold keep. destruct (h_weighted h); lia. Qed.
  Local Lemma keep_zero : keep 0%Z = 0%Z.
  Proof. unfold keep. destruct (h_weighted h); reflexivity. Qed.
  Local Lemma tgt_n s a : In a (arcs g s) -> tgt a < n.
  Proof. destruct HS as (_ & H & _). apply H. Qed.
  Local Lemma n_pos : 0 < n.
  Proof. destruct HS as (H & _). unfold n. destruct (sts g); [congruence|simpl; lia]. Qed.
  Local Lemma mget_new (i : N) (j : nat) (m : list (N * nat)) (x : N) : mget N.compare x (mset N.compare i j m) = if (x =? i)%N then Some j else mget N.compare x m.
  Proof.
    destruct (N.eqb_spec x i) as [-> |D]; [apply (mget_mset_same _ N.compare_eq_iff)|apply (mget_mset_other _ N.compare_eq_iff)]; congruence.
  Qed.

  (** The symbols that may be in the alphabet of the result. *)
  Variable A0 : list bstr.
  Hypothesis HA0 : forall x, In x (a_table al) -> In x A0.

  Record inv (b : back) (dn : list nat) (cur : list nat) : Prop := {
    i_range : forall i j, mget N.compare i (b_map b) = Some j -> (exists s, s < n /\ i = addr s) /\ j <= b_last b;
    i_start : mget N.compare 0%N (b_map b) = Some 0;
    i_inj : forall i1 i2 j, mget N.compare i1 (b_map b) = Some j -> mget N.compare i2 (b_map b) = Some j -> i1 = i2;
    i_agenda : forall i, In i (b_agenda b) -> exists s, s < n /\ i = addr s /\ mget N.compare i (b_map b) <> None /\ ~ In s dn /\ ~ In s cur;
    i_nodup : NoDup (b_agenda b);
    i_dn : NoDup dn /\ forall s, In s dn -> s < n /\ mget N.compare (addr s) (b_map b) <> None;
    i_where : forall s j, s < n -> mget N.compare (addr s) (b_map b) = Some j -> In s dn \/ In s cur \/ In (addr s) (b_agenda b);
    i_sound : forall s j a', s < n -> mget N.compare (addr s) (b_map b) = Some j -> In a' (arcs (b_graph b) j) ->
      exists a, In a (arcs g s) /\ mget N.compare (addr (tgt a)) (b_map b) = Some (tgt a') /\ a' = ren a (tgt a');
    i_complete : forall s j a, In s dn -> mget N.compare (addr s) (b_map b) = Some j -> In a (arcs g s) ->
      exists j', mget N.compare (addr (tgt a)) (b_map b) = Some j' /\ In (ren a j') (arcs (b_graph b) j);
    i_final : forall s j, s < n -> mget N.compare (addr s) (b_map b) = Some j -> finw (b_graph b) j = option_map keep (finw g s);
    i_fresh : forall j, b_last b < j -> arcs (b_graph b) j = [] /\ finw (b_graph b) j = None;
    i_alpha : forall x, In x (alpha (b_graph b)) <-> In x A0;
    i_syms : forall q a, In a (arcs (b_graph b) q) -> In (isy a) A0 /\ In (osy a) A0;
    i_struct : structure_ok (b_graph b)
  }.

  (** One transition, in the state [s] being processed. *)
  Lemma arc_step b dn s j p a e : inv b dn [s] -> s < n -> ~ In s dn -> mget N.compare (addr s) (b_map b) = Some j ->
    In a (arcs g s) -> get_transition t p = Ok e -> stands_for dec (a_table al) addr a e ->
    exists b', back_arc dec tr j b p = Ok b' /\ inv b' dn [s] /\ mget N.compare (addr s) (b_map b') = Some j
      /\ (exists j', mget N.compare (addr (tgt a)) (b_map b') = Some j' /\ In (ren a j') (arcs (b_graph b') j))
      /\ (forall i v, mget N.compare i (b_map b) = Some v -> mget N.compare i (b_map b') = Some v)
      /\ (forall q x, In x (arcs (b_graph b) q) -> In x (arcs (b_graph b') q)).
  Proof.
    intros I L ND HM Ha Hp (S1 & S2 & S3 & S4). pose proof (tgt_n s a Ha) as LT. unfold back_arc. fold t al h. rewrite Hp. cbn [rbind]. rewrite S3.
    assert (X : exists b1, match mget N.compare (addr (tgt a)) (b_map b) with
           | Some _ => Ok b
           | None =>
               rbind (back_add_state dec tr (b_graph b) (b_map b) (addr (tgt a)) (S (b_last b))) (fun '(g, m) =>
               Ok (Back g m (S (b_last b)) (addr (tgt a) :: b_agenda b)))
           end = Ok b1 /\ inv b1 dn [s] /\ (exists j', mget N.compare (addr (tgt a)) (b_map b1) = Some j')
           /\ (forall i v, mget N.compare i (b_map b) = Some v -> mget N.compare i (b_map b1) = Some v)
           /\ (forall q x, In x (arcs (b_graph b) q) -> In x (arcs (b_graph b1) q))).
    { destruct (mget N.compare (addr (tgt a)) (b_map b)) as [j'|] eqn:EM.
      - exists b. split; [reflexivity|]. split; [exact I|]. split; [eauto|]. split; auto.
      - unfold back_add_state. fold t h. rewrite (HF (tgt a) LT). cbn [rbind]. eexists. split; [reflexivity|].
        set (s' := tgt a) in *. set (j' := S (b_last b)).
        set (g1 := match finw g s' with Some w => _ | None => _ end).
        assert (AR : forall q, arcs g1 q = arcs (b_graph b) q).
        { intros q. unfold g1. destruct (finw g s') as [w|]; [|reflexivity].
          change (arcs (set_final_weight (add_state_n (b_graph b) j') j' (if h_weighted h then w else 0%Z)) q)
            with (arcs (add_state_n (add_state_n (b_graph b) j') j') q). rewrite !arcs_add_state_n. reflexivity. }
        assert (FI : forall q, finw g1 q = if q =? j' then option_map keep (finw g s') else finw (b_graph b) q).
        { intros q. destruct (i_fresh _ _ _ I j' ltac:(unfold j'; lia)) as (_ & FN). unfold g1. destruct (finw g s') as [w|].
          - unfold finw, set_final_weight. cbn [with_fin fin add_state_n with_sts]. destruct (Nat.eqb_spec q j') as [-> |D].
            + rewrite (mget_mset_same _ Nat.compare_eq_iff). reflexivity.
            + apply (mget_mset_other _ Nat.compare_eq_iff). congruence.
          - destruct (Nat.eqb_spec q j') as [-> |D]; [exact FN|reflexivity]. }
        assert (AL : alpha g1 = alpha (b_graph b)) by (unfold g1; destruct (finw g s'); reflexivity).
        assert (NM : forall q v, q < n -> mget N.compare (addr q) (b_map b) = Some v -> q <> s' /\ v <> j').
        { intros q v Lq Hq. split; [intros ->; congruence|]. apply (i_range _ _ _ I) in Hq. unfold j'. lia. }
        assert (NE : forall i v, mget N.compare i (b_map b) = Some v -> i <> addr s') by (intros i v Hi ->; congruence).
        split; [|split; [|split]].
        + split; cbn [b_graph b_map b_last b_agenda].
          * intros i v. rewrite mget_new. destruct (N.eqb_spec i (addr s')) as [-> |D].
            -- intros [= <-]. split; [exists s'; auto|unfold j'; lia].
            -- intros Hi. destruct (i_range _ _ _ I i v Hi) as (H1 & H2). split; [exact H1|lia].
          * rewrite mget_new. destruct (N.eqb_spec 0 (addr s')) as [E|D]; [|exact (i_start _ _ _ I)].
            rewrite <- E in EM. rewrite (i_start _ _ _ I) in EM. discriminate.
          * intros i1 i2 v. rewrite !mget_new. destruct (N.eqb_spec i1 (addr s')) as [-> |D1], (N.eqb_spec i2 (addr s')) as [-> |D2]; intros H1 H2.
            -- reflexivity.
            -- injection H1 as <-. apply (i_range _ _ _ I) in H2. unfold j' in H2. lia.
            -- injection H2 as <-. apply (i_range _ _ _ I) in H1. unfold j' in H1. lia.
            -- exact (i_inj _ _ _ I _ _ _ H1 H2).
          * intros i [<- |Hi].
            -- exists s'. split; [exact LT|]. split; [reflexivity|]. rewrite mget_new, N.eqb_refl. split; [discriminate|]. split.
               ++ intros C. apply (i_dn _ _ _ I) in C. tauto.
               ++ intros [C|[]]. subst s. congruence.
            -- destruct (i_agenda _ _ _ I i Hi) as (q & H1 & H2 & H3 & H4). exists q. split; [exact H1|]. split; [exact H2|].
               rewrite mget_new. destruct (N.eqb_spec i (addr s')); [split; [discriminate|exact H4]|split; [exact H3|exact H4]].
          * constructor; [|exact (i_nodup _ _ _ I)]. intros C. destruct (i_agenda _ _ _ I _ C) as (q & _ & _ & H3 & _). congruence.
          * destruct (i_dn _ _ _ I) as (H1 & H2). split; [exact H1|]. intros q Hq. destruct (H2 q Hq) as (H3 & H4). split; [exact H3|].
            rewrite mget_new. destruct (N.eqb_spec (addr q) (addr s')); [discriminate|exact H4].
          * intros q v Lq. rewrite mget_new. destruct (N.eqb_spec (addr q) (addr s')) as [E|D]; intros Hq.
            -- right. right. left. congruence.
            -- destruct (i_where _ _ _ I q v Lq Hq) as [X|[X|X]]; [auto|auto|]. right. right. right. exact X.
          * intros q v a' Lq. rewrite mget_new, AR. destruct (N.eqb_spec (addr q) (addr s')) as [E|D]; intros Hq Ha'.
            -- injection Hq as <-. destruct (i_fresh _ _ _ I j' ltac:(unfold j'; lia)) as (FN & _). rewrite FN in Ha'. destruct Ha'.
            -- destruct (i_sound _ _ _ I q v a' Lq Hq Ha') as (c & H1 & H2 & H3). exists c. split; [exact H1|]. split; [|exact H3].
               rewrite mget_new. destruct (N.eqb_spec (addr (tgt c)) (addr s')) as [E2|_]; [|exact H2]. rewrite E2 in H2. congruence.
          * intros q v c Hd. rewrite mget_new, AR. destruct (N.eqb_spec (addr q) (addr s')) as [E|D]; intros Hq Hc.
            -- apply (i_dn _ _ _ I) in Hd. rewrite E in Hd. tauto.
            -- destruct (i_complete _ _ _ I q v c Hd Hq Hc) as (v' & H1 & H2). exists v'. split; [|exact H2].
               rewrite mget_new. destruct (N.eqb_spec (addr (tgt c)) (addr s')) as [E2|_]; [|exact H1]. rewrite E2 in H1. congruence.
          * intros q v Lq. rewrite mget_new, FI. destruct (N.eqb_spec (addr q) (addr s')) as [E|D]; intros Hq.
            -- injection Hq as <-. rewrite Nat.eqb_refl. apply HJ in E; [|exact Lq|exact LT]. subst q. reflexivity.
            -- destruct (NM q v Lq Hq) as (_ & NV). rewrite (proj2 (Nat.eqb_neq _ _) NV). exact (i_final _ _ _ I q v Lq Hq).
          * intros q Lq. rewrite AR, FI. destruct (Nat.eqb_spec q j') as [-> |D]; [unfold j' in Lq; lia|]. apply (i_fresh _ _ _ I). unfold j' in *. lia.
          * intros x. rewrite AL. apply (i_alpha _ _ _ I).
          * intros q c. rewrite AR. apply (i_syms _ _ _ I).
          * unfold g1. destruct (finw g s'); [apply structure_set_final, structure_add_state_n|]; exact (i_struct _ _ _ I).
        + exists j'. cbn [b_map]. rewrite mget_new, N.eqb_refl. reflexivity.
        + intros i v Hi. cbn [b_map]. rewrite mget_new. destruct (N.eqb_spec i (addr s')) as [E|_]; [|exact Hi]. destruct (NE i v Hi E).
        + intros q x. cbn [b_graph]. rewrite AR. auto. }
    destruct X as (b1 & E1 & I1 & (j' & HT) & K1 & K2). rewrite E1. cbn [rbind]. rewrite HT, S1, S2.
    unfold weight_of. rewrite HC, S4. fold (keep (wt a)). fold (ren a j').
    eexists. split; [reflexivity|]. pose proof (K1 _ _ HM) as HM1. cbn [b_map b_graph].
    assert (AR : forall q x, In x (arcs (add_transition (b_graph b1) j (ren a j') true) q) <-> In x (arcs (b_graph b1) q) \/ q = j /\ x = ren a j').
    { intros q x. rewrite arcs_add_transition. destruct (Nat.eqb_spec q j) as [-> |D]; [rewrite in_app_iff; cbn [In]; intuition congruence|intuition]. }
    split; [|split; [exact HM1|split; [exists j'; split; [exact HT|apply AR; right; auto]|split; [exact K1|intros q x Hx; apply AR; left; apply K2, Hx]]]].
    split; cbn [b_graph b_map b_last b_agenda]; try (apply I1).
    - intros q v a' Lq Hq Ha'. apply AR in Ha'. destruct Ha' as [Ha'|(-> & ->)]; [exact (i_sound _ _ _ I1 q v a' Lq Hq Ha')|].
      assert (q = s) by (apply HJ; [exact Lq|exact L|exact (i_inj _ _ _ I1 _ _ _ Hq HM1)]). subst q. exists a. auto.
    - intros q v c Hd Hq Hc. destruct (i_complete _ _ _ I1 q v c Hd Hq Hc) as (v' & H1 & H2). exists v'. split; [exact H1|]. apply AR. left. exact H2.
    - intros q Lq. pose proof (i_range _ _ _ I1 _ _ HM1) as (_ & LJ). rewrite arcs_add_transition. destruct (Nat.eqb_spec q j) as [-> |D]; [lia|].
      unfold finw. rewrite fin_add_transition. exact (i_fresh _ _ _ I1 q Lq).
    - intros x. rewrite In_alpha_add_transition, (i_alpha _ _ _ I1). split; [|auto]. intros [-> |[-> |H]]; [| |exact H]; apply HA0; eapply nth_error_In; [exact S1|exact S2].
    - intros q c Hc. apply AR in Hc. destruct Hc as [Hc|(_ & ->)]; [exact (i_syms _ _ _ I1 q c Hc)|].
      split; apply HA0; eapply nth_error_In; [exact S1|exact S2].
    - apply structure_add_transition, I1.
  Qed.

  Lemma arcs_step dn s j : forall l done b, s < n -> ~ In s dn -> inv b dn [s] -> mget N.compare (addr s) (b_map b) = Some j ->
    (forall p, In p l -> exists a e, In a (arcs g s) /\ get_transition t p = Ok e /\ stands_for dec (a_table al) addr a e) ->
    (forall a, In a done -> exists j', mget N.compare (addr (tgt a)) (b_map b) = Some j' /\ In (ren a j') (arcs (b_graph b) j)) ->
    exists b', fold_left (fun rb p => rbind rb (fun b => back_arc dec tr j b p)) l (Ok b) = Ok b' /\ inv b' dn [s]
      /\ mget N.compare (addr s) (b_map b') = Some j
      /\ (forall a, In a (arcs g s) -> (In a done \/ exists p e, In p l /\ get_transition t p = Ok e /\ stands_for dec (a_table al) addr a e) ->
           exists j', mget N.compare (addr (tgt a)) (b_map b') = Some j' /\ In (ren a j') (arcs (b_graph b') j)).
  Proof.
    induction l as [|p l IH]; intros done b L ND I HM H D.
    - exists b. cbn [fold_left]. split; [reflexivity|]. split; [exact I|]. split; [exact HM|]. intros a _ [Ha|(p & e & [] & _)]. exact (D a Ha).
    - destruct (H p (or_introl eq_refl)) as (a & e & Ha & Hp & Hs).
      destruct (arc_step b dn s j p a e I L ND HM Ha Hp Hs) as (b1 & E1 & I1 & HM1 & X1 & K1 & K2). cbn [fold_left rbind]. rewrite E1.
      destruct (IH (a :: done) b1 L ND I1 HM1) as (b2 & E2 & I2 & HM2 & Z).
      + intros q Hq. apply H. right. exact Hq.
      + intros c [<- |Hc]; [exact X1|]. destruct (D c Hc) as (v & H1 & H2). exists v. split; [apply K1, H1|apply K2, H2].
      + exists b2. split; [exact E2|]. split; [exact I2|]. split; [exact HM2|]. intros c Hc HX.
        destruct HX as [HX|(q & e2 & [<- |Hq] & H1 & H2)].
        * apply Z; [exact Hc|]. left. right. exact HX.
        * (* the same entry stands for an arc with the same target, labels and weight *)
          destruct (Z a Ha (or_introl (or_introl eq_refl))) as (v & V1 & V2).
          rewrite Hp in H1. injection H1 as <-. destruct Hs as (A1 & A2 & A3 & A4), H2 as (B1 & B2 & B3 & B4).
          assert (TG : addr (tgt c) = addr (tgt a)) by congruence. rewrite TG. exists v. split; [exact V1|].
          replace (ren c v) with (ren a v); [exact V2|]. unfold ren. f_equal; congruence.
        * apply Z; [exact Hc|]. right. exists q, e2. auto.
  Qed.

  Lemma loop_ok : forall fuel b dn, inv b dn [] -> n <= fuel + length dn ->
    (exists g' m last dn', back_loop dec tr fuel b = Ok g' /\ inv (Back g' m last []) dn' []) \/ back_loop dec tr fuel b = Ub /\ bad.
  Proof.
    induction fuel as [|fuel IH]; intros b dn I LN.
    - destruct b as [bg bm bl [|i r]].
      + left. exists bg, bm, bl, dn. split; [reflexivity|exact I].
      + exfalso. destruct (i_agenda _ _ _ I i (or_introl eq_refl)) as (s & L & _ & _ & ND & _). destruct (i_dn _ _ _ I) as (N1 & N2).
        assert (X : length (s :: dn) <= length (seq 0 n)).
        { apply NoDup_incl_length; [constructor; assumption|]. intros q [<- |Hq]; apply in_seq; [lia|]. apply N2 in Hq. lia. }
        rewrite seq_length in X. cbn [length] in X. lia.
    - destruct b as [bg bm bl [|i r]].
      + left. exists bg, bm, bl, dn. split; [reflexivity|exact I].
      + cbn [back_loop b_agenda b_map]. destruct (i_agenda _ _ _ I i (or_introl eq_refl)) as (s & L & -> & HM & ND & _). cbn [b_map] in HM.
        destruct (mget N.compare (addr s) bm) as [j|] eqn:EM; [|congruence]. fold h al t.
        destruct (HR s L) as [(l & EL & H1 & H2)|(EL & HB)]; [|right; rewrite EL; split; [reflexivity|exact HB]].
        rewrite EL. cbn [rbind b_graph b_last].
        assert (I0 : inv (Back bg bm bl r) dn [s]).
        { pose proof (i_nodup _ _ _ I) as NA. cbn [b_agenda] in NA. apply NoDup_cons_iff in NA. destruct NA as (NA1 & NA2).
          split; cbn [b_graph b_map b_last b_agenda]; try (apply I); try exact NA2.
          - intros i Hi. destruct (i_agenda _ _ _ I i (or_intror Hi)) as (q & Q1 & Q2 & Q3 & Q4 & _). exists q.
            split; [exact Q1|]. split; [exact Q2|]. split; [exact Q3|]. split; [exact Q4|]. intros [C|[]]. subst q i. exact (NA1 Hi).
          - intros q v Lq Hq. destruct (i_where _ _ _ I q v Lq Hq) as [X|[X|[X|X]]]; [auto|destruct X| |auto].
            right. left. left. apply HJ; assumption. }
        destruct (arcs_step dn s j l [] (Back bg bm bl r) L ND I0 EM H1) as (b2 & E2 & I2 & HM2 & Z).
        { intros a []. }
        rewrite E2. cbn [rbind]. apply (IH b2 (s :: dn)); [|cbn [length]; lia].
        split; try (apply I2).
        * intros i Hi. destruct (i_agenda _ _ _ I2 i Hi) as (q & Q1 & Q2 & Q3 & Q4 & Q5). exists q.
          split; [exact Q1|]. split; [exact Q2|]. split; [exact Q3|]. split; [|intros []]. intros [C|C]; [apply Q5; left; exact C|exact (Q4 C)].
        * destruct (i_dn _ _ _ I2) as (D1 & D2). split; [constructor; assumption|]. intros q [<- |Hq]; [split; [exact L|congruence]|apply D2, Hq].
        * intros q v Lq Hq. destruct (i_where _ _ _ I2 q v Lq Hq) as [X|[[X|[]]|X]]; [left; right; exact X|left; left; exact X|right; right; exact X].
        * intros q v a [<- |Hd] Hq Ha.
          -- rewrite HM2 in Hq. injection Hq as <-. destruct (H2 a Ha) as (p & e & P1 & P2 & P3). apply (Z a Ha). right. exists p, e. auto.
          -- exact (i_complete _ _ _ I2 q v a Hd Hq Ha).
  Qed.

  (** ** Runs *)
  Section Result.
    Variable g' : graph.
    Variable m : list (N * nat).
    Variable last : nat.
    Variable dn : list nat.
    Hypothesis I : inv (Back g' m last []) dn [].
    Let M (s j : nat) : Prop := s < n /\ mget N.compare (addr s) m = Some j.
    Local Lemma mapped_done s j : M s j -> In s dn.
    Proof. intros (L & H). destruct (i_where _ _ _ I s j L H) as [X|[[]|[]]]. exact X. Qed.

    (** Weights of the result: kept, or all zero. *)
    Fixpoint sums (ws : list Z) : Z := match ws with [] => 0%Z | w :: r => (w + sums r)%Z end.
    Inductive wrun (G : graph) : nat -> list (bstr * bstr) -> list Z -> nat -> Prop :=
    | wr_nil s : wrun G s [] [] s
    | wr_cons s a l ws q : In a (arcs G s) -> wrun G (tgt a) l ws q -> wrun G s ((isy a, osy a) :: l) (wt a :: ws) q.
    Lemma wrun_run G s l w q : run G s l w q <-> exists ws, wrun G s l ws q /\ w = sums ws.
    Proof.
      split.
      - induction 1 as [s|s a l w q Ha Hr (ws & IH & ->)]; [exists []; split; [constructor|reflexivity]|].
        exists (wt a :: ws). split; [constructor; assumption|reflexivity].
      - intros (ws & H & ->). induction H as [s|s a l ws q Ha Hr IH]; [constructor|]. cbn [sums]. constructor; assumption.
    Qed.
    Lemma run_forth s l ws q : wrun g s l ws q -> forall j, M s j -> exists k, M q k /\ wrun g' j l (map keep ws) k.
    Proof.
      induction 1 as [s|s a l ws q Ha Hr IH]; intros j Mj.
      - exists j. split; [exact Mj|constructor].
      - pose proof (mapped_done s j Mj) as D. destruct Mj as (L & Hj).
        destruct (i_complete _ _ _ I s j a D Hj Ha) as (v & V1 & V2). cbn [b_map b_graph] in V1, V2.
        destruct (IH v) as (k & K1 & K2); [split; [exact (tgt_n s a Ha)|exact V1]|].
        exists k. split; [exact K1|]. exact (wr_cons g' j (ren a v) l (map keep ws) k V2 K2).
    Qed.
    Lemma run_back j l ws' k : wrun g' j l ws' k -> forall s, M s j -> exists q ws, M q k /\ wrun g s l ws q /\ ws' = map keep ws.
    Proof.
      induction 1 as [j|j a' l ws' k Ha' Hr IH]; intros s Mj.
      - exists s, []. split; [exact Mj|]. split; [constructor|reflexivity].
      - destruct Mj as (L & Hj). destruct (i_sound _ _ _ I s j a' L Hj Ha') as (a & A1 & A2 & A3). cbn [b_map] in A2.
        destruct (IH (tgt a)) as (q & ws & Q1 & Q2 & ->); [split; [exact (tgt_n s a A1)|exact A2]|].
        exists q, (wt a :: ws). split; [exact Q1|]. rewrite A3. cbn [ren isy osy wt map]. split; [|reflexivity].
        constructor; assumption.
    Qed.
    Local Lemma start : M 0 0.
    Proof. split; [exact n_pos|]. rewrite HZ. exact (i_start _ _ _ I). Qed.
    Local Lemma sums_keep ws : sums (map keep ws) = keep (sums ws).
    Proof.
      induction ws as [|w ws IH]; cbn [map sums]; [symmetry; apply keep_zero|]. rewrite IH, keep_plus. reflexivity.
    Qed.
    Lemma language l w : accepts g' l w <-> exists v, accepts g l v /\ w = keep v.
    Proof.
      split.
      - intros (q' & v' & f' & R & Ff & ->). apply wrun_run in R. destruct R as (ws' & R & ->).
        destruct (run_back 0 l ws' q' R 0 start) as (q & ws & (Lq & Mq) & R2 & ->). pose proof (i_final _ _ _ I q q' Lq Mq) as FE.
        unfold finw in FE. cbn [b_graph] in FE. rewrite Ff in FE. destruct (mget Nat.compare q (fin g)) as [f|] eqn:E; [|discriminate]. injection FE as ->.
        exists (sums ws + f)%Z. split.
        + exists q, (sums ws), f. split; [apply wrun_run; exists ws; auto|]. auto.
        + rewrite sums_keep, keep_plus. reflexivity.
      - intros (v & (q & v0 & f & R & Ff & ->) & ->). apply wrun_run in R. destruct R as (ws & R & ->).
        destruct (run_forth 0 l ws q R 0 start) as (k & (Lq & Mk) & R2). pose proof (i_final _ _ _ I q k Lq Mk) as FE.
        unfold finw in FE. cbn [b_graph] in FE. rewrite Ff in FE. cbn [option_map] in FE.
        exists k, (sums (map keep ws)), (keep f). split; [apply wrun_run; exists (map keep ws); auto|]. split; [exact FE|].
        rewrite sums_keep, keep_plus. reflexivity.
    Qed.
  End Result.
End Loop.
