(** Free insertion, determinisation. *)
From Verif Require Import Base SF_Spec SF_Model SF_Proofs SF_Proofs2 SF_Proofs3 SF_Proofs4 SF_Proofs5 SF_Proofs6.
From Coq Require Import Sorted.

(** freely_insert *)
Section Insert.
  Variables (h : list node) (l : label).
  Hypothesis G : graph_ok h.
  Hypothesis Hl : l <> (0, 0).
  Let sc (n : nat) := if n <? length h then out (with_arc l n (node_at h n)) else [].
  Lemma insert_result : exists vis h',
    visit Nat.eqb out_now (insert_enter l) nothing nothing3 nothing2 (S (length h)) 0 ([], h) = Ok (vis, h') /\
    length h' = length h /\
    (forall n, reachable h 0 n -> node_at h' n = with_arc l n (node_at h n)) /\
    (forall n, node_at h' n = with_arc l n (node_at h n) /\ n < length h \/ node_at h' n = node_at h n).
  Proof using G.
    set (P := fun (vis : list nat) (s : list node) => length s = length h /\
       (forall n, ~ In n vis -> node_at s n = node_at h n) /\
       (forall n, In n vis -> n < length h -> node_at s n = with_arc l n (node_at h n))).
    destruct (visit_total Nat.eqb Nat.eqb_eq out_now (insert_enter l) nothing nothing3 nothing2 sc P) with
      (U := seq 0 (length h)) (fuel := S (length h)) (k := 0) (vis := @nil nat) (s := h) as (evs & E & (P1 & P2 & P3) & L).
    - intros k vis s (P1 & P2 & P3) Hk. unfold out_now, insert_enter, sc.
      destruct (Nat.ltb_spec k (length h)) as [Lk|Lk].
      + assert (Lk' : k < length s) by (rewrite P1; exact Lk).
        split; [rewrite node_at_add_arc, Nat.eqb_refl, P2 by assumption; reflexivity|].
        split; [rewrite add_arc_length; exact P1|]. split.
        * intros n Hn. rewrite node_at_add_arc by exact Lk'. destruct (Nat.eqb_spec n k) as [->|]; [exfalso; apply Hn; left; reflexivity|].
          apply P2. intros C. apply Hn. right. exact C.
        * intros n Hn Ln. rewrite node_at_add_arc by exact Lk'. destruct (Nat.eqb_spec n k) as [->|]; [rewrite P2 by exact Hk; reflexivity|].
          apply P3; [|exact Ln]. destruct Hn as [<-|Hn]; [congruence|exact Hn].
      + assert (U : forall n f (s : list node), length s <= n -> update n f s = s).
        { intros n f s'. revert n. induction s' as [|d s' IH]; intros n Hn; [destruct n; reflexivity|].
          destruct n as [|n]; [simpl in Hn; lia|]. cbn. rewrite IH; [reflexivity|]. simpl in Hn. lia. }
        unfold add_arc. rewrite U by lia. split; [rewrite node_at_over by lia; reflexivity|].
        split; [exact P1|]. split; [intros n Hn; apply P2; intros C; apply Hn; right; exact C|].
        intros n [<-|Hn] Ln; [lia|apply P3; assumption].
    - intros; assumption.
    - intros; assumption.
    - intros; assumption.
    - intros k [l' t]. rewrite !in_seq. cbn [snd]. intros Hk Ha. unfold sc in Ha.
      destruct (Nat.ltb_spec k (length h)) as [Lk|Lk]; [|destruct Ha].
      apply out_with_arc in Ha. destruct Ha as [Ha|Ha]; [injection Ha as _ ->; lia|].
      pose proof (proj1 (proj2 G k Lk) _ _ Ha). lia.
    - split; [reflexivity|]. split; [reflexivity|]. intros n [].
    - apply in_seq. pose proof (graph_root h G). lia.
    - pose proof (cnt_le_U Nat.eqb (seq 0 (length h)) []) as H. rewrite seq_length in H. lia.
    - eexists _, _. split; [exact E|]. split; [exact P1|].
      assert (D : forall n, In n (grow [] evs) \/ ~ In n (grow [] evs)).
      { intros n. destruct (in_dec Nat.eq_dec n (grow [] evs)); auto. }
      split.
      + intros n Hn. assert (Ln : n < length h) by (apply (reachable_lt h 0); [exact G|apply graph_root, G|exact Hn]).
        apply P3; [|exact Ln]. apply grow_In. right. apply (log_reach Nat.eqb Nat.eqb_eq sc 0 evs L).
        assert (L0 : 0 < length h) by apply graph_root, G. clear -Hn G L0. revert L0.
        induction Hn as [n|n l' m k Hi R IH]; intros L0; [constructor|].
        apply kr_step with (l', m).
        * unfold sc. destruct (Nat.ltb_spec n (length h)); [|lia]. apply out_with_arc. auto.
        * apply IH. exact (proj1 (proj2 G n L0) _ _ Hi).
      + intros n. destruct (D n) as [H|H]; [|right; apply P2, H].
        destruct (Nat.lt_ge_cases n (length h)) as [Ln|Ln]; [left; split; [apply P3; assumption|exact Ln]|].
        right. rewrite !node_at_over by lia. reflexivity.
  Qed.
End Insert.
Lemma inserted_reads h h' l x w : l <> (0, 0) ->
  (forall n, reachable h 0 n -> node_at h' n = with_arc l n (node_at h n)) -> reachable h 0 x ->
  (reads h' x w <-> exists u, reads h x u /\ with_inserted l u w).
Proof.
  intros Hl HC Hx.
  assert (Next : forall n k t, reachable h 0 n -> In (k, t) (out (node_at h n)) -> reachable h 0 t).
  { intros n k t Hn Hi. eapply reachable_trans; [exact Hn|]. econstructor; [exact Hi|constructor]. }
  assert (El : forall w, emit l w = l :: w).
  { intros w0. rewrite emit_eq. destruct (is_epsilon l) eqn:E; [apply is_epsilon_eq in E; contradiction|reflexivity]. }
  split.
  - intros R. revert Hx. induction R as [n F|n k t w Hi R IH]; intros Hx; rewrite HC in * by exact Hx.
    + exists []. split; [constructor; rewrite final_with_arc in F; exact F|constructor].
    + apply out_with_arc in Hi. destruct Hi as [Hi|Hi].
      * injection Hi as -> ->. destruct (IH Hx) as (u & Hu & Hw). exists u. split; [exact Hu|]. rewrite El. constructor. exact Hw.
      * destruct (IH (Next _ _ _ Hx Hi)) as (u & Hu & Hw). exists (emit k u). split; [econstructor; eauto|].
        rewrite !emit_eq. destruct (is_epsilon k); [exact Hw|constructor; exact Hw].
  - intros (u & Hu & Hw). revert w Hw Hx.
    assert (Loop : forall n w, reachable h 0 n -> reads h' n w -> reads h' n (l :: w)).
    { intros n w0 Hn R. rewrite <- El. apply reads_step with n; [|exact R]. rewrite HC by exact Hn. apply out_with_arc. auto. }
    induction Hu as [n F|n k t u Hi Hu IH]; intros w Hw Hx.
    + remember [] as u0 eqn:Eu. induction Hw as [|y v w Hw IHw|v w Hw IHw]; [|discriminate|].
      * constructor. rewrite HC, final_with_arc by exact Hx. exact F.
      * apply Loop; [exact Hx|apply IHw, Eu].
    + assert (Step : forall w, with_inserted l u w -> reads h' n (emit k w)).
      { intros w0 Hw0. apply reads_step with t; [rewrite HC by exact Hx; apply out_with_arc; auto|].
        apply IH; [exact Hw0|exact (Next _ _ _ Hx Hi)]. }
      rewrite emit_eq in Hw. destruct (is_epsilon k) eqn:Ek.
      * apply Step in Hw. rewrite emit_eq, Ek in Hw. exact Hw.
      * remember (k :: u) as u0 eqn:Eu. induction Hw as [|y v w Hw IHw|v w Hw IHw]; [discriminate| |].
        -- injection Eu as -> ->. apply Step in Hw. rewrite emit_eq, Ek in Hw. exact Hw.
        -- apply Loop; [exact Hx|apply IHw, Eu].
Qed.
Lemma with_inserted_not l u w : with_inserted l u w -> ~ In l w -> w = u.
Proof.
  induction 1 as [|y v w Hw IH|v w Hw IH]; intros N; [reflexivity| |].
  - rewrite IH; [reflexivity|]. intros C. apply N. right. exact C.
  - exfalso. apply N. left. reflexivity.
Qed.
Lemma with_inserted_same l u : with_inserted l u u.
Proof. induction u; constructor; assumption. Qed.
Lemma reads_labels h n w : reads h n w -> forall l, In l w -> exists x t, reachable h n x /\ In (l, t) (out (node_at h x)).
Proof.
  induction 1 as [n F|n k t w Hi R IH]; intros l; [intros []|].
  rewrite emit_eq. destruct (is_epsilon k).
  - intros H. destruct (IH l H) as (x & t' & Hx & Ht'). exists x, t'. split; [econstructor; eauto|exact Ht'].
  - intros [<-|H]; [exists n, t; split; [constructor|exact Hi]|].
    destruct (IH l H) as (x & t' & Hx & Ht'). exists x, t'. split; [econstructor; eauto|exact Ht'].
Qed.

Lemma freely_insert_correct l t : trans_ok t -> l <> (0, 0) -> exists r, freely_insert l t = Ok r /\ graph_ok (nodes r) /\
  (forall w, lang r w <-> exists u, lang t u /\ with_inserted l u w) /\
  (forall k, In k (labels r) <-> In k (labels t)) /\
  det r = det t /\ mini r = mini t /\
  ((forall n k, reachable (nodes t) 0 n -> ~ In (l, k) (out (node_at (nodes t) n))) -> mini t = false \/ (exists w, lang t w) -> trans_ok r).
Proof.
  intros T Hl. unfold freely_insert.
  assert (Old : exists c, copy false t = Ok c /\ trans_ok c /\ (forall w, lang c w <-> lang t w) /\ det c = det t /\ mini c = mini t /\
     (forall k, In k (labels c) <-> In k (labels t)) /\
     ((forall n k, reachable (nodes t) 0 n -> ~ In (l, k) (out (node_at (nodes t) n))) ->
      (forall n k, reachable (nodes c) 0 n -> ~ In (l, k) (out (node_at (nodes c) n))))).
  { destruct (copy_correct false t T) as (c & E1 & Tc & Lc & Dc & Mc & Ac). exists c. split; [exact E1|]. split; [exact Tc|].
    cbn [recode_label] in Lc, Ac. split; [intros w; rewrite Lc, map_id; reflexivity|]. split; [exact Dc|]. split; [exact Mc|]. split; [exact Ac|].
    intros N n k Hn Hi. unfold copy in E1.
    destruct (copy_root_built (nodes t) false (proj1 T)) as (v & g & m & E & HB & H0 & Hv).
    destruct (visit _ _ _ _ _ _ _ _ _) as [[vis s]| | |]; try discriminate E. cbn [rbind snd] in E, E1. subst s.
    cbn [rmap] in E1. injection E1 as <-. cbn [nodes] in *.
    destruct (built_reach _ _ _ _ _ _ _ _ HB 0 0 n H0 Hn) as (x & Hx & Rx). apply kreach_map in Rx.
    apply (b_out _ _ _ _ _ _ _ _ HB _ _ _ _ Hx) in Hi. destruct Hi as (y & Hy & _).
    apply in_map_iff in Hy. destruct Hy as ([l' y'] & Ey & Hy). injection Ey as -> ->. cbn [recode_label] in Hy. exact (N x y Rx Hy). }
  destruct Old as (c & E1 & (Gc & Dc' & Mc' & Hlc) & Lc & Dc & Mc & Ac & Nc). rewrite E1. cbn [rbind].
  destruct (insert_result (nodes c) l Gc) as (vis & h' & E & L' & C1 & C2). rewrite E. cbn [rmap]. eexists. split; [reflexivity|].
  cbn [nodes labels det mini].
  assert (RL : forall x w, reachable (nodes c) 0 x -> reads h' x w <-> exists u, reads (nodes c) x u /\ with_inserted l u w).
  { intros x w Hx. apply inserted_reads; assumption. }
  assert (Gh : graph_ok h').
  { split; [intros ->; cbn in L'; pose proof (graph_root _ Gc); lia|]. rewrite L'. intros n Hn. destruct (proj2 Gc n Hn) as [G1 G2].
    destruct (C2 n) as [[C _]|C]; rewrite C; [|split; assumption]. split.
    - intros l' t'. rewrite out_with_arc. intros [H|H]; [injection H as -> ->; exact Hn|exact (G1 _ _ H)].
    - intros t'. unfold with_arc. destruct (is_epsilon l) eqn:El; [apply is_epsilon_eq in El; contradiction|]. cbn [arcs].
      intros [H|H]; [injection H as H _; subst; contradiction|exact (G2 _ H)]. }
  split; [exact Gh|]. split; [|split; [exact Ac|split; [exact Dc|split; [exact Mc|]]]].
  - intros w. unfold lang at 1. cbn [nodes]. rewrite RL by constructor. split; intros (u & Hu & Hw); exists u; (split; [|exact Hw]); apply Lc, Hu.
  - intros N NE. specialize (Nc N).
    assert (RR : forall n, reachable h' 0 n -> reachable (nodes c) 0 n).
    { assert (Gen : forall a b, reachable h' a b -> reachable (nodes c) 0 a -> reachable (nodes c) 0 b).
      { induction 1 as [n|n k m k' Hi R IH]; intros Ha; [exact Ha|]. apply IH. rewrite C1 in Hi by exact Ha.
        apply out_with_arc in Hi. destruct Hi as [Hi|Hi]; [injection Hi as _ ->; exact Ha|].
        eapply reachable_trans; [exact Ha|]. econstructor; [exact Hi|constructor]. }
      intros n Hn. apply (Gen 0); [exact Hn|constructor]. }
    assert (DD : deterministic (nodes c) -> deterministic h').
    { intros D n Hn. apply RR in Hn. destruct (D n Hn) as [D1 D2]. rewrite C1 by exact Hn. unfold with_arc.
      destruct (is_epsilon l) eqn:El; [apply is_epsilon_eq in El; contradiction|]. cbn [eps arcs map fst]. split; [exact D1|].
      constructor; [|exact D2]. intros C. apply in_map_iff in C. destruct C as ([l' k] & Ek & Hk). cbn [fst] in Ek. subst l'.
      apply (Nc n k Hn). unfold out. apply in_app_iff. right. exact Hk. }
    split; [exact Gh|]. split; [intros H; apply DD, Dc', H|]. split; [|exact Hlc].
    intros H. destruct (Mc' H) as (M1 & M2 & M3). split; [apply DD, M1|]. cbn [nodes].
    assert (NL : forall x w, reachable (nodes c) 0 x -> reads (nodes c) x w -> ~ In l w).
    { intros x w Hx R C. destruct (reads_labels _ _ _ R _ C) as (y & k & Hy & Hk).
      exact (Nc y k (reachable_trans _ _ _ _ Hx Hy) Hk). }
    assert (Back : forall x w, reachable (nodes c) 0 x -> reads (nodes c) x w <-> reads h' x w /\ ~ In l w).
    { intros x w Hx. rewrite RL by exact Hx. split.
      - intros R. split; [exists w; split; [exact R|apply with_inserted_same]|exact (NL _ _ Hx R)].
      - intros [(u & Hu & Hw) Nw]. rewrite (with_inserted_not _ _ _ Hw Nw). exact Hu. }
    split.
    + intros n m Hn Hm Heq. apply M2; [apply RR, Hn|apply RR, Hm|]. intros w. rewrite (Back n w (RR _ Hn)), (Back m w (RR _ Hm)), Heq. reflexivity.
    + cbn [mini] in H. rewrite Mc in H. destruct NE as [NE|[w0 NE]]; [congruence|].
      assert (Some_read : forall a b, reachable (nodes c) a b -> reachable (nodes c) 0 a -> (exists w, reads (nodes c) a w) -> exists w, reads (nodes c) b w).
      { induction 1 as [a|a k m b Hi R IH]; intros Ra Na; [exact Na|].
        apply IH; [eapply reachable_trans; [exact Ra|]; econstructor; [exact Hi|constructor]|exact (M3 a k m Ra Hi)]. }
      intros n k m Hn Hi. assert (Hm : reachable h' 0 m) by (eapply reachable_trans; [exact Hn|]; econstructor; [exact Hi|constructor]).
      destruct (Some_read 0 m (RR _ Hm)) as [w Hw]; [constructor|exists w0; apply Lc, NE|]. exists w. apply (Back m w (RR _ Hm)), Hw.
Qed.

(** determinise *)
Lemma log_closed_from {K} (keqb : K -> K -> bool) (Hk : forall a b, keqb a b = true <-> a = b) sc k vis evs :
  visit_log keqb sc k vis evs -> forall x a, entered x evs -> In a (sc x) -> In (snd a) (grow vis evs).
Proof.
  intros L x a Hx Ha. destruct L as [A1 A2 A3 A4 A5 A6].
  destruct (A2 x Hx) as (_ & Q & _). rewrite <- Q in Ha.
  unfold afters in Ha. apply in_flat_map in Ha. destruct Ha as (e & He & Ha).
  destruct e as [| |k' a'|]; try (destruct Ha; fail). destruct (keqb x k') eqn:E; [|destruct Ha].
  destruct Ha as [->|[]]. apply Hk in E. subst k'.
  apply in_split in He. destruct He as (e1 & e2 & ->).
  apply legal_app in A1. destruct A1 as [_ [L1 _]]. cbn [legal1] in L1. destruct L1 as (_ & _ & L1).
  rewrite grow_In in L1 |- *. rewrite entered_app. tauto.
Qed.
(** Epsilon-closed sets. *)
Definition eclosed (h : list node) (s : list nat) : Prop := forall n t, In n s -> In t (eps (node_at h n)) -> In t s.
Inductive ereach (h : list node) : nat -> nat -> Prop :=
| er_here n : ereach h n n
| er_step n m k : In m (eps (node_at h n)) -> ereach h m k -> ereach h n k.
Lemma ereach_reads h n m w : ereach h n m -> reads h m w -> reads h n w.
Proof.
  induction 1 as [|n m k Hi R IH]; [tauto|]. intros H. change w with (emit (0, 0) w). apply reads_step with m; [|apply IH, H].
  unfold out. apply in_app_iff. left. apply in_map_iff. eauto.
Qed.
Lemma ereach_lt h n m : graph_ok h -> n < length h -> ereach h n m -> m < length h.
Proof.
  intros G Hn R. revert Hn. induction R as [|n m k Hi R IH]; intros Hn; [exact Hn|]. apply IH.
  apply (proj1 (proj2 G n Hn) (0, 0)). unfold out. apply in_app_iff. left. apply in_map_iff. eauto.
Qed.
Lemma add_closure_result h n ns : graph_ok h -> n < length h -> exists s, add_closure h n ns = Ok s /\ In n s /\ incl ns s /\
  (forall x, In x s -> In x ns \/ ereach h n x) /\ (eclosed h ns -> eclosed h s).
Proof.
  intros G Hn. unfold add_closure.
  set (sc := fun n => map (fun t => ((0, 0) : label, t)) (eps (node_at h n))).
  destruct (visit_total Nat.eqb Nat.eqb_eq (fun (_ : unit) n => map (fun t => ((0, 0) : label, t)) (eps (node_at h n)))
              nothing nothing nothing3 nothing2 sc (fun _ _ => True)) with
      (U := seq 0 (length h)) (fuel := S (length h)) (k := n) (vis := ns) (s := tt) as (evs & E & _ & L); auto.
  - intros k a Hk Ha. apply in_map_iff in Ha. destruct Ha as (t & <- & Ht). cbn [snd]. apply in_seq in Hk. apply in_seq.
    assert (Lk : k < length h) by lia. pose proof (proj1 (proj2 G k Lk) (0, 0) t) as H.
    assert (t < length h); [|lia]. apply H. unfold out. apply in_app_iff. left. apply in_map_iff. eauto.
  - apply in_seq. lia.
  - pose proof (cnt_le_U Nat.eqb (seq 0 (length h)) ns) as H. rewrite seq_length in H. lia.
  - eexists. split; [exact (f_equal (rmap fst) E)|]. cbn [fst]. split; [exact (vl_in _ _ _ _ _ L)|].
    split; [intros x Hx; apply grow_In; auto|]. split.
    + intros x Hx. apply grow_In in Hx. destruct Hx as [Hx|Hx]; [auto|right].
      apply (vl_reach _ _ _ _ _ L) in Hx. clear -Hx. induction Hx as [k|k a x Ha R IH]; [constructor|].
      apply in_map_iff in Ha. destruct Ha as (t & <- & Ht). econstructor; [exact Ht|exact IH].
    + intros C x t Hx Ht. apply grow_In in Hx. destruct Hx as [Hx|Hx]; [apply grow_In; left; exact (C _ _ Hx Ht)|].
      apply (log_closed_from Nat.eqb Nat.eqb_eq sc n ns evs L x ((0, 0), t) Hx). apply in_map_iff. eauto.
Qed.

(** The map from labels to sets of nodes. *)
Lemma upper_cmp_eq a b : upper_cmp a b = Eq <-> a = b.
Proof.
  destruct a as [a1 a2], b as [b1 b2]. unfold upper_cmp. cbn [fst snd]. destruct (a2 ?= b2) eqn:E.
  - apply Nat.compare_eq in E. subst. rewrite Nat.compare_eq_iff. split; congruence.
  - split; [discriminate|]. intros H. injection H as -> ->. rewrite Nat.compare_refl in E. discriminate.
  - split; [discriminate|]. intros H. injection H as -> ->. rewrite Nat.compare_refl in E. discriminate.
Qed.
Definition llt (a b : label) : Prop := snd a < snd b \/ snd a = snd b /\ fst a < fst b.
Lemma upper_cmp_lt a b : upper_cmp a b = Lt <-> llt a b.
Proof.
  unfold upper_cmp, llt. destruct (Nat.compare_spec (snd a) (snd b)) as [H|H|H].
  - rewrite Nat.compare_lt_iff. lia.
  - split; [lia|reflexivity].
  - split; [discriminate|lia].
Qed.
Lemma upper_cmp_gt a b : upper_cmp a b = Gt <-> llt b a.
Proof.
  unfold upper_cmp, llt. destruct (Nat.compare_spec (snd a) (snd b)) as [H|H|H].
  - rewrite Nat.compare_gt_iff. lia.
  - split; [discriminate|lia].
  - split; [lia|reflexivity].
Qed.
Lemma llt_trans a b c : llt a b -> llt b c -> llt a c.
Proof. unfold llt. lia. Qed.
Definition lsorted {V} (m : list (label * V)) : Prop := StronglySorted (fun a b => llt (fst a) (fst b)) m.
Lemma mset_sorted {V} k (v : V) m : lsorted m -> lsorted (mset upper_cmp k v m).
Proof.
  induction m as [|[k' v'] r IH]; intros H; cbn [mset]; [repeat constructor|].
  inversion H as [|? ? H1 H2]; subst. destruct (upper_cmp k k') eqn:E.
  - apply upper_cmp_eq in E. subst k'. constructor; assumption.
  - apply upper_cmp_lt in E. constructor; [exact H|]. constructor; [exact E|].
    apply Forall_forall. intros x Hx. cbn [fst]. rewrite Forall_forall in H2. specialize (H2 x Hx). cbn [fst] in H2.
    exact (llt_trans _ _ _ E H2).
  - apply upper_cmp_gt in E. constructor; [apply IH; exact H1|]. apply Forall_forall. intros x Hx.
    apply In_mset in Hx. destruct Hx as [->|Hx]; [exact E|]. rewrite Forall_forall in H2. exact (H2 x Hx).
Qed.
Lemma lsorted_NoDup {V} (m : list (label * V)) : lsorted m -> NoDup (map fst m).
Proof.
  induction 1 as [|a m H IH F]; [constructor|]. constructor; [|exact IH]. intros C. apply in_map_iff in C.
  destruct C as (b & Eb & Hb). rewrite Forall_forall in F. specialize (F b Hb). rewrite Eb in F. unfold llt in F. lia.
Qed.
Lemma In_mget {V} k (v : V) m : lsorted m -> In (k, v) m -> mget upper_cmp k m = Some v.
Proof.
  induction 1 as [|[k' v'] m H IH F]; [intros []|]. cbn [mget]. intros [E|Hi].
  - injection E as -> ->. rewrite (proj2 (upper_cmp_eq k k) eq_refl). reflexivity.
  - rewrite Forall_forall in F. specialize (F _ Hi). cbn [fst] in F.
    rewrite (proj2 (upper_cmp_gt k k')); [exact (IH Hi)|exact F].
Qed.
Section Det.
  Variable h : list node.
  Hypothesis G : graph_ok h.
  Record collected (done : list (label * nat)) (m : list (label * list nat)) : Prop := {
    cl_sorted : lsorted m;
    cl_has : forall l t, In (l, t) done -> exists s, In (l, s) m /\ In t s;
    cl_src : forall l s, In (l, s) m -> eclosed h s /\ (exists t, In (l, t) done /\ In t s) /\ forall x, In x s -> exists t, In (l, t) done /\ ereach h t x }.
  Lemma collect_all l : (forall a, In a l -> snd a < length h) -> exists m,
    fold_left (fun m a => collect h a m) l (Ok []) = Ok m /\ collected l m.
  Proof using G.
    induction l as [|a l IH] using rev_ind; intros Hl.
    - exists []. split; [reflexivity|]. constructor; [constructor|intros ? ? []|intros ? ? []].
    - destruct IH as (m & E & C); [intros b Hb; apply Hl, in_app_iff; auto|].
      rewrite fold_left_app, E. cbn [fold_left]. unfold collect. cbn [rbind].
      set (old := match mget upper_cmp (fst a) m with Some ns => ns | None => [] end).
      destruct (add_closure_result h (snd a) old G) as (s & Es & S1 & S2 & S3 & S4).
      { apply Hl, in_app_iff. right. left. reflexivity. }
      rewrite Es. cbn [rmap]. eexists. split; [reflexivity|]. destruct C as [C1 C2 C3].
      assert (Old : eclosed h old /\ (forall x, In x old -> exists t, In (fst a, t) l /\ ereach h t x)).
      { unfold old. destruct (mget upper_cmp (fst a) m) as [ns|] eqn:Em; [|split; [intros ? ? []|intros ? []]].
        apply mget_In in Em; [|apply upper_cmp_eq]. destruct (C3 _ _ Em) as (D1 & _ & D2). auto. }
      destruct Old as [O1 O2].
      assert (K : In (fst a, s) (mset upper_cmp (fst a) s m)).
      { apply (mget_In upper_cmp upper_cmp_eq). apply mget_mset_same, upper_cmp_eq. }
      constructor.
      + apply mset_sorted, C1.
      + intros l' t Hi. apply in_app_iff in Hi. destruct Hi as [Hi|[Hi|[]]].
        * destruct (C2 l' t Hi) as (s' & H1 & H2).
          destruct (label_eqb l' (fst a)) eqn:El.
          -- apply label_eqb_eq in El. subst l'. exists s. split; [exact K|]. apply S2. unfold old. rewrite (In_mget _ _ _ C1 H1). exact H2.
          -- exists s'. split; [|exact H2]. apply (mget_In upper_cmp upper_cmp_eq). rewrite mget_mset_other.
             ++ apply In_mget; assumption.
             ++ apply upper_cmp_eq.
             ++ intros ->. rewrite (proj2 (label_eqb_eq (fst a) (fst a)) eq_refl) in El. discriminate.
        * subst a. exists s. split; [exact K|exact S1].
      + intros l' s' Hi. apply In_mset in Hi. destruct Hi as [Hi|Hi].
        * injection Hi as -> ->. split; [exact (S4 O1)|]. split; [exists (snd a); split; [apply in_app_iff; right; left; destruct a; reflexivity|exact S1]|].
          intros x Hx. destruct (S3 x Hx) as [Ho|Hr].
          -- destruct (O2 x Ho) as (t & T1 & T2). exists t. split; [apply in_app_iff; auto|exact T2].
          -- exists (snd a). split; [apply in_app_iff; right; left; destruct a; reflexivity|exact Hr].
        * destruct (C3 _ _ Hi) as (D1 & (t & D2 & D2') & D3). split; [exact D1|]. split; [exists t; split; [apply in_app_iff; auto|exact D2']|].
          intros x Hx. destruct (D3 x Hx) as (t' & T1 & T2). exists t'. split; [apply in_app_iff; auto|exact T2].
  Qed.
  (** The nodes of a set that matter. *)
  Definition in_range (s : list nat) : Prop := forall n, In n s -> n < length h.
  Lemma node_array_In s n : in_range s -> In n (fst (node_array h s)) <-> In n s /\ arcs (node_at h n) <> [].
  Proof.
    intros R. cbn [node_array fst]. rewrite filter_In, in_seq, Bool.andb_true_iff, Bool.negb_true_iff.
    assert (E : existsb (Nat.eqb n) s = true <-> In n s).
    { rewrite existsb_exists. split; [intros (x & Hx & Ex); apply Nat.eqb_eq in Ex; subst; exact Hx|intros H; exists n; split; [exact H|apply Nat.eqb_refl]]. }
    rewrite E. destruct (arcs (node_at h n)) eqn:Ea; split.
    - intros (_ & _ & C). discriminate.
    - intros [_ C]. contradiction.
    - intros (_ & H & _). split; [exact H|discriminate].
    - intros [H _]. specialize (R n H). split; [lia|auto].
  Qed.
  Lemma compute_result (k : subset) : (forall n, In n (fst k) -> n < length h) -> exists l, compute_transitions h k = Ok l /\
    NoDup (map fst l) /\
    (forall lb k', In (lb, k') l -> lb <> (0, 0) /\ exists s, k' = node_array h s /\ in_range s /\ eclosed h s /\
       (exists n t, In n (fst k) /\ In (lb, t) (arcs (node_at h n)) /\ In t s) /\
       forall x, In x s -> exists n t, In n (fst k) /\ In (lb, t) (arcs (node_at h n)) /\ ereach h t x) /\
    (forall n lb t, In n (fst k) -> In (lb, t) (arcs (node_at h n)) -> exists s, In (lb, node_array h s) l /\ in_range s /\ eclosed h s /\ In t s).
  Proof using G.
    intros Hk. unfold compute_transitions.
    assert (Arc : forall n lb t, n < length h -> In (lb, t) (arcs (node_at h n)) -> t < length h /\ lb <> (0, 0)).
    { intros n lb t Hn Hi. destruct (proj2 G n Hn) as [G1 G2]. split; [apply (G1 lb), in_app_iff; right; exact Hi|].
      intros ->. exact (G2 _ Hi). }
    destruct (collect_all (flat_map (fun n => arcs (node_at h n)) (fst k))) as (m & E & [C1 C2 C3]).
    { intros [lb t] Ha. apply in_flat_map in Ha. destruct Ha as (n & Hn & Ha). exact (proj1 (Arc n lb t (Hk n Hn) Ha)). }
    rewrite E. cbn [rmap]. eexists. split; [reflexivity|].
    assert (Rg : forall lb s, In (lb, s) m -> in_range s).
    { intros lb s Hi x Hx. destruct (C3 _ _ Hi) as (_ & _ & D). destruct (D x Hx) as (t & Ht & Hr).
      apply in_flat_map in Ht. destruct Ht as (n & Hn & Ht). apply (ereach_lt h t); [exact G| |exact Hr].
      exact (proj1 (Arc n lb t (Hk n Hn) Ht)). }
    split; [|split].
    - rewrite map_map. cbn [fst]. change (NoDup (map (fst (A := label) (B := list nat)) m)). apply lsorted_NoDup, C1.
    - intros lb k' Hi. apply in_map_iff in Hi. destruct Hi as ([lb' s] & Ei & Hi). cbn [fst snd] in Ei. injection Ei as <- <-.
      destruct (C3 _ _ Hi) as (D1 & (t & D2 & D2') & D3). apply in_flat_map in D2. destruct D2 as (n0 & Hn0 & Ht0). split.
      + exact (proj2 (Arc n0 lb' t (Hk n0 Hn0) Ht0)).
      + exists s. split; [reflexivity|]. split; [exact (Rg _ _ Hi)|]. split; [exact D1|]. split; [exists n0, t; auto|]. intros x Hx.
        destruct (D3 x Hx) as (t' & Ht' & Hr). apply in_flat_map in Ht'. destruct Ht' as (n & Hn & Ht'). exists n, t'. auto.
    - intros n lb t Hn Hi. destruct (C2 lb t) as (s & H1 & H2); [apply in_flat_map; exists n; auto|].
      exists s. split; [apply in_map_iff; exists (lb, s); auto|]. split; [exact (Rg _ _ H1)|]. split; [apply (C3 _ _ H1)|exact H2].
  Qed.

  Lemma subset_eqb_eq a b : subset_eqb a b = true <-> a = b.
  Proof.
    destruct a as [a1 a2], b as [b1 b2]. unfold subset_eqb. cbn [fst snd]. rewrite Bool.andb_true_iff, Bool.eqb_true_iff.
    destruct (list_eq_dec Nat.eq_dec a1 b1) as [->|N]; split; intuition congruence.
  Qed.
  (** All the sets there can be. *)
  Fixpoint sublists (l : list nat) : list (list nat) :=
    match l with [] => [[]] | x :: r => sublists r ++ map (cons x) (sublists r) end.
  Lemma sublists_length l : length (sublists l) = 2 ^ length l.
  Proof. induction l as [|x r IH]; [reflexivity|]. cbn [sublists length]. rewrite app_length, map_length, IH. cbn [Nat.pow]. lia. Qed.
  Lemma filter_sublists p l : In (filter p l) (sublists l).
  Proof.
    induction l as [|x r IH]; [left; reflexivity|]. cbn [filter sublists]. apply in_app_iff.
    destruct (p x); [right; apply in_map, IH|left; exact IH].
  Qed.
  Lemma sublists_incl l : forall s, In s (sublists l) -> incl s l.
  Proof.
    induction l as [|x r IH]; intros s; cbn [sublists]; [intros [<-|[]] ? []|].
    rewrite in_app_iff, in_map_iff. intros [H|(s' & <- & H)] y Hy; [right; exact (IH s H y Hy)|].
    destruct Hy as [<-|Hy]; [left; reflexivity|right; exact (IH s' H y Hy)].
  Qed.
  Definition subsets : list subset := list_prod (sublists (seq 0 (length h))) [true; false].
  Lemma node_array_subset s : In (node_array h s) subsets.
  Proof. apply in_prod; [apply filter_sublists|]. destruct (existsb _ s); simpl; auto. Qed.
  Lemma subsets_range k : In k subsets -> forall n, In n (fst k) -> n < length h.
  Proof.
    destruct k as [s b]. intros H n Hn. apply in_prod_iff in H. destruct H as [H _]. cbn [fst] in Hn.
    pose proof (sublists_incl _ _ H n Hn) as C. apply in_seq in C. lia.
  Qed.
  Let st := steps (compute_transitions h).
  Lemma subset_reads s w : in_range s -> eclosed h s ->
    (kreads st snd (node_array h s) w <-> exists n, In n s /\ reads h n w).
  Proof using G.
    intros Rs Cs. split.
    - intros H. remember (node_array h s) as k eqn:Ek. revert s Rs Cs Ek. induction H as [k F|k a w Ha H IH]; intros s Rs Cs ->.
      + cbn [node_array snd] in F. apply existsb_exists in F. destruct F as (n & Hn & Fn). exists n. split; [exact Hn|constructor; exact Fn].
      + destruct (compute_result (node_array h s)) as (l & E & _ & C & _).
        { intros n Hn. apply (node_array_In s n Rs) in Hn. apply Rs, Hn. }
        unfold st, steps in Ha. rewrite E in Ha. destruct a as [lb k']. destruct (C _ _ Ha) as (Nl & s' & -> & R' & C' & _ & D).
        cbn [fst snd] in *. destruct (IH s' R' C' eq_refl) as (x & Hx & Rx).
        destruct (D x Hx) as (n & t & Hn & Ht & Hr). exists n. split; [apply (node_array_In s n Rs) in Hn; apply Hn|].
        apply reads_step with t; [unfold out; apply in_app_iff; right; exact Ht|]. exact (ereach_reads _ _ _ _ Hr Rx).
    - intros (n & Hn & R). revert s Rs Cs Hn. induction R as [n F|n lb t w Hi R IH]; intros s Rs Cs Hn.
      + constructor. cbn [node_array snd]. apply existsb_exists. exists n. auto.
      + unfold out in Hi. apply in_app_iff in Hi. destruct Hi as [Hi|Hi].
        * apply in_map_iff in Hi. destruct Hi as (t' & Et & Ht). injection Et as <- <-. cbn [emit]. apply IH; [assumption..|]. exact (Cs _ _ Hn Ht).
        * destruct (compute_result (node_array h s)) as (l & E & _ & _ & C).
          { intros x Hx. apply (node_array_In s x Rs) in Hx. apply Rs, Hx. }
          assert (Hn' : In n (fst (node_array h s))).
          { apply (node_array_In s n Rs). split; [exact Hn|]. intros Z. rewrite Z in Hi. destruct Hi. }
          destruct (C n lb t Hn' Hi) as (s' & Hs' & R' & C' & Ht).
          apply (kreads_step st snd (node_array h s) (lb, node_array h s') w).
          -- unfold st, steps. rewrite E. exact Hs'.
          -- cbn [snd]. apply IH; assumption.
  Qed.
  (** What the nodes of the result stand for. *)
  Lemma determinise_full s0 : in_range s0 -> eclosed h s0 -> exists g (F : subset -> option nat),
    explore subset_eqb (compute_transitions h) snd (S (2 ^ S (length h))) (node_array h s0) = Ok g /\
    graph_ok g /\ deterministic g /\ F (node_array h s0) = Some 0 /\
    (forall w, reads g 0 w <-> exists x, In x s0 /\ reads h x w) /\
    (forall n, n < length g -> reachable g 0 n /\ exists s, F (node_array h s) = Some n /\ in_range s /\ eclosed h s /\
       (forall w, reads g n w <-> exists x, In x s /\ reads h x w)) /\
    (forall n lb k, n < length g -> In (lb, k) (out (node_at g n)) -> exists s m t, in_range s /\
       In (lb, t) (arcs (node_at h m)) /\ In t s /\ (forall w, reads g k w <-> exists x, In x s /\ reads h x w)).
  Proof using G.
    intros Rs Cs.
    assert (Next : forall k, In k subsets -> exists l, compute_transitions h k = Ok l /\ forall a, In a l -> In (snd a) subsets).
    { intros k Hk. destruct (compute_result k (subsets_range k Hk)) as (l & El & _ & C & _). exists l. split; [exact El|].
      intros [lb k'] Ha. destruct (C _ _ Ha) as (_ & s & -> & _). apply node_array_subset. }
    destruct (explore_built subset_eqb subset_eqb_eq (compute_transitions h) snd (node_array h s0) subsets)
      with (fuel := S (2 ^ S (length h))) as (v & g & m & E & HB & H0 & Hv).
    - apply node_array_subset.
    - exact Next.
    - assert (E : length subsets = 2 ^ length h * 2); [|rewrite E; cbn [Nat.pow]; lia].
      unfold subsets. etransitivity; [apply prod_length|]. rewrite sublists_length, seq_length. reflexivity.
    - exists g, (fun k => find_key subset_eqb k m). split; [exact E|]. split; [exact (built_graph_ok _ _ _ _ _ _ _ _ HB H0)|].
      assert (Uk : forall k, kreach st (node_array h s0) k -> In k subsets).
      { intros k Rk. exact (kreach_U (compute_transitions h) (node_array h s0) subsets (node_array_subset s0) Next k Rk). }
      assert (Kind : forall k, kreach st (node_array h s0) k -> exists s, k = node_array h s /\ in_range s /\ eclosed h s).
      { assert (Gen : forall k1 k2, kreach st k1 k2 -> forall s, k1 = node_array h s -> in_range s -> eclosed h s ->
                  exists s, k2 = node_array h s /\ in_range s /\ eclosed h s).
        { induction 1 as [k1|k1 a x Ha H IH]; intros s Es R1 C1; [exists s; auto|].
          destruct (compute_result k1) as (l & El & _ & C & _).
          { intros y Hy. subst k1. apply (node_array_In s y R1) in Hy. apply R1, Hy. }
          unfold st, steps in Ha. rewrite El in Ha. destruct a as [lb k']. destruct (C _ _ Ha) as (_ & s' & E' & R' & C' & _).
          exact (IH s' E' R' C'). }
        intros k Vk. exact (Gen _ _ Vk s0 eq_refl Rs Cs). }
      assert (Key : forall n, n < length g -> exists k, find_key subset_eqb k m = Some n /\ kreach st (node_array h s0) k).
      { intros n Hn. destruct (b_surj _ _ _ _ _ _ _ _ HB n (Nat.le_0_l n) Hn) as (k & Hk).
        destruct (b_range _ _ _ _ _ _ _ _ HB _ _ Hk) as (Vk & _). apply Hv in Vk. exists k. auto. }
      split; [|split; [exact H0|split; [intros w; rewrite (built_reads _ _ _ _ _ _ _ _ HB _ 0 w H0); apply subset_reads; assumption|split]]].
      + intros n Hn. destruct (built_reach _ _ _ _ _ _ _ _ HB _ 0 n H0 Hn) as (k & Hk & Rk).
        destruct (compute_result k (subsets_range k (Uk k Rk))) as (l & El & ND & C & _).
        apply (built_det _ _ _ _ _ _ _ _ HB n k Hk); unfold steps; rewrite El; [|exact ND].
        intros lb y Hy. apply (C _ _ Hy).
      + intros n Hn. destruct (Key n Hn) as (k & Hk & Vk). split.
        * destruct (built_reach_back _ _ _ _ _ _ _ _ HB _ _ 0 Vk H0) as (i & Hi & Ri). rewrite Hk in Hi. injection Hi as <-. exact Ri.
        * destruct (Kind k Vk) as (s & -> & R1 & C1). exists s. split; [exact Hk|]. split; [exact R1|]. split; [exact C1|].
          intros w. rewrite (built_reads _ _ _ _ _ _ _ _ HB _ n w Hk). apply subset_reads; assumption.
      + intros n lb t Hn Hi. destruct (Key n Hn) as (k & Hk & Vk). apply (b_out _ _ _ _ _ _ _ _ HB _ _ _ _ Hk) in Hi. destruct Hi as (k' & Hi & Hk').
        destruct (compute_result k (subsets_range k (Uk k Vk))) as (l & El & _ & C & _). unfold steps in Hi. rewrite El in Hi.
        destruct (C _ _ Hi) as (_ & s & -> & R' & C' & (n' & t' & _ & N2 & N3) & _). exists s, n', t'. split; [exact R'|]. split; [exact N2|]. split; [exact N3|].
        intros w. rewrite (built_reads _ _ _ _ _ _ _ _ HB _ t w Hk'). apply subset_reads; assumption.
  Qed.
End Det.

Lemma root_closure h : graph_ok h -> exists s, add_closure h 0 [] = Ok s /\ In 0 s /\ in_range h s /\ eclosed h s /\ forall x, In x s -> ereach h 0 x.
Proof.
  intros G. pose proof (graph_root _ G) as L0. destruct (add_closure_result h 0 [] G L0) as (s & Es & S1 & S2 & S3 & S4).
  assert (Er : forall x, In x s -> ereach h 0 x) by (intros x Hx; destruct (S3 x Hx) as [[]|Hr]; exact Hr).
  exists s. split; [exact Es|]. split; [exact S1|]. split; [intros n Hn; exact (ereach_lt _ _ _ G L0 (Er n Hn))|].
  split; [apply S4; intros ? ? []|exact Er].
Qed.
Lemma determinise_correct b t : trans_ok t -> exists r, determinise b t = Ok r /\ trans_ok r /\ deterministic (nodes r) /\
  det r = true /\ (forall w, lang r w <-> lang t w) /\ (b = true -> forall l, In l (labels r) <-> In l (labels t)).
Proof.
  intros T. unfold determinise. destruct (det t) eqn:Dt.
  - destruct (copy_correct false t T) as (c & E1 & Tc & Lc & Dc & Mc & Ac). exists c. split; [exact E1|]. split; [exact Tc|].
    cbn [recode_label] in Lc, Ac. rewrite Dt in Dc. split; [exact (proj1 (proj2 Tc) Dc)|]. split; [exact Dc|].
    split; [intros w; rewrite Lc, map_id; reflexivity|]. intros _. exact Ac.
  - destruct T as (G & _ & _ & Hl). pose proof (graph_root _ G) as L0.
    destruct (root_closure (nodes t) G) as (s & Es & S1 & S2 & S3 & S4). rewrite Es. cbn [rbind].
    destruct (determinise_full (nodes t) G s S2 S3) as (g & F & E & Gg & Dg & F0 & L & _). rewrite E. cbn [rmap]. eexists. split; [reflexivity|].
    cbn [nodes det mini labels]. split; [|split; [exact Dg|split; [reflexivity|split]]].
    + split; [exact Gg|]. split; [intros _; exact Dg|]. split; [discriminate|]. cbn [labels]. destruct b; [apply no_eps_insert|]; intros [].
    + intros w. unfold lang at 1. cbn [nodes]. rewrite L. split; [|intros H; exists 0; auto].
      intros (n & Hn & R). exact (ereach_reads _ _ _ _ (S4 n Hn) R).
    + intros -> l. rewrite In_insert_labels. cbn [In]. split; [tauto|]. intros H. right. split; [exact H|]. intros ->. exact (Hl H).
Qed.
