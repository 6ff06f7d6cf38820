(** Copying, reversing, and building a graph: what comes out. *)
From Verif Require Import Base SF_Spec SF_Model SF_Proofs SF_Proofs2.

(** Consequences of [built]. *)
Section BuiltFacts.
  Context {K : Type}.
  Variable keqb : K -> K -> bool.
  Hypothesis Hk : forall a b, keqb a b = true <-> a = b.
  Variables (lo : nat) (base : nat -> node) (v : list K) (fin : K -> bool) (edge : K -> list (label * K))
            (g : list node) (m : list (K * nat)).
  Hypothesis HB : built keqb lo base v fin edge g m.
  Lemma built_reads k n w : find_key keqb k m = Some n -> reads g n w <-> kreads edge fin k w.
  Proof using HB.
    apply (represented_reads edge fin (fun k n => find_key keqb k m = Some n)).
    - intros x i Hx. split; [apply (b_fin _ _ _ _ _ _ _ _ HB _ _ Hx)|].
      intros l t. apply (b_out _ _ _ _ _ _ _ _ HB _ _ _ _ Hx).
    - intros x [l y] i Hx Ha. apply (b_fwd _ _ _ _ _ _ _ _ HB). cbn [snd].
      eapply (b_tgt _ _ _ _ _ _ _ _ HB); [|exact Ha]. apply (b_range _ _ _ _ _ _ _ _ HB _ _ Hx).
  Qed.
  Lemma built_targets n l t : lo <= n -> n < length g -> In (l, t) (out (node_at g n)) -> lo <= t /\ t < length g.
  Proof using HB.
    intros H1 H2 H. destruct (b_surj _ _ _ _ _ _ _ _ HB n H1 H2) as [x Hx].
    apply (b_out _ _ _ _ _ _ _ _ HB _ _ _ _ Hx) in H. destruct H as (y & _ & Hy).
    apply (b_range _ _ _ _ _ _ _ _ HB _ _ Hy).
  Qed.
  Lemma built_no_eps n t : lo <= n -> n < length g -> ~ In ((0, 0), t) (arcs (node_at g n)).
  Proof using HB.
    intros H1 H2 H. destruct (b_surj _ _ _ _ _ _ _ _ HB n H1 H2) as [x Hx].
    apply (in_map (@fst label nat)) in H. rewrite (b_lab _ _ _ _ _ _ _ _ HB _ _ Hx) in H.
    apply in_rev in H. apply filter_In in H. destruct H as [_ H]. discriminate.
  Qed.
  Lemma built_reach k n i : find_key keqb k m = Some n -> reachable g n i ->
    exists x, find_key keqb x m = Some i /\ kreach edge k x.
  Proof using HB.
    intros Hn R. revert k Hn. induction R as [n|n l t i Hi R IH]; intros k Hn.
    - exists k. split; [exact Hn|constructor].
    - apply (b_out _ _ _ _ _ _ _ _ HB _ _ _ _ Hn) in Hi. destruct Hi as (y & Hy & Hyt).
      destruct (IH y Hyt) as (x & Hx & Rx). exists x. split; [exact Hx|].
      econstructor; [exact Hy|exact Rx].
  Qed.
  Lemma built_reach_back k x n : kreach edge k x -> find_key keqb k m = Some n ->
    exists i, find_key keqb x m = Some i /\ reachable g n i.
  Proof using HB.
    intros R. revert n. induction R as [k|k [l y] x Ha R IH]; intros n Hn.
    - exists n. split; [exact Hn|constructor].
    - destruct (b_fwd _ _ _ _ _ _ _ _ HB y) as [t Ht].
      { eapply (b_tgt _ _ _ _ _ _ _ _ HB); [|exact Ha]. apply (b_range _ _ _ _ _ _ _ _ HB _ _ Hn). }
      destruct (IH t Ht) as (i & Hi & Ri). exists i. split; [exact Hi|].
      apply reach_step with l t; [|exact Ri].
      apply (b_out _ _ _ _ _ _ _ _ HB _ _ _ _ Hn). exists y. auto.
  Qed.
  Lemma built_det n x : find_key keqb x m = Some n ->
    (forall l y, In (l, y) (edge x) -> l <> (0, 0)) -> NoDup (map fst (edge x)) ->
    eps (node_at g n) = [] /\ NoDup (map fst (arcs (node_at g n))).
  Proof using HB.
    intros Hx He Hd. split.
    - destruct (eps (node_at g n)) as [|t r] eqn:E; [reflexivity|]. exfalso.
      assert (H : In ((0, 0), t) (out (node_at g n))) by (unfold out; rewrite E; left; reflexivity).
      apply (b_out _ _ _ _ _ _ _ _ HB _ _ _ _ Hx) in H. destruct H as (y & Hy & _).
      exact (He _ _ Hy eq_refl).
    - rewrite (b_lab _ _ _ _ _ _ _ _ HB _ _ Hx). apply NoDup_rev, NoDup_filter, Hd.
  Qed.
End BuiltFacts.

Section Events.
  Context {K : Type}.
  Variable keqb : K -> K -> bool.
  Hypothesis Hk : forall a b, keqb a b = true <-> a = b.
  Variable sc : K -> list (label * K).
  Lemma events_not_entered evs v x : legal sc v evs -> ~ In x (grow v evs) ->
    befores keqb x evs = [] /\ afters keqb x evs = [].
  Proof using Hk.
    revert v. induction evs as [|e evs IH]; intros v L N; [auto|].
    destruct L as [L1 L]. change (grow v (e :: evs)) with (grow (grow1 v e) evs) in N.
    destruct (IH _ L N) as [E1 E2].
    assert (Nv : ~ In x v) by (intros C; apply N, grow_In; left; destruct e; simpl; auto).
    destruct e as [k|k a b|k a|k]; unfold befores, afters in *; cbn [flat_map]; rewrite E1, E2; auto.
    - cbn [legal1] in L1. rewrite (keqb_neq keqb Hk); [auto|]. intros ->. tauto.
    - cbn [legal1] in L1. rewrite (keqb_neq keqb Hk); [auto|]. intros ->. tauto.
  Qed.
  Lemma cnt_le_U (U vis : list K) : cnt keqb U vis <= length U.
  Proof. unfold cnt. induction U as [|u l IH]; simpl; [lia|]. destruct (visited keqb u vis); simpl; lia. Qed.
End Events.

(** copy_nodes *)
Section Copy.
  Variables (h : list node) (lsw : bool).
  Hypothesis Hh : graph_ok h.
  Let sc (n : nat) := out (node_at h n).
  Definition recoded (a : label * nat) : label * nat := (recode_label lsw (fst a), snd a).
  Let fin (n : nat) := final (node_at h n).
  Let cacts := acts (copy_enter h) nothing nothing3 (copy_after lsw).

  Lemma copy_acts g0 evs : legal sc [] evs ->
    exists g m, cacts evs (Ok (g0, [])) = Ok (g, m) /\
      built Nat.eqb (length g0) (node_at g0) (grow [] evs) fin (fun x => map recoded (afters Nat.eqb x evs)) g m.
  Proof using All.
    induction evs as [|e evs IH] using rev_ind; intros L.
    - exists g0, []. split; [reflexivity|]. constructor; simpl; intros; try tauto; try discriminate; try lia.
    - apply legal_app in L. destruct L as [L [L1 _]]. destruct (IH L) as (g & m & E & HB). clear IH.
      unfold cacts in *. rewrite acts_app, E. rewrite grow_app.
      set (v := grow [] evs) in *.
      assert (Same : (forall x, afters Nat.eqb x [e] = []) -> (forall x, afters Nat.eqb x (evs ++ [e]) = afters Nat.eqb x evs)).
      { intros H x. rewrite aft_app, H. apply app_nil_r. }
      destruct e as [k|k a b|k a|k]; unfold acts; cbn [fold_left act grow grow1 legal1] in *.
      + unfold copy_enter. cbn [rmap]. eexists _, _. split; [reflexivity|].
        eapply built_ext.
        * eapply (built_alloc Nat.eqb Nat.eqb_eq); [exact HB|exact L1|reflexivity|].
          destruct (events_not_entered Nat.eqb Nat.eqb_eq sc evs [] k L L1) as [_ E2]. cbn beta. rewrite E2. reflexivity.
        * reflexivity.
        * reflexivity.
        * reflexivity.
        * intros x _. cbn beta. rewrite Same; [reflexivity|]. reflexivity.
      + exists g, m. split; [reflexivity|]. eapply built_ext; [exact HB|reflexivity..|].
        intros x _. cbn beta. rewrite Same; reflexivity.
      + destruct L1 as (L1 & _ & L2).
        destruct (b_fwd _ _ _ _ _ _ _ _ HB k L1) as [n Hn]. destruct (b_fwd _ _ _ _ _ _ _ _ HB (snd a) L2) as [t Ht].
        unfold copy_after, forward. cbn [rbind]. rewrite Hn, Ht. eexists _, _. split; [reflexivity|].
        eapply (built_arc Nat.eqb Nat.eqb_eq); [exact HB|exact Hn|exact Ht|..].
        * cbn beta. rewrite aft_app, map_app. f_equal. cbn. rewrite Nat.eqb_refl. reflexivity.
        * intros z Hz. cbn beta. rewrite aft_app, map_app. cbn.
          rewrite (proj2 (Nat.eqb_neq z k)) by congruence. apply app_nil_r.
      + exists g, m. split; [reflexivity|]. eapply built_ext; [exact HB|reflexivity..|].
        intros x _. cbn beta. rewrite Same; reflexivity.
  Qed.

  Lemma sc_closed k a : In k (seq 0 (length h)) -> In a (sc k) -> In (snd a) (seq 0 (length h)).
  Proof using Hh.
    rewrite !in_seq. intros Hl Ha. destruct a as [l t]. cbn [snd].
    destruct Hh as [_ H]. destruct (H k) as [H1 _]; [lia|]. specialize (H1 _ _ Ha). lia.
  Qed.
  Lemma root_in : In 0 (seq 0 (length h)).
  Proof using Hh. apply in_seq. destruct Hh as [H _]. pose proof (proj1 (length_zero_iff_nil h)). lia || (destruct (length h); [exfalso; auto|lia]). Qed.

  Lemma copy_visit {S} (enter leave : nat -> S -> S) before after (s : S) :
    exists evs, visit Nat.eqb (out_of h) enter leave before after (Datatypes.S (length h)) 0 ([], s) =
                Ok (grow [] evs, acts enter leave before after evs s) /\ visit_log Nat.eqb sc 0 [] evs.
  Proof using Hh.
    destruct (visit_total Nat.eqb Nat.eqb_eq (out_of h) enter leave before after sc (fun _ _ => True)
                ltac:(intros; split; [reflexivity|exact I]) ltac:(auto) ltac:(auto) ltac:(auto)
                (seq 0 (length h)) sc_closed (Datatypes.S (length h)) 0 [] s I root_in) as (evs & E & _ & L).
    { pose proof (cnt_le_U Nat.eqb (seq 0 (length h)) []) as H. rewrite seq_length in H. lia. }
    exists evs. auto.
  Qed.

  Lemma copy_nodes_built g0 : exists v g m n,
    copy_nodes h lsw 0 g0 = Ok (g, n) /\
    built Nat.eqb (length g0) (node_at g0) v fin (fun x => map recoded (sc x)) g m /\
    forward 0 m = Some n /\ (forall x, In x v <-> kreach sc 0 x).
  Proof using Hh.
    unfold copy_nodes.
    destruct (copy_visit (copy_enter h) nothing nothing3 (copy_after lsw) (Ok (g0, []))) as (evs & E & L).
    rewrite E. cbn [rbind].
    destruct (copy_acts g0 evs (vl_legal _ _ _ _ _ L)) as (g & m & E2 & HB). unfold cacts in E2. rewrite E2. cbn [rbind].
    pose proof (log_root _ _ _ _ L) as HR.
    assert (Hv : forall x, In x (grow [] evs) <-> kreach sc 0 x).
    { intros x. rewrite grow_In. rewrite <- (log_reach Nat.eqb Nat.eqb_eq sc 0 evs L). simpl. tauto. }
    destruct (b_fwd _ _ _ _ _ _ _ _ HB 0) as [n Hn]; [apply Hv; constructor|].
    unfold forward. rewrite Hn. exists (grow [] evs), g, m, n. split; [reflexivity|]. split; [|auto].
    eapply built_ext; [exact HB|reflexivity..|]. intros x Hx. cbn beta.
    destruct (vl_full _ _ _ _ _ L x) as (_ & -> & _); [|reflexivity].
    apply grow_In in Hx. destruct Hx as [[]|Hx]. exact Hx.
  Qed.

  (** Transducer::copy *)
  Lemma copy_root_acts evs : legal sc [] evs ->
    exists g m, acts (copy_enter_root h) nothing nothing3 (copy_after lsw) evs (Ok ([fresh], [(0, 0)])) = Ok (g, m) /\
      forward 0 m = Some 0 /\
      built Nat.eqb 0 (node_at []) (0 :: grow [] evs) (fun x => visited Nat.eqb x (grow [] evs) && fin x)
            (fun x => map recoded (afters Nat.eqb x evs)) g m.
  Proof using All.
    induction evs as [|e evs IH] using rev_ind; intros L.
    - exists [fresh], [(0, 0)]. split; [reflexivity|]. split; [reflexivity|].
      constructor; cbn [find_key length]; intros.
      + lia.
      + lia.
      + destruct H as [<-|[]]. exists 0. reflexivity.
      + destruct (Nat.eqb_spec x 0); [|discriminate]. injection H as <-. subst. split; [left; reflexivity|lia].
      + destruct (Nat.eqb_spec x 0); [|discriminate]. destruct (Nat.eqb_spec y 0); [|discriminate]. congruence.
      + exists 0. assert (n = 0) by lia. subst. reflexivity.
      + destruct (Nat.eqb_spec x 0); [|discriminate]. injection H as <-. reflexivity.
      + destruct (Nat.eqb_spec x 0); [|discriminate]. injection H as <-. reflexivity.
      + destruct (Nat.eqb_spec x 0); [|discriminate]. injection H as <-. cbn. split; [intros []|intros (y & [] & _)].
      + destruct H0.
    - apply legal_app in L. destruct L as [L [L1 _]]. destruct (IH L) as (g & m & E & H0 & HB). clear IH.
      rewrite acts_app, E. rewrite grow_app.
      set (v := grow [] evs) in *.
      assert (Same : (forall x, afters Nat.eqb x [e] = []) -> (forall x, afters Nat.eqb x (evs ++ [e]) = afters Nat.eqb x evs)).
      { intros H x. rewrite aft_app, H. apply app_nil_r. }
      destruct e as [k|k a b|k a|k]; unfold acts; cbn [fold_left act grow grow1 legal1] in *.
      + unfold copy_enter_root. destruct (Nat.eqb_spec k 0) as [->|Nk].
        * cbn [rmap]. eexists _, _. split; [reflexivity|]. split; [exact H0|].
          eapply built_ext.
          -- eapply (built_final Nat.eqb _ _ _ _ _ _ _ _ _ _ (fun x => visited Nat.eqb x (0 :: v) && fin x));
               [exact HB|exact H0|reflexivity|].
             intros z Hz. cbn. rewrite (proj2 (Nat.eqb_neq z 0)) by congruence. reflexivity.
          -- intros x. simpl. tauto.
          -- reflexivity.
          -- reflexivity.
          -- intros x _. cbn beta. rewrite Same; reflexivity.
        * unfold copy_enter. cbn [rmap]. eexists _, _. split; [reflexivity|].
          split; [unfold forward; rewrite look_cons; destruct (Nat.eqb_spec 0 k); [congruence|exact H0]|].
          eapply built_ext.
          -- eapply (built_alloc Nat.eqb Nat.eqb_eq _ _ _ (fun x => visited Nat.eqb x (k :: v) && fin x));
               [eapply built_ext; [exact HB|reflexivity|reflexivity| |reflexivity]| | |].
             ++ intros x Hx. cbn beta. cbn [visited existsb].
                rewrite (proj2 (Nat.eqb_neq x k)); [reflexivity|]. intros ->. destruct Hx; [congruence|contradiction].
             ++ intros [C|C]; [congruence|contradiction].
             ++ cbn. rewrite Nat.eqb_refl. reflexivity.
             ++ destruct (events_not_entered Nat.eqb Nat.eqb_eq sc evs [] k L L1) as [_ E2]. cbn beta. rewrite E2. reflexivity.
          -- intros x. simpl. tauto.
          -- reflexivity.
          -- reflexivity.
          -- intros x _. cbn beta. rewrite Same; reflexivity.
      + exists g, m. split; [reflexivity|]. split; [exact H0|]. eapply built_ext; [exact HB|reflexivity..|].
        intros x _. cbn beta. rewrite Same; reflexivity.
      + destruct L1 as (L1 & _ & L2).
        destruct (b_fwd _ _ _ _ _ _ _ _ HB k) as [n Hn]; [right; exact L1|].
        destruct (b_fwd _ _ _ _ _ _ _ _ HB (snd a)) as [t Ht]; [right; exact L2|].
        unfold copy_after, forward. cbn [rbind]. rewrite Hn, Ht. eexists _, _. split; [reflexivity|]. split; [exact H0|].
        eapply (built_arc Nat.eqb Nat.eqb_eq); [exact HB|exact Hn|exact Ht|..].
        * cbn beta. rewrite aft_app, map_app. f_equal. cbn. rewrite Nat.eqb_refl. reflexivity.
        * intros z Hz. cbn beta. rewrite aft_app, map_app. cbn.
          rewrite (proj2 (Nat.eqb_neq z k)) by congruence. apply app_nil_r.
      + exists g, m. split; [reflexivity|]. split; [exact H0|]. eapply built_ext; [exact HB|reflexivity..|].
        intros x _. cbn beta. rewrite Same; reflexivity.
  Qed.
  Lemma copy_root_built : exists v g m,
    rbind (visit Nat.eqb (out_of h) (copy_enter_root h) nothing nothing3 (copy_after lsw)
                 (S (length h)) 0 ([], Ok ([fresh], [(0, 0)]))) snd = Ok (g, m) /\
    built Nat.eqb 0 (node_at []) v fin (fun x => map recoded (sc x)) g m /\
    forward 0 m = Some 0 /\ (forall x, In x v <-> kreach sc 0 x).
  Proof using Hh.
    destruct (copy_visit (copy_enter_root h) nothing nothing3 (copy_after lsw) (Ok ([fresh], [(0, 0)]))) as (evs & E & L).
    rewrite E. cbn [rbind snd].
    destruct (copy_root_acts evs (vl_legal _ _ _ _ _ L)) as (g & m & E2 & H0 & HB). rewrite E2.
    assert (Hv : forall x, In x (grow [] evs) <-> kreach sc 0 x).
    { intros x. rewrite grow_In. rewrite <- (log_reach Nat.eqb Nat.eqb_eq sc 0 evs L). simpl. tauto. }
    assert (R0 : In 0 (grow [] evs)) by (apply Hv; constructor).
    exists (grow [] evs), g, m. split; [reflexivity|]. split; [|auto].
    eapply built_ext; [exact HB| | | |].
    - intros x. simpl. split; [tauto|]. intros [<-|H]; assumption.
    - reflexivity.
    - intros x Hx. cbn beta. assert (Hx' : In x (grow [] evs)) by (destruct Hx as [<-|H]; assumption).
      rewrite (proj2 (visited_In Nat.eqb Nat.eqb_eq x (grow [] evs)) Hx'). reflexivity.
    - intros x Hx. cbn beta. assert (Hx' : In x (grow [] evs)) by (destruct Hx as [<-|H]; assumption).
      destruct (vl_full _ _ _ _ _ L x) as (_ & -> & _); [|reflexivity].
      apply grow_In in Hx'. destruct Hx' as [[]|Hx']. exact Hx'.
  Qed.
End Copy.
