(** Exploring a graph, and reversing one. *)
From Verif Require Import Base SF_Spec SF_Model SF_Proofs SF_Proofs2 SF_Proofs3.

Section Meet.
  Context {K : Type}.
  Variable keqb : K -> K -> bool.
  Hypothesis Hk : forall a b, keqb a b = true <-> a = b.
  Variable sc : K -> list (label * K).
  Lemma expected_met evs : forall (v : list K) x, expected v evs -> entered x evs -> In x (meet v evs).
  Proof.
    unfold entered. induction evs as [|e evs IH]; intros v x; [intros _ []|].
    intros [H1 H2] [->|H].
    - apply (meet_grows evs). exact H1.
    - apply IH; assumption.
  Qed.
  Lemma meet_In evs : forall (v : list K) x, In x (meet v evs) <-> In x v \/ exists y a b, In (Before y a b) evs /\ snd a = x.
  Proof.
    induction evs as [|e evs IH]; intros v x.
    - simpl. split; [tauto|]. intros [H|(y & a & b & [] & _)]. exact H.
    - change (meet v (e :: evs)) with (meet (meet1 v e) evs). rewrite IH. split.
      + intros [H|(y & a & b & H & <-)]; [|right; exists y, a, b; split; [right; exact H|reflexivity]].
        destruct e as [k|k a b|k a|k]; simpl in H; auto. destruct H as [<-|H]; [|auto].
        right. exists k, a, b. split; [left; reflexivity|reflexivity].
      + intros [H|(y & a & b & [->|H] & <-)].
        * left. destruct e; simpl; auto.
        * left. left. reflexivity.
        * right. exists y, a, b. auto.
  Qed.
  Lemma log_met root evs : visit_log keqb sc root [] evs ->
    forall x, In x (meet [root] evs) <-> entered x evs.
  Proof using Hk.
    intros L x. split.
    - rewrite meet_In. intros [[<-|[]]|(y & a & b & H & <-)].
      + exact (log_root keqb sc root evs L).
      + assert (Hy : entered y evs /\ In a (sc y)).
        { apply in_split in H. destruct H as (e1 & e2 & ->).
          pose proof (vl_legal _ _ _ _ _ L) as LL. apply legal_app in LL. destruct LL as [_ [L1 _]].
          cbn [legal1] in L1. destruct L1 as (L1 & L2 & _). split; [|exact L2].
          apply grow_In in L1. destruct L1 as [[]|L1]. apply entered_app. auto. }
        destruct Hy as [Hy Ha]. exact (log_closed keqb Hk sc root evs L y a Hy Ha).
    - apply expected_met. exact (vl_exp _ _ _ _ _ L).
  Qed.
End Meet.

Section ExploreProof.
  Context {K : Type}.
  Variable keqb : K -> K -> bool.
  Hypothesis Hk : forall a b, keqb a b = true <-> a = b.
  Variables (sc : K -> res (list (label * K))) (fin : K -> bool).
  Definition steps (k : K) : list (label * K) := match sc k with Ok l => l | _ => [] end.
  Variable root : K.
  Let xacts := acts (explore_enter keqb sc fin) (fun _ s => s) (explore_before keqb) (fun _ _ s => s).

  Lemma explore_acts evs : legal steps [] evs -> expected [root] evs ->
    (forall k, entered k evs -> exists l, sc k = Ok l) ->
    exists g m, xacts evs (Ok ([fresh], [(root, 0)])) = Ok (g, m) /\ find_key keqb root m = Some 0 /\
      built keqb 0 (node_at []) (meet [root] evs) (fun x => visited keqb x (grow [] evs) && fin x)
            (fun x => befores keqb x evs) g m.
  Proof using Hk.
    induction evs as [|e evs IH] using rev_ind; intros L X T.
    - exists [fresh], [(root, 0)]. assert (R : find_key keqb root [(root, 0)] = Some 0).
      { cbn. rewrite (keqb_same keqb Hk). reflexivity. }
      assert (Only : forall x n, find_key keqb x [(root, 0)] = Some n -> x = root /\ n = 0).
      { intros x n. cbn. destruct (keqb x root) eqn:E; [|discriminate]. apply Hk in E. intros H. injection H. auto. }
      split; [reflexivity|]. split; [exact R|]. constructor; cbn [length meet fold_left grow]; intros.
      + lia.
      + lia.
      + destruct H as [<-|[]]. eauto.
      + apply Only in H. destruct H as [-> ->]. split; [left; reflexivity|lia].
      + apply Only in H, H0. destruct H, H0. congruence.
      + exists root. assert (n = 0) by lia. subst. exact R.
      + apply Only in H. destruct H as [-> ->]. reflexivity.
      + apply Only in H. destruct H as [-> ->]. reflexivity.
      + apply Only in H. destruct H as [-> ->]. cbn. split; [intros []|intros (y & [] & _)].
      + destruct H0.
    - apply legal_app in L. destruct L as [L [L1 _]]. apply expected_app in X. destruct X as [X [X1 _]].
      destruct (IH L X) as (g & m & E & H0 & HB).
      { intros k Hin. apply T. apply entered_app. auto. }
      clear IH. unfold xacts in *. rewrite acts_app, E. rewrite grow_app, meet_app.
      set (v := grow [] evs) in *. set (mt := meet [root] evs) in *.
      assert (Same : (forall x, befores keqb x [e] = []) -> (forall x, befores keqb x (evs ++ [e]) = befores keqb x evs)).
      { intros H x. rewrite bef_app, H. apply app_nil_r. }
      assert (Vm : forall x, In x v -> In x mt).
      { intros x Hx. apply expected_met; [exact X|]. apply grow_In in Hx. destruct Hx as [[]|Hx]. exact Hx. }
      destruct e as [k|k a b|k a|k]; unfold acts; cbn [fold_left act grow grow1 meet meet1 legal1] in *.
      + destruct (T k) as [l Hl]; [apply entered_app; right; left; reflexivity|].
        destruct (b_fwd _ _ _ _ _ _ _ _ HB k X1) as [n Hn].
        unfold explore_enter. rewrite Hl. cbn [rbind]. rewrite Hn. eexists _, _. split; [reflexivity|]. split; [exact H0|].
        assert (Nv : visited keqb k v = false).
        { apply Bool.not_true_iff_false. rewrite (visited_In keqb Hk). exact L1. }
        eapply built_ext with (fin := fun x => visited keqb x (k :: v) && fin x) (edge := fun x => befores keqb x evs);
          [|reflexivity|reflexivity|reflexivity|intros x _; cbn beta; rewrite Same; reflexivity].
        destruct (fin k) eqn:Fk.
        * eapply (built_final keqb _ _ _ _ _ _ _ _ _ _ (fun x => visited keqb x (k :: v) && fin x));
            [exact HB|exact Hn| |].
          -- cbn. rewrite (keqb_same keqb Hk). exact Fk.
          -- intros z Hz. cbn. rewrite (keqb_neq keqb Hk) by congruence. reflexivity.
        * eapply built_ext; [exact HB|reflexivity..| |reflexivity].
          intros x _. cbn beta. cbn [visited existsb]. destruct (keqb x k) eqn:Exk; [|reflexivity].
          apply Hk in Exk. subst x. rewrite Nv, Fk. reflexivity.
      + destruct L1 as (L1 & L2 & L3).
        destruct (b_fwd _ _ _ _ _ _ _ _ HB k (Vm k L1)) as [n Hn].
        unfold explore_before. cbn [rbind]. rewrite Hn.
        assert (EB1 : befores keqb k (evs ++ [Before k a b]) = befores keqb k evs ++ [(fst a, snd a)]).
        { rewrite bef_app. f_equal. cbn. rewrite (keqb_same keqb Hk). destruct a. reflexivity. }
        assert (EB2 : forall z, z <> k -> befores keqb z (evs ++ [Before k a b]) = befores keqb z evs).
        { intros z Hz. rewrite bef_app. cbn. rewrite (keqb_neq keqb Hk) by exact Hz. apply app_nil_r. }
        destruct (find_key keqb (snd a) m) as [t|] eqn:Ht.
        * eexists _, _. split; [reflexivity|]. split; [exact H0|].
          eapply built_ext with (v := mt).
          -- eapply (built_arc keqb Hk _ _ _ _ _ _ _ k (snd a) _ _ _ (fun x => befores keqb x (evs ++ [Before k a b])));
               [exact HB|exact Hn|exact Ht|exact EB1|exact EB2].
          -- intros x. cbn [In]. split; [|tauto]. intros [<-|Hx]; [|exact Hx]. apply (b_range _ _ _ _ _ _ _ _ HB _ _ Ht).
          -- reflexivity.
          -- reflexivity.
          -- reflexivity.
        * assert (Nm : ~ In (snd a) mt).
          { intros C. destruct (b_fwd _ _ _ _ _ _ _ _ HB _ C) as [? C']. congruence. }
          assert (Nv : ~ In (snd a) v) by (intros C; apply Nm, Vm, C).
          assert (Nka : snd a <> k) by (intros C; rewrite C in Ht; congruence).
          eexists _, _. split; [reflexivity|].
          split; [rewrite look_cons, (keqb_neq keqb Hk); [exact H0|intros C; rewrite <- C in Ht; congruence]|].
          eapply (built_arc keqb Hk _ _ _ _ (fun x => befores keqb x evs) _ _ k (snd a) _ _ _ (fun x => befores keqb x (evs ++ [Before k a b]))); [|rewrite look_cons, (keqb_neq keqb Hk); [exact Hn|congruence]|rewrite look_cons, (keqb_same keqb Hk); reflexivity|exact EB1|exact EB2].
          apply built_alloc; [exact Hk|exact HB|exact Nm| |].
          -- cbn beta. assert (visited keqb (snd a) v = false) as ->; [|reflexivity]. apply Bool.not_true_iff_false. rewrite (visited_In keqb Hk). exact Nv.
          -- exact (proj1 (events_not_entered keqb Hk steps evs [] (snd a) L Nv)).
      + exists g, m. split; [reflexivity|]. split; [exact H0|]. eapply built_ext; [exact HB|reflexivity..|].
        intros x _. cbn beta. rewrite Same; reflexivity.
      + exists g, m. split; [reflexivity|]. split; [exact H0|]. eapply built_ext; [exact HB|reflexivity..|].
        intros x _. cbn beta. rewrite Same; reflexivity.
  Qed.

  Variable U : list K.
  Hypothesis U_root : In root U.
  Hypothesis U_sc : forall k, In k U -> exists l, sc k = Ok l /\ forall a, In a l -> In (snd a) U.
  Lemma steps_U k a : In k U -> In a (steps k) -> In (snd a) U.
  Proof using U_sc. intros H Ha. destruct (U_sc k H) as (l & E & Hl). unfold steps in Ha. rewrite E in Ha. auto. Qed.
  Lemma kreach_U k : kreach steps root k -> In k U.
  Proof using U_root U_sc.
    intros R. revert U_root. induction R as [k|k a x Ha R IH]; intros H; [exact H|]. apply IH, (steps_U k); assumption.
  Qed.
  Lemma explore_built fuel : length U < fuel -> exists v g m,
    explore keqb sc fin fuel root = Ok g /\
    built keqb 0 (node_at []) v fin steps g m /\
    find_key keqb root m = Some 0 /\ (forall x, In x v <-> kreach steps root x).
  Proof using Hk U_root U_sc.
    intros Hf. unfold explore.
    destruct (visit_total keqb Hk (explore_succ sc) (explore_enter keqb sc fin) (fun _ s => s) (explore_before keqb) (fun _ _ s => s)
                steps (fun _ _ => True) ltac:(intros; split; [reflexivity|exact I]) ltac:(auto) ltac:(auto) ltac:(auto)
                U steps_U fuel root [] (Ok ([fresh], [(root, 0)])) I U_root) as (evs & E & _ & L).
    { pose proof (cnt_le_U keqb U []). lia. }
    rewrite E. cbn [rbind].
    destruct (explore_acts evs (vl_legal _ _ _ _ _ L) (vl_exp _ _ _ _ _ L)) as (g & m & E2 & H0 & HB).
    { intros k Hin. destruct (U_sc k) as (l & El & _); [apply kreach_U, (vl_reach _ _ _ _ _ L), Hin|]. eauto. }
    unfold xacts in E2. rewrite E2. cbn [rmap fst].
    assert (Hv : forall x, In x (meet [root] evs) <-> kreach steps root x).
    { intros x. rewrite (log_met keqb Hk steps root evs L). apply (log_reach keqb Hk steps root evs L). }
    exists (meet [root] evs), g, m. split; [reflexivity|]. split; [|auto].
    assert (En : forall x, In x (meet [root] evs) -> entered x evs).
    { intros x. apply (log_met keqb Hk steps root evs L). }
    eapply built_ext; [exact HB|reflexivity..| |].
    - intros x Hx. cbn beta. rewrite (proj2 (visited_In keqb Hk x (grow [] evs))); [reflexivity|].
      apply grow_In. right. apply En, Hx.
    - intros x Hx. cbn beta. destruct (vl_full _ _ _ _ _ L x (En x Hx)) as (-> & _). reflexivity.
  Qed.
End ExploreProof.

(** reverse *)
Section Reverse.
  Variable h : list node.
  Hypothesis Hh : graph_ok h.
  Let sc (n : nat) := out (node_at h n).
  (** The reversed transitions of [x], in the order in which they are added. *)
  Definition rafters (x : nat) (evs : list (@ev nat)) : list (label * nat) :=
    flat_map (fun e => match e with After k a => if x =? snd a then [(fst a, k)] else [] | _ => [] end) evs.
  Lemma raft_app x a b : rafters x (a ++ b) = rafters x a ++ rafters x b. Proof. apply flat_map_app. Qed.
  Lemma rafters_In x l k evs : In (l, k) (rafters x evs) <-> In (After k (l, x)) evs.
  Proof.
    unfold rafters. rewrite in_flat_map. split.
    - intros (e & He & H). destruct e as [| |k' [l' t]|]; try (destruct H; fail). cbn [fst snd] in H.
      destruct (Nat.eqb_spec x t) as [->|]; [|destruct H]. destruct H as [H|[]]. injection H as -> ->. exact He.
    - intros H. exists (After k (l, x)). split; [exact H|]. cbn [fst snd]. rewrite Nat.eqb_refl. left. reflexivity.
  Qed.
  Lemma afters_In x a evs : In a (afters Nat.eqb x evs) <-> In (After x a) evs.
  Proof.
    unfold afters. rewrite in_flat_map. split.
    - intros (e & He & H). destruct e as [| |k a'|]; try (destruct H; fail).
      destruct (Nat.eqb_spec x k) as [->|]; [|destruct H]. destruct H as [->|[]]. exact He.
    - intros H. exists (After x a). split; [exact H|]. rewrite Nat.eqb_refl. left. reflexivity.
  Qed.
  (** The root: epsilon transitions to the copies of the final nodes entered so far. *)
  Definition rroot (evs : list (@ev nat)) (g : list node) (m : list (nat * nat)) : Prop :=
    arcs (node_at g 0) = [] /\ final (node_at g 0) = false /\
    forall t, In t (eps (node_at g 0)) <-> exists x, entered x evs /\ final (node_at h x) = true /\ forward x m = Some t.
  Lemma reverse_acts evs : legal sc [] evs ->
    exists g m, acts (reverse_enter h) nothing nothing3 reverse_after evs (Ok ([fresh], [])) = Ok (g, m) /\
      built Nat.eqb 1 (node_at g) (grow [] evs) (fun _ => false) (fun x => rafters x evs) g m /\ rroot evs g m.
  Proof using Hh.
    induction evs as [|e evs IH] using rev_ind; intros L.
    - exists [fresh], []. split; [reflexivity|]. split.
      + constructor; simpl; intros; try tauto; try discriminate; try lia; reflexivity.
      + split; [reflexivity|]. split; [reflexivity|]. intros t. cbn. split; [intros []|intros (x & [] & _)].
    - apply legal_app in L. destruct L as [L [L1 _]]. destruct (IH L) as (g & m & E & HB & R1 & R2 & R3). clear IH.
      rewrite acts_app, E. rewrite grow_app.
      set (v := grow [] evs) in *.
      assert (Same : (forall x, rafters x [e] = []) -> (forall x, rafters x (evs ++ [e]) = rafters x evs)).
      { intros H x. rewrite raft_app, H. apply app_nil_r. }
      assert (Lg : 1 <= length g) by apply (b_lo _ _ _ _ _ _ _ _ HB).
      destruct e as [k|k a b|k a|k]; unfold acts; cbn [fold_left act grow grow1 legal1] in *.
      + unfold reverse_enter. cbn [rmap]. eexists _, _. split; [reflexivity|].
        assert (Ek : rafters k evs = []).
        { destruct (rafters k evs) as [|[l x] r] eqn:Er; [reflexivity|]. exfalso.
          assert (H : In (After x (l, k)) evs) by (apply rafters_In; rewrite Er; left; reflexivity).
          apply in_split in H. destruct H as (e1 & e2 & ->). apply legal_app in L. destruct L as [_ [(_ & _ & L2) _]].
          cbn [snd] in L2. apply L1. unfold v. apply grow_In. apply grow_In in L2. destruct L2 as [[]|L2]. right. apply entered_app. auto. }
        assert (HB1 : built Nat.eqb 1 (node_at g) (k :: v) (fun _ => false) (fun x => rafters x evs) (g ++ [fresh]) ((k, length g) :: m)).
        { eapply (built_alloc Nat.eqb Nat.eqb_eq); [exact HB|exact L1|reflexivity|exact Ek]. }
        assert (Fold : forall x, entered x evs -> forward x ((k, length g) :: m) = forward x m).
        { intros x Hx. unfold forward. rewrite look_cons, (proj2 (Nat.eqb_neq x k)); [reflexivity|].
          intros ->. apply L1. unfold v. apply grow_In. auto. }
        assert (Ent : forall x, entered x (evs ++ [Enter k]) <-> entered x evs \/ x = k).
        { intros x. rewrite entered_app. unfold entered at 2. cbn [In]. split; [intros [H|[H|[]]]; [auto|injection H; auto]|].
          intros [H| ->]; auto. }
        destruct (final (node_at h k)) eqn:Fk.
        * assert (L0 : 0 < length (g ++ [fresh])) by (rewrite app_length; simpl; lia).
          split.
          -- set (g' := add_arc 0 (0, 0) (length g) (g ++ [fresh])).
             assert (Nth : forall i, 1 <= i -> node_at g' i = node_at (g ++ [fresh]) i).
             { intros i Hi. unfold g'. rewrite node_at_add_arc by exact L0. destruct (Nat.eqb_spec i 0); [lia|reflexivity]. }
             destruct HB1 as [A1 A2 A3 A4 A5 A6 A7 A8 A9 A10].
             assert (Lg' : length g' = length (g ++ [fresh])) by apply add_arc_length.
             constructor; rewrite ?Lg'; auto.
             ++ intros x n Hx. rewrite Nth by (apply A4 in Hx; lia). exact (A7 x n Hx).
             ++ intros x n Hx. rewrite Nth by (apply A4 in Hx; lia). cbn beta. rewrite Same; [auto|reflexivity].
             ++ intros x n l t Hx. rewrite Nth by (apply A4 in Hx; lia). cbn beta. rewrite Same; [auto|reflexivity].
             ++ intros x l y Hx. cbn beta. rewrite Same; [auto|reflexivity]. apply A10. exact Hx.
          -- unfold rroot. rewrite node_at_add_arc, Nat.eqb_refl by exact L0. rewrite node_at_app by lia.
             unfold with_arc. cbn [is_epsilon label_eqb fst snd Nat.eqb andb eps arcs final].
             split; [exact R1|]. split; [exact R2|]. intros t. cbn [In]. rewrite R3. split.
             ++ intros [<-|(x & Hx & Fx & Hfx)].
                ** exists k. split; [apply Ent; auto|]. split; [exact Fk|]. unfold forward. rewrite look_cons, Nat.eqb_refl. reflexivity.
                ** exists x. split; [apply Ent; auto|]. split; [exact Fx|]. rewrite Fold; assumption.
             ++ intros (x & Hx & Fx & Hfx). apply Ent in Hx. destruct Hx as [Hx| ->].
                ** right. exists x. rewrite Fold in Hfx by exact Hx. auto.
                ** left. unfold forward in Hfx. rewrite look_cons, Nat.eqb_refl in Hfx. congruence.
        * split.
          -- eapply built_ext; [exact HB1|reflexivity| |reflexivity|].
             ++ intros i Hi. rewrite node_at_app by lia. reflexivity.
             ++ intros x _. cbn beta. rewrite Same; reflexivity.
          -- unfold rroot. rewrite node_at_app by lia. split; [exact R1|]. split; [exact R2|].
             intros t. rewrite R3. split.
             ++ intros (x & Hx & Fx & Hfx). exists x. split; [apply Ent; auto|]. split; [exact Fx|]. rewrite Fold; assumption.
             ++ intros (x & Hx & Fx & Hfx). apply Ent in Hx. destruct Hx as [Hx| ->]; [|congruence].
                exists x. rewrite Fold in Hfx by exact Hx. auto.
      + exists g, m. split; [reflexivity|]. split.
        * eapply built_ext; [exact HB|reflexivity..|]. intros x _. cbn beta. rewrite Same; reflexivity.
        * split; [exact R1|]. split; [exact R2|]. intros t. rewrite R3. unfold entered. setoid_rewrite in_app_iff. cbn [In].
          split; intros (x & Hx & Hr); exists x; (split; [|exact Hr]); intuition discriminate.
      + destruct L1 as (L1 & _ & L2).
        destruct (b_fwd _ _ _ _ _ _ _ _ HB k L1) as [n Hn]. destruct (b_fwd _ _ _ _ _ _ _ _ HB (snd a) L2) as [t Ht].
        unfold reverse_after, forward. cbn [rbind]. rewrite Hn, Ht. eexists _, _. split; [reflexivity|].
        assert (Rt : 1 <= t /\ t < length g) by (apply (b_range _ _ _ _ _ _ _ _ HB _ _ Ht)).
        assert (N0 : node_at (add_arc t (fst a) n g) 0 = node_at g 0).
        { rewrite node_at_add_arc by tauto. destruct (Nat.eqb_spec 0 t); [lia|reflexivity]. }
        split.
        * eapply built_ext.
          -- eapply (built_arc Nat.eqb Nat.eqb_eq _ _ _ _ _ _ _ (snd a) k _ _ _ (fun x => rafters x (evs ++ [After k a])));
               [exact HB|exact Ht|exact Hn|..].
             ++ cbn beta. rewrite raft_app. f_equal. cbn. rewrite Nat.eqb_refl. reflexivity.
             ++ intros z Hz. cbn beta. rewrite raft_app. cbn. rewrite (proj2 (Nat.eqb_neq z (snd a))) by congruence. apply app_nil_r.
          -- reflexivity.
          -- intros i Hi. assert (i = 0) by lia. subst. exact N0.
          -- reflexivity.
          -- reflexivity.
        * unfold rroot. rewrite N0. split; [exact R1|]. split; [exact R2|]. intros u. rewrite R3. unfold entered. setoid_rewrite in_app_iff. cbn [In].
          split; intros (x & Hx & Hr); exists x; (split; [|exact Hr]); intuition discriminate.
      + exists g, m. split; [reflexivity|]. split.
        * eapply built_ext; [exact HB|reflexivity..|]. intros x _. cbn beta. rewrite Same; reflexivity.
        * split; [exact R1|]. split; [exact R2|]. intros t. rewrite R3. unfold entered. setoid_rewrite in_app_iff. cbn [In].
          split; intros (x & Hx & Hr); exists x; (split; [|exact Hr]); intuition discriminate.
  Qed.
End Reverse.
