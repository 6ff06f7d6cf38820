(** The traversal of SF_Model.visit: the events it consists of. *)
From Verif Require Import Base SF_Spec SF_Model.

Section Dfs.
  Context {K S : Type}.
  Variable keqb : K -> K -> bool.
  Hypothesis Hk : forall a b, keqb a b = true <-> a = b.
  Variable succ : S -> K -> list (label * K).
  Variables (enter leave : K -> S -> S) (before : K -> label * K -> bool -> S -> S)
            (after : K -> label * K -> S -> S).
  (** The graph as it is when its nodes are entered. *)
  Variable sc : K -> list (label * K).
  Variable P : list K -> S -> Prop.
  Hypothesis P_enter : forall k vis s, P vis s -> ~ In k vis -> succ (enter k s) k = sc k /\ P (k :: vis) (enter k s).
  Hypothesis P_before : forall k a b vis s, P vis s -> In k vis -> P vis (before k a b s).
  Hypothesis P_after : forall k a vis s, P vis s -> In k vis -> P vis (after k a s).
  Hypothesis P_leave : forall k vis s, P vis s -> In k vis -> P vis (leave k s).

  Inductive ev := Enter (k : K) | Before (k : K) (a : label * K) (b : bool) | After (k : K) (a : label * K) | Leave (k : K).
  Definition act (s : S) (e : ev) : S :=
    match e with
    | Enter k => enter k s
    | Before k a b => before k a b s
    | After k a => after k a s
    | Leave k => leave k s
    end.
  Definition acts (evs : list ev) (s : S) : S := fold_left act evs s.
  Definition grow1 (v : list K) (e : ev) : list K := match e with Enter k => k :: v | _ => v end.
  Definition grow (v : list K) (evs : list ev) : list K := fold_left grow1 evs v.
  Definition legal1 (v : list K) (e : ev) : Prop :=
    match e with
    | Enter k => ~ In k v
    | Before k a b => In k v /\ In a (sc k) /\ (b = true <-> In (snd a) v)
    | After k a => In k v /\ In a (sc k) /\ In (snd a) v
    | Leave k => In k v
    end.
  Fixpoint legal (v : list K) (evs : list ev) : Prop :=
    match evs with [] => True | e :: r => legal1 v e /\ legal (grow1 v e) r end.
  Definition entered (x : K) (evs : list ev) : Prop := In (Enter x) evs.
  Definition befores (x : K) (evs : list ev) : list (label * K) :=
    flat_map (fun e => match e with Before k a _ => if keqb x k then [a] else [] | _ => [] end) evs.
  Definition afters (x : K) (evs : list ev) : list (label * K) :=
    flat_map (fun e => match e with After k a => if keqb x k then [a] else [] | _ => [] end) evs.
  Definition leaves (x : K) (evs : list ev) : list unit :=
    flat_map (fun e => match e with Leave k => if keqb x k then [tt] else [] | _ => [] end) evs.
  (** Nodes are entered after they have been met as targets. *)
  Definition meet1 (v : list K) (e : ev) : list K := match e with Before _ a _ => snd a :: v | _ => v end.
  Definition meet (v : list K) (evs : list ev) : list K := fold_left meet1 evs v.
  Fixpoint expected (v : list K) (evs : list ev) : Prop :=
    match evs with
    | [] => True
    | e :: r => match e with Enter k => In k v | _ => True end /\ expected (meet1 v e) r
    end.
  Lemma meet_incl evs : forall v w, incl v w -> incl (meet v evs) (meet w evs).
  Proof.
    induction evs as [|e evs IH]; intros v w H; [exact H|]. apply IH. destruct e; simpl; auto.
    intros x [->|Hx]; [left; reflexivity|right; auto].
  Qed.
  Lemma meet_grows evs : forall v, incl v (meet v evs).
  Proof.
    induction evs as [|e evs IH]; intros v; [apply incl_refl|].
    eapply incl_tran; [|apply IH]. destruct e; simpl; try apply incl_refl. intros x Hx. right. exact Hx.
  Qed.
  Lemma expected_incl evs : forall v w, incl v w -> expected v evs -> expected w evs.
  Proof.
    induction evs as [|e evs IH]; intros v w H; [auto|]. intros [H1 H2]. split.
    - destruct e; auto.
    - eapply IH; [|exact H2]. destruct e; simpl; auto. intros x [->|Hx]; [left; reflexivity|right; auto].
  Qed.
  Lemma expected_app a : forall b v, expected v (a ++ b) <-> expected v a /\ expected (meet v a) b.
  Proof. induction a as [|e a IH]; intros b v; simpl; [tauto|]. rewrite IH. unfold meet. simpl. tauto. Qed.
  Lemma meet_app a b v : meet v (a ++ b) = meet (meet v a) b.
  Proof. apply fold_left_app. Qed.
  Inductive kreach : K -> K -> Prop :=
  | kr_here k : kreach k k
  | kr_step k a x : In a (sc k) -> kreach (snd a) x -> kreach k x.

  Lemma keqb_refl k : keqb k k = true. Proof. apply Hk. reflexivity. Qed.
  Lemma keqb_neq a b : a <> b -> keqb a b = false.
  Proof. intros N. destruct (keqb a b) eqn:E; [apply Hk in E; contradiction|reflexivity]. Qed.
  Lemma k_dec (a b : K) : a = b \/ a <> b.
  Proof. destruct (keqb a b) eqn:E; [left; apply Hk, E|right; intros ->; rewrite keqb_refl in E; discriminate]. Qed.
  Lemma visited_In k vis : visited keqb k vis = true <-> In k vis.
  Proof.
    unfold visited. rewrite existsb_exists. split.
    - intros (x & H & E). apply Hk in E. subst. exact H.
    - intros H. exists k. split; [exact H|apply keqb_refl].
  Qed.
  Lemma in_dec_k k (v : list K) : In k v \/ ~ In k v.
  Proof. destruct (visited keqb k v) eqn:E; [left; apply visited_In, E|right; intros H; apply visited_In in H; congruence]. Qed.

  Lemma acts_app a b s : acts (a ++ b) s = acts b (acts a s).
  Proof. apply fold_left_app. Qed.
  Lemma grow_app a b v : grow v (a ++ b) = grow (grow v a) b.
  Proof. apply fold_left_app. Qed.
  Lemma legal_app a : forall b v, legal v (a ++ b) <-> legal v a /\ legal (grow v a) b.
  Proof. induction a as [|e a IH]; intros b v; simpl; [tauto|]. rewrite IH. unfold grow. simpl. tauto. Qed.
  Lemma grow_In evs : forall v x, In x (grow v evs) <-> In x v \/ entered x evs.
  Proof.
    unfold entered. induction evs as [|e evs IH]; intros v x; [simpl; tauto|].
    change (grow v (e :: evs)) with (grow (grow1 v e) evs). rewrite IH.
    destruct e; simpl; split; intuition (try congruence); subst; auto.
  Qed.
  Lemma legal_entered evs : forall v x, legal v evs -> entered x evs -> ~ In x v.
  Proof.
    unfold entered. induction evs as [|e evs IH]; intros v x; simpl; [tauto|].
    intros [L1 L] [->|H]; [exact L1|].
    specialize (IH _ _ L H). intros C. apply IH. destruct e; simpl; auto.
  Qed.
  Lemma entered_app x a b : entered x (a ++ b) <-> entered x a \/ entered x b.
  Proof. unfold entered. apply in_app_iff. Qed.
  Lemma kreach_trans a b c : kreach a b -> kreach b c -> kreach a c.
  Proof. induction 1; [tauto|]. intros H1. econstructor; eauto. Qed.

  (** Events of a visit started when [vis] had been visited. *)
  Record visit_log (k : K) (vis : list K) (evs : list ev) : Prop := {
    vl_legal : legal vis evs;
    vl_full : forall x, entered x evs -> befores x evs = sc x /\ afters x evs = sc x /\ leaves x evs = [tt];
    vl_none : forall x, ~ entered x evs -> befores x evs = [] /\ afters x evs = [] /\ leaves x evs = [];
    vl_reach : forall x, entered x evs -> kreach k x;
    vl_in : In k (grow vis evs);
    vl_exp : expected [k] evs }.
  (** Events of the traversal of the transitions [l] of [k]. *)
  Record loop_log (k : K) (l : list (label * K)) (vis : list K) (evs : list ev) : Prop := {
    ll_legal : legal vis evs;
    ll_full : forall x, entered x evs -> befores x evs = sc x /\ afters x evs = sc x /\ leaves x evs = [tt];
    ll_none : forall x, ~ entered x evs -> x <> k -> befores x evs = [] /\ afters x evs = [] /\ leaves x evs = [];
    ll_this : befores k evs = l /\ afters k evs = l /\ leaves k evs = [];
    ll_reach : forall x, entered x evs -> kreach k x;
    ll_exp : expected [] evs }.

  Fixpoint vloop (fuel : nat) (k : K) (l : list (label * K)) (st : list K * S) : res (list K * S) :=
    match l with
    | [] => Ok st
    | a :: l' =>
        rbind (visit keqb succ enter leave before after fuel (snd a) (fst st, before k a (visited keqb (snd a) (fst st)) (snd st)))
              (fun st' => vloop fuel k l' (fst st', after k a (snd st')))
    end.
  Lemma visit_eq f k st :
    visit keqb succ enter leave before after (Datatypes.S f) k st =
    if visited keqb k (fst st) then Ok st else
    rbind (vloop f k (succ (enter k (snd st)) k) (k :: fst st, enter k (snd st)))
          (fun st' => Ok (fst st', leave k (snd st'))).
  Proof.
    cbn [visit]. destruct (visited keqb k (fst st)); [reflexivity|]. cbn zeta. f_equal.
    generalize (k :: fst st, enter k (snd st)). generalize (succ (enter k (snd st)) k).
    induction l as [|a l IH]; intros p; [reflexivity|]. cbn [vloop].
    destruct (visit keqb succ enter leave before after f (snd a) _); cbn [rbind]; [apply IH|reflexivity..].
  Qed.

  Variable U : list K.
  Definition cnt (vis : list K) : nat := length (filter (fun k => negb (visited keqb k vis)) U).
  Lemma cnt_le v1 v2 : (forall x, In x v1 -> In x v2) -> cnt v2 <= cnt v1.
  Proof using Hk.
    intros H. unfold cnt. induction U as [|u l IH]; simpl; [lia|].
    destruct (visited keqb u v2) eqn:E2; destruct (visited keqb u v1) eqn:E1; simpl; try lia.
    exfalso. apply Bool.not_true_iff_false in E2. apply E2, visited_In, H, visited_In, E1.
  Qed.
  Lemma cnt_lt k v : In k U -> ~ In k v -> cnt (k :: v) < cnt v.
  Proof using Hk.
    intros HkU N. unfold cnt. revert HkU. induction U as [|u l IH]; [intros []|].
    intros [->|H]; cbn [filter].
    - destruct (visited keqb k (k :: v)) eqn:E1; [|exfalso; apply Bool.not_true_iff_false in E1; apply E1, visited_In; left; reflexivity].
      destruct (visited keqb k v) eqn:E2; [apply visited_In in E2; contradiction|]. cbn [negb length].
      apply Nat.lt_succ_r.
      clear -Hk. induction l as [|u l IH]; [simpl; lia|]. cbn [filter].
      destruct (visited keqb u v) eqn:E2; destruct (visited keqb u (k :: v)) eqn:E1; cbn [negb length]; try lia.
      exfalso. apply visited_In in E2. apply Bool.not_true_iff_false in E1. apply E1, visited_In. right. exact E2.
    - specialize (IH H).
      destruct (visited keqb u v) eqn:E2; destruct (visited keqb u (k :: v)) eqn:E1; cbn [negb length]; try lia.
      exfalso. apply visited_In in E2. apply Bool.not_true_iff_false in E1. apply E1, visited_In. right. exact E2.
  Qed.

  Hypothesis HU : forall k a, In k U -> In a (sc k) -> In (snd a) U.
  Lemma bef_app x a b : befores x (a ++ b) = befores x a ++ befores x b. Proof. apply flat_map_app. Qed.
  Lemma aft_app x a b : afters x (a ++ b) = afters x a ++ afters x b. Proof. apply flat_map_app. Qed.
  Lemma lea_app x a b : leaves x (a ++ b) = leaves x a ++ leaves x b. Proof. apply flat_map_app. Qed.

  Lemma visit_total fuel : forall k vis s, P vis s -> In k U -> cnt vis < fuel ->
    exists evs, visit keqb succ enter leave before after fuel k (vis, s) = Ok (grow vis evs, acts evs s) /\
                P (grow vis evs) (acts evs s) /\ visit_log k vis evs.
  Proof using All.
    induction fuel as [|f IH]; intros k vis s HP HkU Hf; [lia|].
    rewrite visit_eq. cbn [fst snd]. destruct (visited keqb k vis) eqn:Ev.
    { exists []. apply visited_In in Ev. split; [reflexivity|]. split; [exact HP|].
      constructor; simpl; auto; intros x []. }
    assert (Nk : ~ In k vis) by (rewrite <- visited_In; congruence).
    destruct (P_enter _ _ _ HP Nk) as [Es HP1]. rewrite Es.
    assert (Loop : forall l v s0, P v s0 -> In k v -> cnt v < f -> incl l (sc k) ->
      exists evs, vloop f k l (v, s0) = Ok (grow v evs, acts evs s0) /\ P (grow v evs) (acts evs s0) /\ loop_log k l v evs).
    { induction l as [|a l IHl]; intros v s0 HP0 Hkv Hc Hl.
      - exists []. split; [reflexivity|]. split; [exact HP0|]. constructor; simpl; auto; intros x [].
      - cbn [vloop fst snd].
        destruct (IH (snd a) v (before k a (visited keqb (snd a) v) s0)) as (e1 & E1 & HP2 & L1);
          [apply P_before; assumption| |assumption|].
        { apply (HU k); [assumption|apply Hl; left; reflexivity]. }
        rewrite E1. cbn [rbind fst snd].
        destruct (IHl (grow v e1) (after k a (acts e1 (before k a (visited keqb (snd a) v) s0)))) as (e2 & E2 & HP3 & L2).
        { apply P_after; [exact HP2|]. apply grow_In. left. exact Hkv. }
        { apply grow_In. left. exact Hkv. }
        { eapply Nat.le_lt_trans; [|exact Hc]. apply cnt_le. intros x Hx. apply grow_In. left. exact Hx. }
        { intros x Hx. apply Hl. right. exact Hx. }
        rewrite E2.
        set (e := Before k a (visited keqb (snd a) v) :: (e1 ++ After k a :: e2)).
        assert (G : grow v e = grow (grow v e1) e2).
        { unfold e. change (grow v (e1 ++ After k a :: e2) = grow (grow v e1) e2). rewrite grow_app. reflexivity. }
        assert (A : acts e s0 = acts e2 (after k a (acts e1 (before k a (visited keqb (snd a) v) s0)))).
        { unfold e. change (acts (e1 ++ After k a :: e2) (before k a (visited keqb (snd a) v) s0) =
                            acts e2 (after k a (acts e1 (before k a (visited keqb (snd a) v) s0)))).
          rewrite acts_app. reflexivity. }
        exists e. rewrite G, A. split; [reflexivity|]. split; [exact HP3|].
        destruct L1 as [A1 A2 A3 A4 A5 A6]. destruct L2 as [B1 B2 B3 B4 B5 B6].
        assert (Nk1 : ~ entered k e1) by (intros C; apply (legal_entered _ _ _ A1 C); exact Hkv).
        assert (Nk2 : ~ entered k e2).
        { intros C. apply (legal_entered _ _ _ B1 C). apply grow_In. left. exact Hkv. }
        assert (Bx : forall x, befores x e = (if keqb x k then [a] else []) ++ befores x e1 ++ befores x e2).
        { intros x. unfold e. change (befores x (Before k a (visited keqb (snd a) v) :: (e1 ++ After k a :: e2)))
            with ((if keqb x k then [a] else []) ++ befores x (e1 ++ After k a :: e2)). rewrite bef_app. reflexivity. }
        assert (Ax : forall x, afters x e = afters x e1 ++ (if keqb x k then [a] else []) ++ afters x e2).
        { intros x. unfold e. change (afters x (Before k a (visited keqb (snd a) v) :: (e1 ++ After k a :: e2)))
            with (afters x (e1 ++ After k a :: e2)). rewrite aft_app. reflexivity. }
        assert (Lx : forall x, leaves x e = leaves x e1 ++ leaves x e2).
        { intros x. unfold e. change (leaves x (Before k a (visited keqb (snd a) v) :: (e1 ++ After k a :: e2)))
            with (leaves x (e1 ++ After k a :: e2)). rewrite lea_app. reflexivity. }
        assert (Ex : forall x, entered x e <-> entered x e1 \/ entered x e2).
        { intros x. unfold entered, e. cbn [In]. rewrite in_app_iff. cbn [In]. intuition discriminate. }
        assert (Disj : forall x, entered x e1 -> ~ entered x e2).
        { intros x C1 C2. apply (legal_entered _ _ _ B1 C2). apply grow_In. right. exact C1. }
        constructor.
        + unfold e. cbn [legal]. split.
          * cbn [legal1]. split; [exact Hkv|]. split; [apply Hl; left; reflexivity|apply visited_In].
          * cbn [grow1]. apply legal_app. split; [exact A1|]. cbn [legal legal1 grow1].
            split; [|exact B1]. split; [apply grow_In; left; exact Hkv|].
            split; [apply Hl; left; reflexivity|exact A5].
        + intros x Hx. rewrite Bx, Ax, Lx. apply Ex in Hx.
          assert (Nx : x <> k).
          { intros ->. tauto. }
          rewrite (keqb_neq x k Nx). cbn [app].
          destruct Hx as [Hx|Hx].
          * destruct (A2 x Hx) as (Q1 & Q2 & Q3). destruct (B3 x (Disj x Hx) Nx) as (R1 & R2 & R3).
            rewrite Q1, Q2, Q3, R1, R2, R3, !app_nil_r. auto.
          * assert (N1 : ~ entered x e1) by (intros C; exact (Disj x C Hx)).
            destruct (A3 x N1) as (Q1 & Q2 & Q3). destruct (B2 x Hx) as (R1 & R2 & R3).
            rewrite Q1, Q2, Q3, R1, R2, R3. auto.
        + intros x Hx Nx. rewrite Bx, Ax, Lx, (keqb_neq x k Nx). cbn [app].
          assert (N1 : ~ entered x e1) by (intros C; apply Hx, Ex; tauto).
          assert (N2 : ~ entered x e2) by (intros C; apply Hx, Ex; tauto).
          destruct (A3 x N1) as (Q1 & Q2 & Q3). destruct (B3 x N2 Nx) as (R1 & R2 & R3).
          rewrite Q1, Q2, Q3, R1, R2, R3. auto.
        + rewrite Bx, Ax, Lx, keqb_refl. destruct (A3 k Nk1) as (Q1 & Q2 & Q3). destruct B4 as (R1 & R2 & R3).
          rewrite Q1, Q2, Q3, R1, R2, R3. auto.
        + intros x Hx. apply Ex in Hx. destruct Hx as [Hx|Hx]; [|auto].
          econstructor; [|apply A4; exact Hx]. apply Hl. left. reflexivity.
        + unfold e. cbn [expected meet1]. split; [exact I|]. apply expected_app. split; [exact A6|].
          cbn [expected meet1]. split; [exact I|]. eapply expected_incl; [|exact B6]. intros x []. }
    destruct (Loop (sc k) (k :: vis) (enter k s) HP1) as (e & E & HP2 & L).
    { left. reflexivity. }
    { pose proof (cnt_lt k vis HkU Nk). lia. }
    { apply incl_refl. }
    rewrite E. cbn [rbind fst snd].
    set (e' := Enter k :: (e ++ [Leave k])).
    assert (G : grow vis e' = grow (k :: vis) e).
    { unfold e'. change (grow (k :: vis) (e ++ [Leave k]) = grow (k :: vis) e). rewrite grow_app. reflexivity. }
    assert (A : acts e' s = leave k (acts e (enter k s))).
    { unfold e'. change (acts (e ++ [Leave k]) (enter k s) = leave k (acts e (enter k s))). rewrite acts_app. reflexivity. }
    assert (Hkg : In k (grow (k :: vis) e)) by (apply grow_In; left; left; reflexivity).
    exists e'. rewrite G, A. split; [reflexivity|]. split; [apply P_leave; assumption|].
    destruct L as [B1 B2 B3 B4 B5 B6].
    assert (Nke : ~ entered k e) by (intros C; apply (legal_entered _ _ _ B1 C); left; reflexivity).
    assert (Bx : forall x, befores x e' = befores x e).
    { intros x. unfold e'. change (befores x (e ++ [Leave k]) = befores x e). rewrite bef_app. apply app_nil_r. }
    assert (Ax : forall x, afters x e' = afters x e).
    { intros x. unfold e'. change (afters x (e ++ [Leave k]) = afters x e). rewrite aft_app. apply app_nil_r. }
    assert (Lx : forall x, leaves x e' = leaves x e ++ (if keqb x k then [tt] else [])).
    { intros x. unfold e'. change (leaves x (e ++ [Leave k]) = leaves x e ++ (if keqb x k then [tt] else [])).
      rewrite lea_app. f_equal. cbn. apply app_nil_r. }
    assert (Ex : forall x, entered x e' <-> x = k \/ entered x e).
    { intros x. unfold entered, e'. cbn [In]. rewrite in_app_iff. cbn [In]. split.
      - intros [H|[H|[H|[]]]]; [injection H as ->; tauto|tauto|discriminate].
      - intros [->|H]; tauto. }
    constructor.
    + unfold e'. cbn [legal legal1 grow1]. split; [exact Nk|]. apply legal_app. split; [exact B1|].
      cbn [legal legal1]. auto.
    + intros x Hx. apply Ex in Hx. rewrite Bx, Ax, Lx. destruct (k_dec x k) as [->|Nx].
      * rewrite keqb_refl. destruct B4 as (R1 & R2 & R3). rewrite R3. auto.
      * rewrite (keqb_neq _ _ Nx), app_nil_r. apply B2. tauto.
    + intros x Hx. assert (Nx : x <> k) by (intros ->; apply Hx, Ex; tauto).
      assert (N2 : ~ entered x e) by (intros C; apply Hx, Ex; tauto).
      rewrite Bx, Ax, Lx, (keqb_neq _ _ Nx), app_nil_r. apply B3; assumption.
    + intros x Hx. apply Ex in Hx. destruct Hx as [->|Hx]; [constructor|auto].
    + rewrite G. exact Hkg.
    + unfold e'. cbn [expected meet1]. split; [left; reflexivity|]. apply expected_app. split.
      * eapply expected_incl; [|exact B6]. intros x [].
      * cbn [expected]. auto.
  Qed.

  (** A traversal from the beginning enters exactly the reachable nodes. *)
  Lemma log_closed k evs : visit_log k [] evs -> forall x a, entered x evs -> In a (sc x) -> entered (snd a) evs.
  Proof.
    intros L x a Hx Ha. destruct L as [A1 A2 A3 A4 A5 A6].
    destruct (A2 x Hx) as (_ & Q & _). rewrite <- Q in Ha.
    unfold afters in Ha. apply in_flat_map in Ha. destruct Ha as (e & He & Ha).
    destruct e as [| |k' a'|]; try (destruct Ha; fail). destruct (keqb x k') eqn:E; [|destruct Ha].
    destruct Ha as [->|[]]. apply Hk in E. subst k'.
    apply in_split in He. destruct He as (e1 & e2 & ->).
    apply legal_app in A1. destruct A1 as [_ [L1 _]]. cbn [legal1] in L1. destruct L1 as (_ & _ & L1).
    apply grow_In in L1. destruct L1 as [[]|L1]. apply entered_app. left. exact L1.
  Qed.
  Lemma log_root k evs : visit_log k [] evs -> entered k evs.
  Proof. intros L. pose proof (vl_in _ _ _ L) as H. apply grow_In in H. destruct H as [[]|H]. exact H. Qed.
  Lemma log_reach k evs : visit_log k [] evs -> forall x, entered x evs <-> kreach k x.
  Proof.
    intros L x. split; [apply (vl_reach _ _ _ L)|]. intros R. pose proof (log_root _ _ L) as H.
    assert (C : forall y a, entered y evs -> In a (sc y) -> entered (snd a) evs)
      by (intros y a; exact (log_closed k evs L y a)).
    clear L. revert H. induction R as [y|y a z Ha R IH]; intros H; [exact H|]. apply IH, (C y); assumption.
  Qed.
End Dfs.
Arguments Enter {K}. Arguments Before {K}. Arguments After {K}. Arguments Leave {K}.
