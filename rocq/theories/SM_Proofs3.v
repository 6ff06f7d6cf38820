(** Hopcroft's algorithm: the numbering of the nodes, the start and the result. *)
From Verif Require Import Base SF_Spec SF_Model SF_Proofs SF_Proofs2 SF_Proofs3 SF_Proofs5 SF_Proofs7 SF_Proofs8 SM_Model SM_Proofs SM_Proofs2.

Lemma index_acts sc evs : legal sc [] evs ->
  let a := acts index_enter nothing nothing3 nothing2 evs [] in NoDup a /\ (forall x, In x a <-> entered x evs).
Proof.
  induction evs as [|e evs IH] using rev_ind; intros L; cbv zeta.
  - split; [constructor|]. intros x. split; intros [].
  - apply legal_app in L. destruct L as [L1 L2]. cbv zeta in IH. destruct (IH L1) as [N1 E1]. clear IH.
    rewrite acts_app. set (a := acts index_enter nothing nothing3 nothing2 evs []) in *. cbn [acts fold_left].
    destruct e as [k|k b c|k b|k]; cbn [act]; unfold nothing, nothing2, nothing3, index_enter.
    + destruct L2 as [L2 _]. cbn [legal1] in L2. rewrite grow_In in L2. split.
      * apply (NoDup_Add (a := k) (l := a)); [rewrite <- (app_nil_r a) at 1; apply Add_app|]. split; [exact N1|]. rewrite E1. tauto.
      * intros x. rewrite in_app_iff, E1, entered_app. cbn. split; [intros [H|[<-|[]]]; [auto|right; left; reflexivity]|].
        intros [H|[H|[]]]; [auto|]. injection H as <-. auto.
    + split; [exact N1|]. intros x. rewrite E1, entered_app. cbn. split; [auto|]. intros [H|[H|[]]]; [exact H|discriminate].
    + split; [exact N1|]. intros x. rewrite E1, entered_app. cbn. split; [auto|]. intros [H|[H|[]]]; [exact H|discriminate].
    + split; [exact N1|]. intros x. rewrite E1, entered_app. cbn. split; [auto|]. intros [H|[H|[]]]; [exact H|discriminate].
Qed.
Lemma index_grows evs : forall a, exists b, acts index_enter nothing nothing3 nothing2 evs a = a ++ b.
Proof.
  induction evs as [|e evs IH]; intros a; [exists []; symmetry; apply app_nil_r|]. cbn [acts fold_left].
  destruct (IH (act index_enter nothing nothing3 nothing2 a e)) as [b E]. unfold acts in E. rewrite E.
  destruct e; cbn [act]; unfold nothing, nothing2, nothing3, index_enter; [|exists b; reflexivity..].
  rewrite <- app_assoc. eexists. reflexivity.
Qed.
Lemma nodeindexing_result h : graph_ok h -> exists r, nodeindexing h = Ok (0 :: r) /\ NoDup (0 :: r) /\ (forall x, In x (0 :: r) <-> reachable h 0 x).
Proof.
  intros G. unfold nodeindexing.
  destruct (copy_visit h G index_enter nothing nothing3 nothing2 []) as (evs & E & L). rewrite E. cbn [rmap snd].
  destruct (index_acts _ evs (vl_legal _ _ _ _ _ L)) as [N1 E1].
  assert (Hd : exists r, acts index_enter nothing nothing3 nothing2 evs [] = 0 :: r).
  { destruct evs as [|e evs]; [destruct (log_root _ _ _ _ L)|].
    pose proof (vl_legal _ _ _ _ _ L) as [Lg _]. pose proof (vl_exp _ _ _ _ _ L) as [Lx _].
    destruct e as [k|k b c|k b|k]; cbn [legal1] in Lg; [|destruct Lg as [[] _]..|destruct Lg].
    destruct Lx as [<-|[]]. cbn [acts fold_left act]. destruct (index_grows evs [0]) as [b Eb]. unfold acts in Eb.
    unfold index_enter at 2. cbn [app]. rewrite Eb. exists b. reflexivity. }
  destruct Hd as [r Er]. rewrite Er in *. exists r. split; [reflexivity|]. split; [exact N1|].
  intros x. rewrite E1, (log_reach Nat.eqb Nat.eqb_eq _ 0 evs L). apply kreach_reachable.
Qed.

Lemma position_nth x arr i : position x arr = Some i -> i < length arr /\ nth i arr 0 = x.
Proof.
  revert i. induction arr as [|y r IH]; intros i; cbn [position]; [discriminate|]. destruct (Nat.eqb_spec y x) as [->|N].
  - intros H. injection H as <-. cbn. split; [lia|reflexivity].
  - destruct (position x r) as [j|]; [|discriminate]. cbn. intros H. injection H as <-. destruct (IH j eq_refl). cbn. split; [lia|assumption].
Qed.
Lemma nth_position arr i : NoDup arr -> i < length arr -> position (nth i arr 0) arr = Some i.
Proof.
  revert i. induction arr as [|y r IH]; intros i ND Hi; cbn in Hi; [lia|]. inversion ND as [|? ? N1 N2]; subst. cbn [position]. destruct i as [|i].
  - cbn [nth]. rewrite Nat.eqb_refl. reflexivity.
  - cbn [nth]. destruct (Nat.eqb_spec y (nth i r 0)) as [E|N].
    + exfalso. apply N1. rewrite E. apply nth_In. lia.
    + rewrite IH by (auto; lia). reflexivity.
Qed.
Lemma position_In x arr : In x arr -> exists i, position x arr = Some i.
Proof.
  induction arr as [|y r IH]; intros H; [destruct H|]. cbn [position]. destruct (Nat.eqb_spec y x); [eauto|].
  destruct IH as [i E]; [destruct H; [congruence|assumption]|]. rewrite E. cbn. eauto.
Qed.

Lemma nth_repeat_nil {A} (n t : nat) : nth t (repeat (@nil A) n) [] = [].
Proof. revert t. induction n as [|n IH]; intros [|t]; cbn; auto. Qed.

Section Start.
  Variables (h : list node) (arr : list nat).
  Hypothesis G : graph_ok h.
  Hypothesis D : deterministic h.
  Hypothesis ND : NoDup arr.
  Hypothesis HA : forall x, In x arr <-> reachable h 0 x.
  Let N := length arr.
  Definition nd (s : nat) : node := node_at h (nth s arr 0).
  Definition fst_grp (s : nat) : nat := if final (nd s) then 0 else 1.
  Definition dl (s : nat) (a : label) : option nat :=
    match target_node (nd s) a with Some x => position x arr | None => None end.
  Lemma nd_reach s : s < N -> reachable h 0 (nth s arr 0).
  Proof using HA. intros H. apply HA, nth_In, H. Qed.
  Lemma nd_out s : s < N -> out (nd s) = arcs (nd s) /\ NoDup (map fst (arcs (nd s))) /\ (forall t, ~ In ((0, 0), t) (arcs (nd s))).
  Proof using G D HA. intros H. destruct (det_out h _ G D (nd_reach s H)) as (H1 & H2 & H3). auto. Qed.
  Lemma nd_target s a : s < N -> In a (out (nd s)) -> exists t, position (snd a) arr = Some t.
  Proof using HA. intros H Hi. apply position_In, HA. destruct a as [l x]. exact (reachable_next h _ l x (nd_reach s H) Hi). Qed.
  Lemma dl_out s a t : s < N -> (dl s a = Some t <-> t < N /\ In (a, nth t arr 0) (out (nd s))).
  Proof using G D ND HA.
    intros H. destruct (nd_out s H) as (E & N1 & _). rewrite E. unfold dl. split.
    - destruct (target_node (nd s) a) as [x|] eqn:Et; [|discriminate]. intros P. apply position_nth in P. destruct P as [P1 <-].
      split; [exact P1|]. apply target_node_In, Et.
    - intros [Lt Hi]. rewrite (In_target_node _ _ _ N1 Hi). apply nth_position; assumption.
  Qed.
  Lemma dl_lt s a t : s < N -> dl s a = Some t -> t < N.
  Proof using G D ND HA. intros H E. apply (dl_out s a t H) in E. tauto. Qed.

  Definition into (s t : nat) (l : list (label * nat)) : list (nat * label) :=
    map (fun a => (s, fst a)) (filter (fun a => snd a =? nth t arr 0) l).
  Lemma In_into s t l x a : In (x, a) (into s t l) <-> x = s /\ In (a, nth t arr 0) l.
  Proof.
    unfold into. rewrite in_map_iff. split.
    - intros ([l' y] & E & Hi). cbn [fst] in E. injection E as <- <-. apply filter_In in Hi. destruct Hi as [Hi E]. cbn [snd] in E.
      apply Nat.eqb_eq in E. subst. auto.
    - intros [-> Hi]. exists (a, nth t arr 0). split; [reflexivity|]. apply filter_In. split; [exact Hi|]. cbn [snd]. apply Nat.eqb_refl.
  Qed.
  Lemma NoDup_into s t l : NoDup (map fst l) -> NoDup (into s t l).
  Proof.
    unfold into. induction l as [|[a x] l IH]; intros H; [constructor|]. cbn [map] in H. inversion H as [|? ? N1 N2]; subst. cbn [filter].
    destruct (snd (a, x) =? nth t arr 0); [|exact (IH N2)]. cbn [map fst]. constructor; [|exact (IH N2)].
    intros C. apply in_map_iff in C. destruct C as ([a' x'] & E & Hi). cbn [fst] in E. injection E as ->. apply filter_In in Hi.
    apply N1, in_map_iff. exists (a, x'). tauto.
  Qed.
  Lemma add_all s l : forall inc, length inc = N -> (forall a, In a l -> exists t, position (snd a) arr = Some t) ->
    exists inc', fold_left (fun inc a => add_transition h arr s a inc) l (Ok inc) = Ok inc' /\ length inc' = N /\
      forall t, t < N -> nth t inc' [] = rev (into s t l) ++ nth t inc [].
  Proof using ND.
    induction l as [|a l IH]; intros inc Li H.
    - exists inc. split; [reflexivity|]. split; [exact Li|]. intros t _. reflexivity.
    - destruct (H a (or_introl eq_refl)) as [t Et]. cbn [fold_left]. unfold add_transition at 2. cbn [rbind]. rewrite Et.
      apply position_nth in Et. destruct Et as [Lt Nt].
      destruct (IH (update t (cons (s, fst a)) inc)) as (inc' & E & L' & F).
      + rewrite update_length. exact Li.
      + intros b Hb. apply H. right. exact Hb.
      + exists inc'. split; [exact E|]. split; [exact L'|]. intros t' Lt'. rewrite (F t' Lt').
        rewrite nth_update by (rewrite Li; exact Lt). unfold into. cbn [filter]. destruct (Nat.eqb_spec t' t) as [->|Nt'].
        * rewrite Nt, Nat.eqb_refl. cbn [map rev]. rewrite <- app_assoc. reflexivity.
        * destruct (Nat.eqb_spec (snd a) (nth t' arr 0)) as [C|]; [|reflexivity]. exfalso. apply Nt'.
          apply (proj1 (NoDup_nth arr 0) ND t' t Lt' Lt). congruence.
  Qed.

  Record started (k : nat) (st : mstate) (inc : list (list (nat * label))) : Prop := {
    so_groups : length (groups st) = 2;
    so_gof : length (group_of st) = N;
    so_ag : agenda st = [];
    so_news : forall g, news (group_at st g) = [];
    so_mem : forall g s, In s (members (group_at st g)) <-> s < k /\ fst_grp s = g;
    so_nd : forall g, NoDup (members (group_at st g));
    so_val : forall s, s < k -> gof st s = fst_grp s;
    so_inc : length inc = N;
    so_in : forall t s a, t < N -> (In (s, a) (nth t inc []) <-> s < k /\ In (a, nth t arr 0) (out (nd s)));
    so_ind : forall t, t < N -> NoDup (nth t inc []) }.
  Lemma started_step k st inc : k < N -> started k st inc -> exists st' inc',
    add_source h arr k (st, Ok inc) = (st', Ok inc') /\ started (S k) st' inc'.
  Proof using G D ND HA.
    intros Hk [A1 A2 A3 A4 A5 A6 A7 A8 A9 A10]. unfold add_source. cbn [fst snd]. fold (nd k).
    destruct (add_all k (out (nd k)) inc A8 (fun a Ha => nd_target k a Hk Ha)) as (inc' & E & L' & F). rewrite E.
    eexists _, _. split; [reflexivity|]. fold (fst_grp k). unfold add_state.
    assert (Lg : fst_grp k < length (groups st)) by (rewrite A1; unfold fst_grp; destruct (final _); lia).
    assert (Gat : forall g, group_at (MState (update (fst_grp k) (fun d => Group (link_state_in k (members d)) (news d)) (groups st))
                   (update k (fun _ => fst_grp k) (group_of st)) (agenda st)) g =
                 if g =? fst_grp k then Group (link_state_in k (members (group_at st (fst_grp k)))) (news (group_at st (fst_grp k))) else group_at st g).
    { intros g. unfold group_at. cbn [groups]. rewrite nth_update by exact Lg. reflexivity. }
    constructor.
    - cbn [groups]. rewrite update_length. exact A1.
    - cbn [group_of]. rewrite update_length. exact A2.
    - exact A3.
    - intros g. rewrite Gat. destruct (g =? fst_grp k); [cbn [news]|]; apply A4.
    - intros g s. rewrite Gat. destruct (Nat.eqb_spec g (fst_grp k)) as [->|Ng].
      + cbn [members]. rewrite In_link_in, A5. split.
        * intros [->|[H1 H2]]; [split; [lia|reflexivity]|split; [lia|exact H2]].
        * intros [H1 H2]. destruct (Nat.eq_dec s k); [auto|]. right. split; [lia|exact H2].
      + rewrite A5. split; [intros [H1 H2]; split; [lia|exact H2]|]. intros [H1 H2]. destruct (Nat.eq_dec s k); [congruence|]. split; [lia|exact H2].
    - intros g. rewrite Gat. destruct (Nat.eqb_spec g (fst_grp k)) as [->|Ng]; [|apply A6]. cbn [members]. apply NoDup_link_in; [apply A6|].
      rewrite A5. lia.
    - intros s Hs. cbn [group_of]. rewrite nth_update by (rewrite A2; exact Hk). destruct (Nat.eqb_spec s k) as [->|]; [reflexivity|]. apply A7. lia.
    - exact L'.
    - intros t s a Ht. rewrite (F t Ht), in_app_iff, <- in_rev, In_into, A9 by exact Ht. split.
      + intros [[-> H]|[H1 H2]]; [split; [lia|exact H]|split; [lia|exact H2]].
      + intros [H1 H2]. destruct (Nat.eq_dec s k) as [->|]; [auto|]. right. split; [lia|exact H2].
    - intros t Ht. rewrite (F t Ht).
      assert (App : forall (A : Type) (x y : list A), NoDup x -> NoDup y -> (forall z, In z x -> ~ In z y) -> NoDup (x ++ y)).
      { clear. induction x as [|z x IH]; intros y Hx Hy D; [exact Hy|]. inversion Hx; subst. cbn. constructor.
        - rewrite in_app_iff. intros [C|C]; [contradiction|]. exact (D z (or_introl eq_refl) C).
        - apply IH; auto. intros w Hw. apply D. right. exact Hw. }
      apply App.
      + apply NoDup_rev, NoDup_into. destruct (nd_out k Hk) as (-> & H & _). exact H.
      + apply A10, Ht.
      + intros [s a] H1 H2. rewrite <- in_rev in H1. apply In_into in H1. apply (A9 t s a Ht) in H2. lia.
  Qed.
  Lemma minimiser_started : exists st inc, minimiser h arr = (st, Ok inc) /\ started N st inc.
  Proof using G D ND HA.
    unfold minimiser. fold N.
    assert (Gen : forall k, k <= N -> exists st inc, fold_left (fun b s => add_source h arr s b) (seq 0 k)
              (MState [Group [] []; Group [] []] (repeat 0 N) [], Ok (repeat [] N)) = (st, Ok inc) /\ started k st inc).
    { induction k as [|k IH]; intros Hk.
      - eexists _, _. split; [reflexivity|].
        assert (GA : forall g, group_at (MState [Group [] []; Group [] []] (repeat 0 N) []) g = Group [] []) by (intros [|[|[|g]]]; reflexivity).
        assert (RI : forall t, nth t (repeat (@nil (nat * label)) N) [] = []) by (intros t; apply nth_repeat_nil).
        constructor; cbn [groups group_of agenda]; auto.
        + apply repeat_length.
        + intros g. rewrite GA. reflexivity.
        + intros g s. rewrite GA. cbn. split; [intros []|lia].
        + intros g. rewrite GA. constructor.
        + intros s Hs. lia.
        + apply repeat_length.
        + intros t s a _. rewrite RI. cbn. split; [intros []|lia].
        + intros t _. rewrite RI. constructor.
      - destruct (IH ltac:(lia)) as (st & inc & E & SO). rewrite seq_S, fold_left_app, E. cbn [fold_left plus].
        apply started_step; [lia|exact SO]. }
    exact (Gen N (Nat.le_refl N)).
  Qed.
  Lemma fst_grp_cases s : fst_grp s = 0 \/ fst_grp s = 1.
  Proof. unfold fst_grp. destruct (final (nd s)); auto. Qed.
End Start.
