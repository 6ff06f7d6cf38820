(** Lemmas behind An_Props: topological sort and path lengths. *)
From Verif Require Import Base Flags_Model BT_Model BT_Spec BT_Proofs BT_Proofs3 An_Model An_Spec An_Proofs.

Lemma nth_grow d k l : nth k (grow_to d l) [] = nth k l [].
Proof.
  unfold grow_to. destruct (Nat.lt_ge_cases k (length l)) as [H|H]; [apply app_nth1; exact H|].
  rewrite app_nth2, (nth_overflow l) by exact H. apply nth_repeat.
Qed.
Lemma length_grow d l : length (grow_to d l) = Nat.max (S d) (length l).
Proof. unfold grow_to. rewrite app_length, repeat_length. lia. Qed.

Section G.
  Variable g : graph.
  Hypothesis G : structure_ok g.
  Let n := length (sts g).

  Definition level (d x : nat) : Prop := exists r, path g 0 r x /\ length r = d.
  Lemma n_pos : 0 < n.
  Proof. destruct G as [N _]. unfold n. destruct (sts g); [congruence|simpl; lia]. Qed.
  Lemma level_bound d x : level d x -> x < n.
  Proof. intros (r & P & _). exact (path_bound g 0 r x G n_pos P). Qed.
  Lemma level_0 x : level 0 x <-> x = 0.
  Proof.
    split.
    - intros (r & P & L). destruct r; [inversion P; reflexivity|discriminate].
    - intros ->. exists []. split; [constructor|reflexivity].
  Qed.
  Lemma level_S d x : level (S d) x <-> exists s a, level d s /\ In a (nth s (sts g) []) /\ tgt a = x.
  Proof.
    split.
    - intros (r & P & L). destruct (exists_last (l := r)) as (r' & a & ->); [destruct r; [discriminate|discriminate]|].
      rewrite app_length in L. simpl in L. pose proof (path_last _ _ _ _ _ P) as ->. apply path_app_inv in P. destruct P as (u & P1 & P2). inversion P2 as [|? ? ? ? Ha P']; subst.
      exists u, a. split; [exists r'; split; [exact P1|lia]|]. auto.
    - intros (s & a & (r & P & L) & Ha & <-). exists (r ++ [a]). split; [eapply path_app; [exact P|constructor; [exact Ha|constructor]]|]. rewrite app_length. simpl. lia.
  Qed.
  Lemma level_pred d x : level (S d) x -> exists y, level d y.
  Proof. rewrite level_S. intros (s & a & H & _). exists s. exact H. Qed.
  Lemma level_down d : forall j x, level (d + j) x -> exists y, level d y.
  Proof.
    induction j as [|j IH]; intros x H; [rewrite Nat.add_0_r in H; exists x; exact H|]. rewrite Nat.add_succ_r in H. apply level_pred in H. destruct H as [y H]. exact (IH y H).
  Qed.

  Lemma add_targets : forall l acc x, In x (fold_left (fun acc a => sadd Nat.compare (tgt a) acc) l acc) <-> In x acc \/ exists a, In a l /\ tgt a = x.
  Proof.
    induction l as [|a l IH]; intros acc x; simpl; [split; [auto|intros [H|(a & [] & _)]; exact H]|]. rewrite IH, in_sadd. split.
    - intros [[->|H]|(b & Hb & Eb)]; [right; exists a; auto|auto|right; exists b; auto].
    - intros [H|(b & [->|Hb] & Eb)]; [auto|auto|right; exists b; auto].
  Qed.
  Lemma all_targets_spec states : (forall s, In s states -> s < n) ->
    exists new, all_targets g states = Ok new /\ forall x, In x new <-> exists s a, In s states /\ In a (nth s (sts g) []) /\ tgt a = x.
  Proof.
    intros H. unfold all_targets.
    assert (K : forall l acc, (forall s, In s l -> s < n) -> exists new,
      fold_left (fun r s => rbind r (fun acc => rmap (fun l => fold_left (fun acc a => sadd Nat.compare (tgt a) acc) l acc) (at_state g s))) l (Ok acc) = Ok new /\
      forall x, In x new <-> In x acc \/ exists s a, In s l /\ In a (nth s (sts g) []) /\ tgt a = x).
    { induction l as [|s l IH]; intros acc Hl; cbn [fold_left]; [exists acc; split; [reflexivity|]; intros x; split; [auto|intros [K|(s & a & [] & _)]; exact K]|].
      cbn [rbind]. unfold at_state at 2. rewrite transitions_ok by (apply Hl; left; reflexivity). cbn [rmap].
      destruct (IH (fold_left (fun acc a => sadd Nat.compare (tgt a) acc) (nth s (sts g) []) acc)) as (new & E & S); [intros y Hy; apply Hl; right; exact Hy|].
      exists new. split; [exact E|]. intros x. rewrite S, add_targets. split.
      - intros [[K|(a & Ha & Ea)]|(s' & a & Hs & Ha & Ea)]; [auto|right; exists s, a; simpl; auto|right; exists s', a; simpl; auto].
      - intros [K|(s' & a & [<-|Hs] & Ha & Ea)]; [auto|left; right; exists a; auto|right; exists s', a; auto]. }
    destruct (K states [] H) as (new & E & S). exists new. split; [exact E|]. intros x. rewrite S. simpl. tauto.
  Qed.

  (** The tables represent the relation R (distance, state). *)
  Definition table (ov : bool) (R : nat -> nat -> Prop) (ts : topsort_state) : Prop :=
    length (distance_of_state ts) = n /\
    (forall k x, In x (nth k (states_at_distance ts) []) <-> R k x /\ (ov = true -> forall j, k < j -> ~ R j x)) /\
    (forall x, x < n -> match nth x (distance_of_state ts) None with
                        | Some k => R k x /\ forall j, k < j -> ~ R j x
                        | None => forall j, ~ R j x end).
  Lemma set_state_spec ov R d x0 ts : table ov R ts -> (forall k x, R k x -> k <= d) -> x0 < n ->
    exists ts', set_state_at_distance x0 d ov ts = Ok ts' /\ table ov (fun k x => R k x \/ (k = d /\ x = x0)) ts'.
  Proof.
    intros (TL & TS & TD) B Hx0. unfold set_state_at_distance. rewrite (nth_error_nth' _ None) by (rewrite TL; exact Hx0). pose proof (TD x0 Hx0) as P0.
    set (sets := grow_to d (states_at_distance ts)). set (prev := nth x0 (distance_of_state ts) None) in *.
    set (sets1 := match prev with Some p => if negb (p =? d) && ov then upd p (sdel Nat.compare x0 (nth p sets [])) sets else sets | None => sets end).
    eexists. split; [reflexivity|].
    assert (L : d < length sets1).
    { assert (L0 : d < length sets) by (unfold sets; rewrite length_grow; lia). unfold sets1. destruct prev as [p|]; [|exact L0]. destruct (negb (p =? d) && ov); [rewrite upd_length|]; exact L0. }
    assert (S1 : forall k x, In x (nth k sets1 []) <-> (R k x /\ (ov = true -> forall j, k < j -> ~ R j x)) /\ ~ (ov = true /\ x = x0 /\ k <> d)).
    { intros k x. rewrite <- TS. rewrite <- (nth_grow d k (states_at_distance ts)). fold sets. unfold sets1.
      destruct prev as [p|]; [|split; [|tauto]; intros Hx; split; [exact Hx|]; intros (_ & -> & _); unfold sets in Hx; rewrite nth_grow in Hx; apply TS in Hx; destruct Hx as [Hx _]; exact (P0 _ Hx)].
      destruct (negb (p =? d) && ov) eqn:E.
      - apply andb_true_iff in E. destruct E as [E ->]. apply negb_true_iff, Nat.eqb_neq in E.
        destruct (Nat.eq_dec k p) as [->|Nk].
        + assert (Lp : p < length sets).
          { pose proof (B _ _ (proj1 P0)). unfold sets. rewrite length_grow. lia. }
          rewrite nth_upd_same by exact Lp. rewrite in_sdel. split; [intros [N H]; split; [exact H|intros (_ & K & _); contradiction]|].
          intros [H N]. split; [|exact H]. intros ->. apply N. auto.
        + rewrite nth_upd_other by exact Nk. split; [|tauto]. intros Hx. split; [exact Hx|]. intros (_ & -> & Nd). unfold sets in Hx. rewrite nth_grow in Hx. apply TS in Hx. destruct Hx as [H1 H2].
          specialize (H2 eq_refl). destruct P0 as [P1 P2]. destruct (Nat.lt_trichotomy k p) as [K|[K|K]]; [exact (H2 p K P1)|congruence|exact (P2 k K H1)].
      - split; [|tauto]. intros Hx. split; [exact Hx|]. intros (-> & -> & Nd). rewrite andb_true_r in E. apply negb_false_iff, Nat.eqb_eq in E. subst p.
        unfold sets in Hx. rewrite nth_grow in Hx. apply TS in Hx. destruct Hx as [H1 H2]. specialize (H2 eq_refl). pose proof (B _ _ H1) as K. apply (H2 d); [lia|apply P0]. }
    split; [cbn [distance_of_state]; rewrite upd_length; exact TL|]. split.
    - intros k x. cbn [states_at_distance]. destruct (Nat.eq_dec k d) as [->|Nk].
      + rewrite nth_upd_same by exact L. rewrite in_sadd, S1. split.
        * intros [->|[[H1 H2] H3]]; (split; [auto|]); intros Eo j Hj [K|[K _]]; try (apply B in K; lia); lia.
        * intros [[H|[_ ->]] H2]; [|auto]. right. split; [split; [exact H|]|tauto]. intros Eo j Hj K. exact (H2 Eo j Hj (or_introl K)).
      + rewrite nth_upd_other by exact Nk. rewrite S1. split.
        * intros [[H1 H2] H3]. split; [auto|]. intros Eo j Hj [K|[-> ->]]; [exact (H2 Eo j Hj K)|]. apply H3. auto.
        * intros [[H1|[K _]] H2]; [|contradiction]. split; [split; [exact H1|]; intros Eo j Hj K; exact (H2 Eo j Hj (or_introl K))|].
          intros (Eo & -> & _). apply (H2 Eo d); [pose proof (B _ _ H1); lia|auto].
    - intros x Hx. cbn [distance_of_state]. destruct (Nat.eq_dec x x0) as [->|Nx].
      + rewrite nth_upd_same by (rewrite TL; exact Hx). split; [auto|]. intros j Hj [K|[K _]]; [apply B in K|]; lia.
      + rewrite nth_upd_other by exact Nx. specialize (TD x Hx). destruct (nth x (distance_of_state ts) None) as [k|].
        * destruct TD as [T1 T2]. split; [auto|]. intros j Hj [K|[_ K]]; [exact (T2 j Hj K)|contradiction].
        * intros j [K|[_ K]]; [exact (TD j K)|contradiction].
  Qed.
  Lemma table_ext ov R R' ts : (forall k x, R k x <-> R' k x) -> table ov R ts -> table ov R' ts.
  Proof.
    intros E (T1 & T2 & T3). split; [exact T1|]. split.
    - intros k x. rewrite T2, E. split; intros [H1 H2]; (split; [exact H1|]); intros Eo j Hj K; apply (H2 Eo j Hj), E; exact K.
    - intros x Hx. specialize (T3 x Hx). destruct (nth x (distance_of_state ts) None) as [k|].
      + destruct T3 as [K1 K2]. split; [apply E; exact K1|]. intros j Hj K. apply (K2 j Hj), E. exact K.
      + intros j K. apply (T3 j), E. exact K.
  Qed.
  Lemma set_states_spec ov d : forall new R ts, table ov R ts -> (forall k x, R k x -> k <= d) -> (forall x, In x new -> x < n) ->
    exists ts', fold_left (fun r s => rbind r (set_state_at_distance s d ov)) new (Ok ts) = Ok ts' /\ table ov (fun k x => R k x \/ (k = d /\ In x new)) ts'.
  Proof.
    induction new as [|x0 new IH]; intros R ts T B H; cbn [fold_left rbind]; [exists ts; split; [reflexivity|]; eapply table_ext; [|exact T]; intros k x; simpl; tauto|].
    destruct (set_state_spec ov R d x0 ts T B (H x0 (or_introl eq_refl))) as (ts1 & E1 & T1). rewrite E1.
    destruct (IH _ ts1 T1) as (ts2 & E2 & T2).
    - intros k x [K|[-> _]]; [exact (B k x K)|lia].
    - intros x Hx. apply H. right. exact Hx.
    - exists ts2. split; [exact E2|]. eapply table_ext; [|exact T2]. intros k x. simpl. split; [intros [[K|[K1 K2]]|[K1 K2]]; auto|intros [K|[K1 [K2|K2]]]; auto].
  Qed.

  Lemma table_grow ov R d ts : table ov R ts -> table ov R (TopSort (distance_of_state ts) (grow_to d (states_at_distance ts))).
  Proof.
    intros (T1 & T2 & T3). split; [exact T1|]. split; [|exact T3]. intros k x. cbn [states_at_distance]. rewrite nth_grow. apply T2.
  Qed.
  Definition upto (d k x : nat) : Prop := k <= d /\ level k x.
  Lemma round_spec ov d ts : table ov (upto d) ts ->
    exists new ts', all_targets g (nth d (grow_to d (states_at_distance ts)) []) = Ok new /\ (forall x, In x new <-> level (S d) x) /\
      fold_left (fun r s => rbind r (set_state_at_distance s (d + 1) ov)) new (Ok (TopSort (distance_of_state ts) (grow_to d (states_at_distance ts)))) = Ok ts' /\
      table ov (upto (S d)) ts'.
  Proof.
    intros T. pose proof T as (_ & T2 & _).
    assert (L : forall x, In x (nth d (grow_to d (states_at_distance ts)) []) <-> level d x).
    { intros x. rewrite nth_grow, T2. unfold upto. split; [tauto|]. intros H. split; [auto|]. intros _ j Hj [K _]. lia. }
    destruct (all_targets_spec (nth d (grow_to d (states_at_distance ts)) [])) as (new & E & Sp); [intros s Hs; apply L in Hs; exact (level_bound _ _ Hs)|].
    assert (SN : forall x, In x new <-> level (S d) x).
    { intros x. rewrite Sp, level_S. split; intros (s & a & Hs & K); exists s, a; (split; [apply L; exact Hs|exact K]). }
    destruct (set_states_spec ov (d + 1) new (upto d) _ (table_grow ov _ d ts T)) as (ts' & E' & T').
    - intros k x [K _]. lia.
    - intros x Hx. apply SN in Hx. exact (level_bound _ _ Hx).
    - exists new, ts'. split; [exact E|]. split; [exact SN|]. split; [exact E'|]. eapply table_ext; [|exact T']. intros k x. cbv beta. rewrite SN. unfold upto. split.
      + intros [[K1 K2]|[-> K]]; [split; [lia|exact K2]|]. rewrite Nat.add_1_r. split; [lia|exact K].
      + intros [K1 K2]. destruct (Nat.eq_dec k (S d)) as [->|N]; [right; split; [lia|exact K2]|left; split; [lia|exact K2]].
  Qed.

  Definition sorted_by (ov : bool) (sets : list (list nat)) : Prop :=
    forall k x, In x (nth k sets []) <-> level k x /\ (ov = true -> forall j, k < j -> ~ level j x).
  Lemma topsort_loop_spec ov : (forall k x, level k x -> k < n) -> forall fuel d ts, table ov (upto d) ts -> (exists x, level d x) -> n < fuel + d ->
    exists sets, topsort_loop fuel g ov d ts = Ok sets /\ sorted_by ov sets.
  Proof.
    intros HB. induction fuel as [|fuel IH]; intros d ts T [x0 Hx0] Hf; [apply HB in Hx0; lia|].
    cbn [topsort_loop]. destruct (round_spec ov d ts T) as (new & ts' & E1 & S & E2 & T'). rewrite E1. cbn [rbind]. rewrite E2. cbn [rbind]. destruct new as [|y new].
    - exists (states_at_distance ts'). split; [reflexivity|].
      assert (U : forall k x, upto (Datatypes.S d) k x <-> level k x).
      { intros k x. unfold upto. split; [tauto|]. intros H. split; [|exact H]. destruct (Nat.le_gt_cases k (Datatypes.S d)) as [|K]; [assumption|exfalso].
        replace k with (Datatypes.S d + (k - Datatypes.S d)) in H by lia. apply level_down in H. destruct H as [z Hz]. exact (proj2 (S z) Hz). }
      destruct (table_ext _ _ _ _ U T') as (_ & K & _). exact K.
    - rewrite Nat.add_1_r. apply IH; [exact T'|exists y; apply S; left; reflexivity|lia].
  Qed.
  Lemma topsort_loop_diverges ov : (forall k, exists x, level k x) -> forall fuel d ts, table ov (upto d) ts -> topsort_loop fuel g ov d ts = Diverge.
  Proof.
    intros HA. induction fuel as [|fuel IH]; intros d ts T; [reflexivity|].
    cbn [topsort_loop]. destruct (round_spec ov d ts T) as (new & ts' & E1 & S & E2 & T'). rewrite E1. cbn [rbind]. rewrite E2. cbn [rbind]. destruct new as [|y new].
    - exfalso. destruct (HA (Datatypes.S d)) as [x Hx]. apply S in Hx. destruct Hx.
    - rewrite Nat.add_1_r. apply IH. exact T'.
  Qed.
  Lemma initial_table ov : exists ts, set_state_at_distance 0 0 ov (TopSort (repeat None n) []) = Ok ts /\ table ov (upto 0) ts.
  Proof.
    destruct (set_state_spec ov (fun _ _ => False) 0 0 (TopSort (repeat None n) [])) as (ts & E & T).
    - split; [apply repeat_length|]. split; [intros k x; cbn [states_at_distance]; destruct k; simpl; tauto|]. intros x Hx. cbn [distance_of_state]. rewrite nth_repeat. tauto.
    - intros k x [].
    - exact n_pos.
    - exists ts. split; [exact E|]. eapply table_ext; [|exact T]. intros k x. unfold upto. rewrite Nat.le_0_r. split.
      + intros [[]|[-> ->]]. split; [reflexivity|]. apply level_0. reflexivity.
      + intros [-> H]. apply level_0 in H. auto.
  Qed.
  Lemma topsort_unfold fuel ov : topsort fuel g ov = rbind (set_state_at_distance 0 0 ov (TopSort (repeat None n) [])) (topsort_loop fuel g ov 0).
  Proof. unfold topsort. fold n. pose proof n_pos as K. unfold n in K. destruct (sts g) eqn:E; [simpl in K; lia|reflexivity]. Qed.

  Lemma path_states_bound r s t : s < n -> path g s r t -> forall x, In x (map tgt r) -> x < n.
  Proof.
    intros Hs P. induction P as [|s a r t Ha P IH]; intros x Hx; [destruct Hx|]. assert (K : tgt a < n) by exact (proj1 (proj2 G) s a Ha). destruct Hx as [<-|Hx]; [exact K|exact (IH K x Hx)].
  Qed.
  Lemma acyclic_level : acyclic g -> forall k x, level k x -> k < n.
  Proof.
    intros A k x (r & P & <-).
    assert (ND : NoDup (0 :: map tgt r)).
    { destruct (ListDec.NoDup_dec Nat.eq_dec (0 :: map tgt r)) as [D|D]; [exact D|exfalso]. apply not_NoDup_split in D. destruct D as (y & l1 & l2 & l3 & E). destruct l1 as [|z l1]; cbn [app] in E.
      - injection E as <- E. apply map_eq_app in E. destruct E as (r2 & q & -> & _ & E). destruct q as [|b q]; [discriminate|]. injection E as Eb _.
        apply path_split in P. destruct P as [P _]. rewrite Eb in P. pose proof (A [] 0 (r2 ++ [b]) (path_nil _ _) P) as K. destruct r2; discriminate.
      - injection E as <- E. apply map_eq_app3 in E. destruct E as (r1 & a & r2 & b & r3 & -> & Ea & Eb).
        apply path_split in P. destruct P as [P1 P2]. apply path_split in P2. destruct P2 as [P2 _]. rewrite Eb, <- Ea in P2.
        pose proof (A _ _ _ P1 P2) as K. destruct r2; discriminate. }
    pose proof (incl_bound _ n ND) as K. cbn [length] in K. rewrite map_length in K. apply K. intros x0 [<-|Hx]; [exact n_pos|]. exact (path_states_bound r 0 x n_pos P x0 Hx).
  Qed.
  Lemma cyclic_levels r s c : path g 0 r s -> path g s c s -> c <> [] -> forall k, exists x, level k x.
  Proof.
    intros P C N k.
    assert (K : forall m, exists q, path g 0 q s /\ m <= length q).
    { induction m as [|m [q [Q1 Q2]]]; [exists r; split; [exact P|lia]|]. exists (q ++ c). split; [eapply path_app; eassumption|]. rewrite app_length. destruct c; [congruence|]. simpl. lia. }
    destruct (K k) as (q & Q1 & Q2). 
    apply (level_down k (length q - k) s). exists q. split; [exact Q1|]. lia.
  Qed.
  Theorem topsort_spec ov fuel : acyclic g -> n < fuel -> exists sets, topsort fuel g ov = Ok sets /\ sorted_by ov sets.
  Proof.
    intros A Hf. rewrite topsort_unfold. destruct (initial_table ov) as (ts & E & T). rewrite E. cbn [rbind].
    apply topsort_loop_spec; [exact (acyclic_level A)|exact T|exists 0; apply level_0; reflexivity|lia].
  Qed.
  Theorem topsort_diverges ov fuel r s c : path g 0 r s -> path g s c s -> c <> [] -> topsort fuel g ov = Diverge.
  Proof.
    intros P C N. rewrite topsort_unfold. destruct (initial_table ov) as (ts & E & T). rewrite E. cbn [rbind].
    apply topsort_loop_diverges; [exact (cyclic_levels r s c P C N)|exact T].
  Qed.

  Lemma final_iff x : is_final_state g x = true <-> mget Nat.compare x (fin g) <> None.
  Proof. unfold is_final_state, finw. destruct (mget Nat.compare x (fin g)); split; congruence. Qed.
  Lemma existsb_final s : existsb (is_final_state g) s = true <-> exists x, In x s /\ mget Nat.compare x (fin g) <> None.
  Proof. rewrite existsb_exists. split; intros (x & H1 & H2); exists x; (split; [exact H1|apply final_iff; exact H2]). Qed.
  Lemma last_final_spec : forall sets d, let z := last_final g d sets in
    (z = (-1)%Z /\ forall k, existsb (is_final_state g) (nth k sets []) = false) \/
    (exists k, z = Z.of_nat (d + k) /\ existsb (is_final_state g) (nth k sets []) = true /\ forall j, k < j -> existsb (is_final_state g) (nth j sets []) = false).
  Proof.
    induction sets as [|s sets IH]; intros d; cbn [last_final].
    - left. split; [reflexivity|]. intros [|k]; reflexivity.
    - destruct (IH (S d)) as [[Ez H]|(k & Ez & H1 & H2)]; rewrite Ez.
      + cbn. destruct (existsb (is_final_state g) s) eqn:E.
        * right. exists 0. split; [f_equal; lia|]. split; [exact E|]. intros [|j] Hj; [lia|]. apply H.
        * left. split; [reflexivity|]. intros [|k]; [exact E|apply H].
      + destruct (Z.ltb_spec (Z.of_nat (S d + k)) 0) as [K|_]; [lia|]. right. exists (S k). split; [f_equal; lia|]. split; [exact H1|]. intros [|j] Hj; [lia|]. apply H2. lia.
  Qed.
  Lemma level_accepted k : (exists x, level k x /\ mget Nat.compare x (fin g) <> None) <-> exists r, accepted g r /\ length r = k.
  Proof.
    split.
    - intros (x & (r & P & L) & F). exists r. split; [exists x; auto|exact L].
    - intros (r & (x & P & F) & L). exists x. split; [exists r; auto|exact F].
  Qed.
  Theorem longest_spec fuel : acyclic g -> n < fuel -> exists z, longest_path_size fuel g = Ok z /\
    ((z = (-1)%Z /\ forall r, ~ accepted g r) \/ (exists r, accepted g r /\ z = Z.of_nat (length r) /\ forall r', accepted g r' -> length r' <= length r)).
  Proof.
    intros A Hf. destruct (topsort_spec true fuel A Hf) as (sets & E & S). destruct (topsort_spec false fuel A Hf) as (all & _ & SA). unfold longest_path_size. rewrite E. cbn [rmap]. eexists. split; [reflexivity|].
    (* every accepted path is dominated by the last set holding its end *)
    assert (Dom : forall r, accepted g r -> exists k, length r <= k /\ existsb (is_final_state g) (nth k sets []) = true).
    { intros r (x & P & F). assert (L0 : level (length r) x) by (exists r; auto).
      assert (Q : forall m, (forall j, m <= j -> ~ level j x) -> forall k, level k x -> exists k', k <= k' /\ level k' x /\ forall j, k' < j -> ~ level j x).
      { induction m as [|m IH]; intros HN k Lk; [destruct (HN k (Nat.le_0_l _) Lk)|].
        destruct (in_dec Nat.eq_dec x (nth m all [])) as [I|I].
        - apply SA in I. exists m. split; [destruct (Nat.le_gt_cases k m) as [|K]; [assumption|destruct (HN k K Lk)]|]. split; [apply I|]. intros j Hj. apply HN. exact Hj.
        - apply IH; [|exact Lk]. intros j Hj Lj. destruct (Nat.eq_dec j m) as [->|Nj]; [apply I, SA; split; [exact Lj|discriminate]|]. apply (HN j); [lia|exact Lj]. }
      destruct (Q n) with (k := length r) as (k & K1 & K2 & K3); [intros j Hj Lj; apply (acyclic_level A) in Lj; lia|exact L0|]. exists k. split; [exact K1|]. apply existsb_final. exists x. split; [apply S; auto|exact F]. }
    destruct (last_final_spec sets 0) as [[-> H]|(k & -> & H1 & H2)].
    - left. split; [reflexivity|]. intros r Hr. destruct (Dom r Hr) as (k & _ & K). rewrite H in K. discriminate.
    - right. apply existsb_final in H1. destruct H1 as (x & Hx & F). apply S in Hx. destruct Hx as [(r & P & L) _]. exists r. split; [exists x; auto|]. split; [rewrite L; reflexivity|].
      intros r' Hr'. destruct (Dom r' Hr') as (k' & K1 & K2). destruct (Nat.le_gt_cases k' k) as [K|K]; [lia|]. rewrite (H2 k' K) in K2. discriminate.
  Qed.
End G.
