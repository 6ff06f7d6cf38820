(** Proofs about compose-intersect: transition sets, single rules and rule pairs. *)
From Coq Require Import Sorted Permutation.
From Verif Require Import Base OrdMap Flags_Model BT_Model BT_Spec BT_Proofs BT_Proofs3 BT_Proofs4 BT_Proofs5 Isect_Model Isect_Proofs CI_Model CI_Spec.

(** * SpaceSavingSet *)
Section Set_.
  Context {X : Type} (lt eq : X -> X -> bool).
  Hypothesis eq_spec : forall x y, eq x y = true <-> x = y.
  Hypothesis lt_irrefl : forall x, lt x x = false.
  Hypothesis lt_trans : forall x y z, lt x y = true -> lt y z = true -> lt x z = true.
  Hypothesis lt_total : forall x y, lt x y = false -> lt y x = false -> x = y.
  Let R x y := lt x y = true.

  Lemma lub_app x l a b : least_upper_bound lt x l = (a, b) -> l = a ++ b /\ Forall (fun y => lt y x = true) a /\
    match b with [] => True | y :: _ => lt y x = false end.
  Proof.
    revert a b; induction l as [|y l IH]; intros a b E; simpl in E.
    - injection E as <- <-. auto.
    - destruct (lt y x) eqn:L; simpl in E.
      + destruct (least_upper_bound lt x l) as [a' b'] eqn:E'. injection E as <- <-.
        destruct (IH a' b' eq_refl) as (-> & F & B'). auto.
      + injection E as <- <-. simpl. auto.
  Qed.
  Lemma In_set_insert x y l : In y (set_insert lt eq x l) <-> y = x \/ In y l.
  Proof.
    unfold set_insert. destruct (least_upper_bound lt x l) as [a b] eqn:E.
    apply lub_app in E. destruct E as (-> & _ & _). destruct b as [|z b].
    - rewrite !in_app_iff. simpl. intuition.
    - destruct (eq x z) eqn:Q; simpl; rewrite !in_app_iff; simpl.
      + apply eq_spec in Q. subst z. intuition congruence.
      + intuition.
  Qed.
  Lemma sorted_set_insert x l : StronglySorted R l -> StronglySorted R (set_insert lt eq x l).
  Proof.
    intros S. unfold set_insert. destruct (least_upper_bound lt x l) as [a b] eqn:E.
    apply lub_app in E. destruct E as (-> & F & L). destruct b as [|z b].
    - rewrite app_nil_r in S. clear L. induction a as [|y a IH]; simpl.
      + constructor; constructor.
      + inversion S as [|? ? S1 S2]; subst. inversion F as [|? ? F1 F2]; subst.
        constructor; [apply IH; assumption|]. apply Forall_app. split; [exact S2|constructor; [exact F1|constructor]].
    - destruct (eq x z) eqn:Q; simpl; [exact S|].
      assert (Lx : lt x z = true).
      { destruct (lt x z) eqn:K; [reflexivity|]. apply (lt_total x z K) in L. subst z.
        rewrite (proj2 (eq_spec x x) eq_refl) in Q. discriminate. }
      induction a as [|y a IH]; simpl in *.
      + constructor; [exact S|]. constructor; [exact Lx|]. inversion S as [|? ? S1 S2]; subst.
        eapply Forall_impl; [|exact S2]. intros u Hu. exact (lt_trans x z u Lx Hu).
      + inversion S as [|? ? S1 S2]; subst. inversion F as [|? ? F1 F2]; subst.
        constructor; [apply IH; assumption|]. apply Forall_app in S2. destruct S2 as [S3 S4].
        apply Forall_app. split; [exact S3|]. constructor; [exact F1|exact S4].
  Qed.
  Lemma has_element_In x l : StronglySorted R l -> has_element lt eq x l = true <-> In x l.
  Proof.
    intros S. unfold has_element. destruct (least_upper_bound lt x l) as [a b] eqn:E.
    apply lub_app in E. destruct E as (-> & F & L). simpl.
    assert (NA : ~ In x a). { intros H. rewrite Forall_forall in F. apply F in H. rewrite lt_irrefl in H. discriminate. }
    rewrite in_app_iff. destruct b as [|z b].
    - simpl. split; [discriminate|tauto].
    - rewrite eq_spec. split; [intros ->; right; left; reflexivity|].
      intros [H|[H|H]]; [tauto|exact H|]. exfalso.
      assert (S' : StronglySorted R (z :: b)).
      { clear - S. induction a as [|y a IH]; [exact S|]. simpl in S. inversion S; auto. }
      inversion S' as [|? ? S1 S2]; subst. rewrite Forall_forall in S2. apply S2 in H. unfold R in H. congruence.
  Qed.
End Set_.

Lemma trn_eq_spec x y : trn_eq x y = true <-> x = y.
Proof.
  unfold trn_eq. rewrite !andb_true_iff, !Nat.eqb_eq, Z.eqb_eq. destruct x, y. simpl. split; [|intros H; injection H; auto].
  intros (((-> & ->) & ->) & ->). reflexivity.
Qed.
Lemma trn_lt_iff x y : trn_lt x y = true <->
  t_in x < t_in y \/ t_in x = t_in y /\ (t_out x < t_out y \/ t_out x = t_out y /\
    ((t_w x < t_w y)%Z \/ t_w x = t_w y /\ t_to x < t_to y)).
Proof.
  unfold trn_lt. destruct (Nat.eqb_spec (t_in x) (t_in y)); [|rewrite Nat.ltb_lt; lia].
  destruct (Nat.eqb_spec (t_out x) (t_out y)); [|rewrite Nat.ltb_lt; lia].
  destruct (Z.eqb_spec (t_w x) (t_w y)); [rewrite Nat.ltb_lt; lia|rewrite Z.ltb_lt; lia].
Qed.
Lemma trn_lt_irrefl x : trn_lt x x = false.
Proof. apply not_true_iff_false. rewrite trn_lt_iff. lia. Qed.
Lemma trn_lt_trans x y z : trn_lt x y = true -> trn_lt y z = true -> trn_lt x z = true.
Proof. rewrite !trn_lt_iff. lia. Qed.
Lemma trn_lt_total x y : trn_lt x y = false -> trn_lt y x = false -> x = y.
Proof.
  intros H1 H2. apply not_true_iff_false in H1, H2. rewrite trn_lt_iff in H1, H2.
  destruct x, y. simpl in *. f_equal; lia.
Qed.
Definition tsorted := StronglySorted (fun x y => trn_lt x y = true).
Lemma In_trn_insert x y l : In y (trn_insert x l) <-> y = x \/ In y l.
Proof. apply In_set_insert, trn_eq_spec. Qed.
Lemma trn_insert_ne x l : trn_insert x l <> [].
Proof. intros H. assert (K : In x (trn_insert x l)) by (apply In_trn_insert; auto). rewrite H in K. destruct K. Qed.
Lemma tsorted_insert x l : tsorted l -> tsorted (trn_insert x l).
Proof. apply sorted_set_insert; [apply trn_eq_spec|apply trn_lt_trans|apply trn_lt_total]. Qed.

Section P.
  Variable num : bstr -> nat.
  Variable sym : nat -> bstr.
  Hypothesis sym_num : forall x, sym (num x) = x.
  Lemma num_inj x y : num x = num y -> x = y.
  Proof. intros H. rewrite <- (sym_num x), H. apply sym_num. Qed.

  (** * Construction *)
  Definition key (ik : bool) (a : arc) : bstr := if ik then isy a else osy a.
  Definition ksorted (m : list (nat * list trn)) : Prop := StronglySorted (klt Nat.compare) (map fst m).
  (** [m] groups the transitions of [l] by key. *)
  Definition groups (ik : bool) (l : list arc) (m : list (nat * list trn)) : Prop :=
    ksorted m
    /\ (forall k set, mget Nat.compare k m = Some set -> exists x, k = num x /\ (tsorted set /\ set <> []) /\
          forall t, In t set <-> exists a, In a l /\ isy a <> IDN /\ key ik a = x /\ t = trn_of num a)
    /\ (forall a, In a l -> isy a <> IDN -> mget Nat.compare (num (key ik a)) m <> None).
  Lemma ksorted_mset k v m : ksorted m -> ksorted (mset Nat.compare k v m).
  Proof. apply sorted_mset; [exact Nat.compare_eq_iff|exact ncmp_trans|exact ncmp_op]. Qed.

  Lemma add_arcs_spec ik l : forall done m ids m' ids', groups ik done m ->
    add_arcs num ik l m ids = (m', ids') ->
    groups ik (done ++ l) m' /\ ids' = ids ++ map (trn_of num) (filter (fun a => bstr_eqb (isy a) IDN) l).
  Proof.
    induction l as [|a l IH]; intros done m ids m' ids' G E; simpl in E.
    - injection E as <- <-. rewrite !app_nil_r. auto.
    - replace (done ++ a :: l) with ((done ++ [a]) ++ l) by (rewrite <- app_assoc; reflexivity).
      simpl filter. destruct (bstr_eqb (isy a) IDN) eqn:I.
      + apply bstr_eqb_eq in I. apply (IH (done ++ [a])) in E.
        * destruct E as [E1 E2]. split; [exact E1|]. rewrite E2. simpl. rewrite <- app_assoc. reflexivity.
        * destruct G as (G1 & G2 & G3). split; [exact G1|]. split.
          -- intros k set H. destruct (G2 k set H) as (x & K & S & F). exists x. split; [exact K|]. split; [exact S|].
             intros t. rewrite F. split; intros (b & Hb & N & Hk & Ht).
             ++ exists b. rewrite in_app_iff. auto.
             ++ apply in_app_iff in Hb. destruct Hb as [Hb|[<-|[]]]; [eauto 6|congruence].
          -- intros b Hb N. apply in_app_iff in Hb. destruct Hb as [Hb|[<-|[]]]; [apply G3; assumption|congruence].
      + apply bstr_eqb_neq in I. set (k := if ik then num (isy a) else num (osy a)) in E.
        assert (EK : k = num (key ik a)) by (unfold k, key; destruct ik; reflexivity).
        apply (IH (done ++ [a])) in E; [exact E|].
        destruct G as (G1 & G2 & G3). split; [apply ksorted_mset, G1|]. split.
        * intros k' set H. destruct (Nat.eq_dec k' k) as [-> |N].
          -- rewrite (mget_mset_same _ Nat.compare_eq_iff) in H. injection H as <-. exists (key ik a). split; [exact EK|].
             unfold set_at. destruct (mget Nat.compare k m) as [old|] eqn:O.
             ++ destruct (G2 k old O) as (x & K & S & F). rewrite K in EK. apply num_inj in EK. subst x.
                split; [split; [apply tsorted_insert, S|apply trn_insert_ne]|]. intros t. rewrite In_trn_insert, F. split.
                ** intros [-> |(b & Hb & N & Hk & Ht)]; [exists a; rewrite in_app_iff; simpl; auto|exists b; rewrite in_app_iff; auto].
                ** intros (b & Hb & N & Hk & Ht). apply in_app_iff in Hb. destruct Hb as [Hb|[<-|[]]]; [right; eauto|left; exact Ht].
             ++ split; [split; [apply tsorted_insert; constructor|apply trn_insert_ne]|]. intros t. rewrite In_trn_insert. split.
                ** intros [-> |[]]. exists a. rewrite in_app_iff. simpl. auto.
                ** intros (b & Hb & N & Hk & Ht). apply in_app_iff in Hb. destruct Hb as [Hb|[<-|[]]]; [|left; exact Ht].
                   exfalso. apply (G3 b Hb N). rewrite Hk, <- EK. exact O.
          -- rewrite (mget_mset_other _ Nat.compare_eq_iff) in H by exact N. destruct (G2 k' set H) as (x & K & S & F).
             exists x. split; [exact K|]. split; [exact S|]. intros t. rewrite F. split.
             ++ intros (b & Hb & Nb & Hk & Ht). exists b. rewrite in_app_iff. auto.
             ++ intros (b & Hb & Nb & Hk & Ht). apply in_app_iff in Hb. destruct Hb as [Hb|[<-|[]]]; [eauto 6|].
                exfalso. apply N. rewrite K, EK, Hk. reflexivity.
        * intros b Hb N. apply in_app_iff in Hb. destruct (Nat.eq_dec (num (key ik b)) k) as [Q|Q].
          -- rewrite Q, (mget_mset_same _ Nat.compare_eq_iff). discriminate.
          -- rewrite (mget_mset_other _ Nat.compare_eq_iff) by exact Q. destruct Hb as [Hb|[<-|[]]]; [apply G3; assumption|congruence].
  Qed.
  Lemma groups_nil ik : groups ik [] [].
  Proof. split; [constructor|]. split; [intros k set H; discriminate|intros a []]. Qed.

  (** The identity transition recorded for a state. *)
  Definition identity_of (l : list arc) : trn :=
    match filter (fun a => bstr_eqb (isy a) IDN) l with [] => Trn (num EPS) (num EPS) 0 0 | a :: _ => trn_of num a end.
  Lemma add_states_spec ik g ls : forall source c,
    let c' := add_states num ik g source ls c in
    c_syms c' = c_syms c
    /\ (exists ms, c_maps c' = c_maps c ++ ms /\ length ms = length ls /\ forall i, i < length ls -> groups ik (nth i ls []) (nth i ms []))
    /\ c_fin c' = c_fin c ++ map (finw g) (seq source (length ls))
    /\ ((forall l, In l ls -> length (filter (fun a => bstr_eqb (isy a) IDN) l) <= 1) -> c_ident c' = c_ident c ++ map identity_of ls).
  Proof.
    induction ls as [|l ls IH]; intros source c; cbn [add_states].
    - cbn zeta. split; [reflexivity|]. split; [exists []; rewrite app_nil_r; split; [reflexivity|split; [reflexivity|simpl; lia]]|].
      simpl. rewrite app_nil_r. split; [reflexivity|]. intros _. rewrite app_nil_r. reflexivity.
    - destruct (add_arcs num ik l [] []) as [m ids] eqn:E.
      destruct (add_arcs_spec ik l [] [] [] m ids (groups_nil ik) E) as [G I]. simpl in G, I.
      destruct (IH (S source) (Cfst (c_syms c) (c_maps c ++ [m]) (c_fin c ++ [finw g source]) (c_ident c ++ match ids with [] => [Trn (num EPS) (num EPS) 0 0] | _ => ids end)))
        as (A & (ms & B1 & B2 & B3) & C & D). cbn [c_syms c_maps c_fin c_ident] in *. split; [exact A|]. split.
      + exists (m :: ms). rewrite B1, <- app_assoc. split; [reflexivity|]. split; [simpl; lia|].
        intros [|i] Hi; simpl in *; [exact G|]. apply B3. lia.
      + split; [rewrite C, <- app_assoc; reflexivity|]. intros H. rewrite D by (intros; apply H; right; assumption).
        rewrite <- app_assoc. f_equal. simpl map. rewrite I. unfold identity_of at 2.
        specialize (H l (or_introl eq_refl)). destruct (filter (fun a => bstr_eqb (isy a) IDN) l) as [|a [|b f]]; simpl in *; [reflexivity|reflexivity|lia].
  Qed.
  Lemma syms_fold al : forall acc x, In (num x) (fold_left (fun acc x => sadd Nat.compare (num x) acc) al acc) <-> In x al \/ In (num x) acc.
  Proof.
    induction al as [|y al IH]; intros acc x; simpl; [tauto|]. rewrite IH, (In_sadd _ Nat.compare_eq_iff). split.
    - intros [H|[H|H]]; [auto|apply num_inj in H; auto|auto].
    - intros [[-> |H]|H]; auto.
  Qed.

  (** Facts about the converted transducer. *)
  Lemma groups_sorted ik l l' m : Permutation l l' -> groups ik l m -> groups ik l' m.
  Proof.
    intros P (G1 & G2 & G3). split; [exact G1|]. split.
    - intros k set H. destruct (G2 k set H) as (x & K & S & F). exists x. split; [exact K|]. split; [exact S|].
      intros t. rewrite F. split; intros (a & Ha & R); exists a; (split; [|exact R]).
      + exact (Permutation_in _ P Ha). + exact (Permutation_in _ (Permutation_sym P) Ha).
    - intros a Ha. apply G3. exact (Permutation_in _ (Permutation_sym P) Ha).
  Qed.
  Lemma std_sort_nth g s : Permutation (nth s (sts g) []) (nth s (sts (sort_arcs num g)) []).
  Proof.
    unfold sort_arcs. cbn [sts with_sts]. change (@nil arc) with (std_sort num []) at 2. rewrite map_nth. apply std_sort_perm.
  Qed.
  Lemma filter_length_perm {A} (f : A -> bool) l l' : Permutation l l' -> length (filter f l) = length (filter f l').
  Proof. induction 1; simpl; try lia; repeat (destruct (f _); simpl in *); lia. Qed.
  Definition sorted_state (g : graph) (s : nat) : list arc := nth s (sts (sort_arcs num g)) [].
  Lemma make_cfst_spec ik g : let c := make_cfst num ik g in
    (forall x, In (num x) (c_syms c) <-> In x (alpha g))
    /\ length (c_maps c) = length (sts g)
    /\ (forall s, s < length (sts g) -> groups ik (nth s (sts g) []) (nth s (c_maps c) []))
    /\ (forall s, s < length (sts g) -> nth_error (c_fin c) s = Some (finw g s))
    /\ (one_identity g -> forall s, s < length (sts g) -> nth_error (c_ident c) s = Some (identity_of (sorted_state g s))).
  Proof.
    unfold make_cfst. set (h := sort_arcs num g).
    destruct (add_states_spec ik h (sts h) 0 (Cfst (fold_left (fun acc x => sadd Nat.compare (num x) acc) (alpha h) []) [] [] []))
      as (A & (ms & B1 & B2 & B3) & C & D). cbn [c_syms c_maps c_fin c_ident app] in *.
    assert (L : length (sts h) = length (sts g)) by (unfold h, sort_arcs; cbn [sts with_sts]; apply map_length).
    split; [intros x; rewrite A, syms_fold; simpl; tauto|]. split; [rewrite B1, B2; exact L|]. split; [|split].
    - intros s Hs. rewrite B1. apply (groups_sorted ik (nth s (sts h) [])); [apply Permutation_sym, std_sort_nth|apply B3; lia].
    - intros s Hs. rewrite C, L, nth_error_map.
      assert (E : nth_error (seq 0 (length (sts g))) s = Some s).
      { rewrite (nth_error_nth' _ 0) by (rewrite seq_length; exact Hs). rewrite seq_nth by exact Hs. reflexivity. }
      rewrite E. reflexivity.
    - intros O s Hs. rewrite D.
      + rewrite nth_error_map, (nth_error_nth' _ []) by lia. reflexivity.
      + intros l Hl. apply (In_nth _ _ []) in Hl. destruct Hl as (i & Hi & <-).
        rewrite <- (filter_length_perm _ _ _ (std_sort_nth g i)). apply O.
  Qed.
End P.
