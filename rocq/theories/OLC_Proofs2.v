(** Proofs about the conversion to the optimized-lookup tables: the state placeholders. *)
From Coq Require Import Sorted Permutation NArith.
From Verif Require Import Base OrdMap Flags_Model BT_Model BT_Spec An_Model LK_Model OLF_Model OLF_Proofs OLC_Model OLL_Model OLC_Proofs.

Definition tplace_of (st : list bstr) (a : arc) : tplace :=
  TPlace (tgt a) (number st (isy a)) (number st (osy a)) (wt a).
Definition with_input (k : nat) (l : list tplace) : list tplace := filter (fun t => tp_input t =? k) l.
Definition free_no (flags : list nat) (k : nat) : bool := (k =? 0) || is_flag_no flags k.

Definition ph_ok (flags : list nat) (s : nat) (ts : list tplace) (p : placeholder) : Prop :=
  NoDup (map fst (p_groups p))
  /\ (forall k l, In (k, l) (p_groups p) -> l = with_input k ts /\ l <> [])
  /\ (forall t, In t ts -> In (tp_input t) (map fst (p_groups p)))
  /\ (s = 0 -> p_type p = Nonsimple)
  /\ match p_type p with
     | Empty => ts = []
     | SimpleZero => p_groups p <> [] /\ forall t, In t ts -> free_no flags (tp_input t) = true
     | SimpleNonzero => exists k, free_no flags k = false /\ map fst (p_groups p) = [k]
     | Nonsimple => True
     end.

Lemma group_In p k l : NoDup (map fst (p_groups p)) -> (group p k = Some l <-> In (k, l) (p_groups p)).
Proof.
  intros N. unfold group. destruct (find _ _) as [[k' l']|] eqn:E.
  - apply find_some in E. destruct E as (H & E). apply Nat.eqb_eq in E. simpl in E. subst k'. split.
    + intros E. injection E as ->. exact H.
    + intros H'. revert N H H'. generalize (p_groups p) as gs. clear.
      induction gs as [|[a b] gs IH]; simpl; intros N H H'; [destruct H|].
      inversion N as [|x y N1 N2]; subst. destruct H as [H|H], H' as [H'|H'].
      * congruence.
      * injection H as -> ->. exfalso. apply N1. apply in_map_iff. exists (k, l). auto.
      * injection H' as -> ->. exfalso. apply N1. apply in_map_iff. exists (k, l'). auto.
      * auto.
  - split; [discriminate|]. intros H. pose proof (find_none _ _ E _ H) as F. simpl in F.
    rewrite Nat.eqb_refl in F. discriminate.
Qed.
Lemma input_present_spec p k : input_present p k = true <-> In k (map fst (p_groups p)).
Proof.
  unfold input_present, group. destruct (find _ _) as [[k' l']|] eqn:E.
  - apply find_some in E. destruct E as (H & E). apply Nat.eqb_eq in E. simpl in E. subst. split; [intros _|reflexivity].
    apply in_map_iff. exists (k, l'). auto.
  - split; [discriminate|]. intros H. apply in_map_iff in H. destruct H as ([k' l'] & <- & H).
    pose proof (find_none _ _ E _ H) as F. simpl in F. rewrite Nat.eqb_refl in F. discriminate.
Qed.

Lemma ph_group flags s ts p k : ph_ok flags s ts p ->
  match group p k with Some l => l | None => [] end = with_input k ts.
Proof.
  intros (N & H1 & H2 & _). destruct (group p k) as [l|] eqn:E.
  - apply (group_In p k l N) in E. apply H1 in E. tauto.
  - destruct (with_input k ts) as [|t r] eqn:W; [reflexivity|]. exfalso.
    assert (Ht : In t (with_input k ts)) by (rewrite W; left; reflexivity).
    apply filter_In in Ht. destruct Ht as (Ht & E2). apply Nat.eqb_eq in E2.
    apply H2 in Ht. rewrite E2 in Ht. apply input_present_spec in Ht. unfold input_present in Ht. rewrite E in Ht. discriminate.
Qed.
Lemma ph_present flags s ts p k : ph_ok flags s ts p -> (input_present p k = true <-> exists t, In t ts /\ tp_input t = k).
Proof.
  intros (N & H1 & H2 & _). rewrite input_present_spec. split.
  - intros H. apply in_map_iff in H. destruct H as ([k' l] & <- & H). apply H1 in H. destruct H as (-> & H).
    destruct (with_input k' ts) as [|t r] eqn:W; [congruence|].
    assert (Ht : In t (with_input k' ts)) by (rewrite W; left; reflexivity).
    apply filter_In in Ht. rewrite Nat.eqb_eq in Ht. exists t. simpl. tauto.
  - intros (t & H & <-). apply H2, H.
Qed.

Lemma with_input_snoc k ts t : with_input k (ts ++ [t]) = with_input k ts ++ (if tp_input t =? k then [t] else []).
Proof. unfold with_input. rewrite filter_app. simpl. destruct (tp_input t =? k); reflexivity. Qed.

Lemma map_fst_place t gs : map fst (map (fun q : nat * list tplace => if fst q =? tp_input t then (fst q, snd q ++ [t]) else q) gs) = map fst gs.
Proof. rewrite map_map. apply map_ext. intros [a b]. simpl. destruct (a =? tp_input t); reflexivity. Qed.

Lemma add_placeholder_ok flags s ts p t : ph_ok flags s ts p ->
  ph_ok flags s (ts ++ [t]) (add_placeholder t (add_input flags (tp_input t) p)).
Proof.
  intros (N & H1 & H2 & H3 & H4). unfold add_placeholder, add_input.
  destruct (input_present p (tp_input t)) eqn:E.
  - assert (HI := proj1 (input_present_spec _ _) E). unfold ph_ok. cbn [p_groups p_type]. rewrite map_fst_place.
    split; [exact N|]. split; [|split; [|split; [exact H3|]]].
    + intros k l H. apply in_map_iff in H. destruct H as ([k' l'] & E2 & H). apply H1 in H. destruct H as (-> & H).
      rewrite with_input_snoc. simpl in E2. rewrite (Nat.eqb_sym (tp_input t) k).
      destruct (Nat.eqb_spec k' (tp_input t)) as [F|F]; injection E2 as <- <-.
      * rewrite F, Nat.eqb_refl. split; [reflexivity|]. intros F2. apply app_eq_nil in F2. destruct F2 as (_ & F2). discriminate F2.
      * rewrite (proj2 (Nat.eqb_neq _ _) F), app_nil_r. auto.
    + intros u Hu. apply in_app_iff in Hu. destruct Hu as [Hu|[<- |[]]]; [apply H2, Hu|exact HI].
    + destruct (p_type p).
      * subst ts. exfalso. apply in_map_iff in HI. destruct HI as ([k l] & _ & HI). apply H1 in HI.
        destruct HI as (-> & HI). apply HI. reflexivity.
      * destruct H4 as (H5 & H4). split; [destruct (p_groups p); [congruence|discriminate]|].
        intros u Hu. apply in_app_iff in Hu. destruct Hu as [Hu|[<- |[]]]; [apply H4, Hu|].
        apply in_map_iff in HI. destruct HI as ([k l] & <- & HI). apply H1 in HI. destruct HI as (-> & HI). simpl.
        destruct (with_input k ts) as [|v r] eqn:W; [congruence|].
        assert (Hv : In v (with_input k ts)) by (rewrite W; left; reflexivity).
        apply filter_In in Hv. rewrite Nat.eqb_eq in Hv. destruct Hv as (Hv & <-). apply H4, Hv.
      * exact H4.
      * exact I.
  - assert (HI : ~ In (tp_input t) (map fst (p_groups p))) by (rewrite <- input_present_spec; congruence).
    assert (W : with_input (tp_input t) ts = []).
    { destruct (with_input (tp_input t) ts) as [|v r] eqn:W; [reflexivity|].
      assert (Hv : In v (with_input (tp_input t) ts)) by (rewrite W; left; reflexivity).
      apply filter_In in Hv. rewrite Nat.eqb_eq in Hv. destruct Hv as (Hv & E2). exfalso. apply HI. rewrite <- E2. apply H2, Hv. }
    unfold ph_ok. cbn [p_groups p_type]. rewrite map_fst_place, map_app. cbn [map fst].
    split; [|split; [|split; [|split]]].
    + apply NoDup_app_intro; [exact N|constructor; [intros []|constructor]|].
      intros x Hx [<- |[]]. exact (HI Hx).
    + intros k l H. rewrite map_app in H. apply in_app_iff in H. rewrite with_input_snoc.
      rewrite (Nat.eqb_sym (tp_input t) k). destruct H as [H|[H|[]]].
      * apply in_map_iff in H. destruct H as ([k' l'] & E2 & H). simpl in E2.
        assert (F : k' <> tp_input t).
        { intros ->. apply HI. apply in_map_iff. exists (tp_input t, l'). auto. }
        rewrite (proj2 (Nat.eqb_neq _ _) F) in E2. injection E2 as <- <-.
        rewrite (proj2 (Nat.eqb_neq _ _) F), app_nil_r. apply H1, H.
      * simpl in H. rewrite Nat.eqb_refl in H. injection H as <- <-. rewrite Nat.eqb_refl, W. split; [reflexivity|discriminate].
    + intros u Hu. apply in_app_iff in Hu. apply in_app_iff. destruct Hu as [Hu|[<- |[]]]; [left; apply H2, Hu|right; left; reflexivity].
    + intros Z. rewrite (H3 Z). reflexivity.
    + destruct (p_type p) eqn:T.
      * subst ts.
        assert (G : p_groups p = []).
        { destruct (p_groups p) as [|[k l] r] eqn:G; [reflexivity|]. exfalso.
          destruct (H1 k l) as (-> & H); [left; reflexivity|]. apply H. reflexivity. }
        rewrite G. destruct ((tp_input t =? 0) || is_flag_no flags (tp_input t)) eqn:F.
        -- split; [discriminate|]. intros u [<- |[]]. exact F.
        -- exists (tp_input t). split; [exact F|reflexivity].
      * destruct (negb (tp_input t =? 0) && negb (is_flag_no flags (tp_input t))) eqn:F; [exact I|].
        destruct H4 as (H5 & H4). split; [destruct (p_groups p); [congruence|discriminate]|].
        intros u Hu. apply in_app_iff in Hu. destruct Hu as [Hu|[<- |[]]]; [apply H4, Hu|].
        unfold free_no. rewrite <- negb_orb, negb_false_iff in F. exact F.
      * destruct H4 as (k & H4 & H5). destruct (_ || _ || _) eqn:F; [exact I|].
        rewrite !orb_false_iff in F. destruct F as ((F & _) & _). apply Nat.ltb_ge in F. exfalso.
        rewrite app_length in F. simpl in F. destruct (p_groups p); [discriminate|simpl in F; lia].
      * exact I.
Qed.

Lemma place_fold_ok st flags s l : forall ts p, ph_ok flags s ts p ->
  ph_ok flags s (ts ++ map (tplace_of st) l) (fold_left (fun p a => place st flags a p) l p).
Proof.
  induction l as [|a l IH]; intros ts p H; cbn [fold_left map]; [rewrite app_nil_r; exact H|].
  replace (ts ++ tplace_of st a :: map (tplace_of st) l) with ((ts ++ [tplace_of st a]) ++ map (tplace_of st) l) by (rewrite <- app_assoc; reflexivity).
  apply IH. apply (add_placeholder_ok flags s ts p (tplace_of st a) H).
Qed.
Lemma new_placeholder_ok flags s f n : ph_ok flags s [] (new_placeholder s f n).
Proof.
  unfold ph_ok, new_placeholder. cbn [p_groups p_type map]. split; [constructor|]. split; [intros k l []|].
  split; [intros t []|]. destruct (s =? 0) eqn:E; [auto|]. split; [|reflexivity]. intros ->. discriminate.
Qed.

Lemma place_const st flags l : forall p,
  let q := fold_left (fun p a => place st flags a p) l p in p_final q = p_final p /\ p_first q = p_first p.
Proof.
  induction l as [|a l IH]; intros p; cbn [fold_left]; [auto|].
  destruct (IH (place st flags a p)) as (H1 & H2). simpl in *. rewrite H1, H2. unfold place, add_input.
  destruct (input_present p _); auto.
Qed.

(** Position of the first transition of each state. *)
Fixpoint first_of (n : nat) (l : list (list arc)) : nat :=
  match n, l with
  | S n', x :: r => 1 + length x + first_of n' r
  | _, _ => 0
  end.

Lemma place_states_length g st flags l : forall s first, length (place_states g st flags s first l) = length l.
Proof. induction l as [|x l IH]; intros s first; simpl; [reflexivity|]. rewrite IH. reflexivity. Qed.

Lemma place_states_nth g st flags l : forall s first j, j < length l ->
  let p := nth j (place_states g st flags s first l) no_placeholder in
  ph_ok flags (s + j) (map (tplace_of st) (nth j l [])) p
  /\ p_final p = finw g (s + j) /\ p_first p = first + first_of j l.
Proof.
  induction l as [|x l IH]; intros s first j L; [simpl in L; lia|].
  destruct j as [|j]; cbn [place_states nth first_of].
  - rewrite Nat.add_0_r. split; [apply (place_fold_ok st flags s x []), new_placeholder_ok|].
    destruct (place_const st flags x (new_placeholder s (finw g s) first)) as (H1 & H2).
    rewrite H1, H2. simpl. split; [reflexivity|lia].
  - simpl in L. destruct (IH (S s) (first + 1 + length x) j) as (H1 & H2 & H3); [lia|].
    rewrite Nat.add_succ_r. simpl in *. split; [exact H1|]. split; [exact H2|]. rewrite H3. lia.
Qed.

Lemma placeholders_length g : length (placeholders g) = length (sts g).
Proof. apply place_states_length. Qed.

Definition arc_places (g : graph) (s : nat) : list tplace := map (tplace_of (symbol_table g)) (arcs g s).

Lemma placeholders_nth g s : s < length (sts g) ->
  let p := nth s (placeholders g) no_placeholder in
  ph_ok (flag_numbers g) s (arc_places g s) p /\ p_final p = finw g s /\ p_first p = first_of s (sts g).
Proof. intros L. apply (place_states_nth g (symbol_table g) (flag_numbers g) (sts g) 0 0 s L). Qed.

Lemma first_of_mono l : forall i j, i < j -> j < length l -> first_of i l < first_of j l.
Proof.
  induction l as [|x l IH]; intros i j H L; [simpl in L; lia|].
  destruct j as [|j]; [lia|]. destruct i as [|i]; simpl; [lia|].
  simpl in L. specialize (IH i j). lia.
Qed.
Lemma first_of_next l : forall i, i < length l -> first_of (S i) l = first_of i l + 1 + length (nth i l []).
Proof.
  induction l as [|x l IH]; intros i L; [simpl in L; lia|].
  destruct i as [|i]; [destruct l; simpl; lia|]. simpl in L. specialize (IH i ltac:(lia)).
  change (first_of (S (S i)) (x :: l)) with (1 + length x + first_of (S i) l).
  change (first_of (S i) (x :: l)) with (1 + length x + first_of i l). cbn [nth]. lia.
Qed.
