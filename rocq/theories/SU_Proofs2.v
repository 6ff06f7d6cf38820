(** The loop over the states in hfst-summarize. *)
From Coq Require Import Sorted Permutation.
From Verif Require Import Base OrdMap BT_Model BT_Spec BT_Proofs An_Model SU_Spec SU_Model SU_Proofs.

Lemma largest_spec m : forall b, let r := largest b m in
  snd b <= snd r /\ (forall k n, In (k, n) m -> n <= snd r) /\ (r = b \/ In r m).
Proof.
  unfold largest. induction m as [|[k n] m IH]; intros b; [cbn; repeat split; [lia|intros k n []|auto]|].
  cbn [fold_left]. specialize (IH (if snd b <? snd (k, n) then (k, n) else b)). cbv zeta in *.
  destruct IH as (I1 & I2 & I3). cbn [snd] in *. destruct (Nat.ltb_spec (snd b) n) as [L|L]; cbn [snd] in *.
  - repeat split; [lia| |destruct I3 as [-> |I3]; right; [left; reflexivity|right; exact I3]].
    intros k' n' [E|H]; [injection E as <- <-; exact I1|apply (I2 k' n' H)].
  - repeat split; [exact I1| |destruct I3 as [-> |I3]; [left; reflexivity|right; right; exact I3]].
    intros k' n' [E|H]; [injection E as <- <-; lia|apply (I2 k' n' H)].
Qed.

Section Outer.
  Variable pairs : bool.
  Variable g : graph.
  Definition is_fin (s : nat) : bool := match mget Nat.compare s (fin g) with Some _ => true | None => false end.
  Definition entered (s : nat) (v : tally) : tally :=
    Tally (S (v_states v)) (if is_fin s then S (v_finals v) else v_finals v) (v_arcs v)
     (v_io v) (v_ie v) (v_oe v) (v_dense v) (v_sparse v) (v_uin v) (v_uout v) (v_min v) (v_mout v)
     (v_found v) (v_acc v) (v_idet v) (v_odet v) (v_cyc v) (v_cyc0 v) (v_pairs v).
  Notation one := (one_state pairs g).
  Lemma one_unfold s v l : exists w, w = fst (fold_left (one_arc pairs s) l (entered s v, Here 0 [] [])) /\
    one s v l = Tally (v_states w) (v_finals w) (v_arcs w) (v_io w) (v_ie w) (v_oe w)
     (if v_dense w <? length l then length l else v_dense w)
     (match v_sparse w with Some n => if length l <? n then Some (length l) else Some n | None => Some (length l) end)
     (length (counted bcmp (map isy l)) + v_uin w) (length (counted bcmp (map osy l)) + v_uout w)
     (largest (v_min w) (counted bcmp (map isy l))) (largest (v_mout w) (counted bcmp (map osy l)))
     (v_found w) (v_acc w) (v_idet w) (v_odet w) (v_cyc w) (v_cyc0 w) (v_pairs w).
  Proof.
    eexists. split; [reflexivity|]. unfold one_state. fold (is_fin s). fold (entered s v).
    pose proof (go_here pairs s (entered s v) l) as H. cbv zeta in H.
    destruct (fold_left (one_arc pairs s) l (entered s v, Here 0 [] [])) as [w h]. cbn [fst snd] in *. subst h. reflexivity.
  Qed.
  Ltac use s v l := destruct (one_unfold s v l) as (w & Ew & ->);
    cbn [v_states v_finals v_arcs v_io v_ie v_oe v_dense v_sparse v_uin v_uout v_min v_mout v_found v_acc v_idet v_odet v_cyc v_cyc0 v_pairs].
  Notation all := (all_states pairs g).

  Lemma all_arcs ls : forall s v, v_arcs (all s ls v) = v_arcs v + length (concat ls).
  Proof.
    induction ls as [|l ls IH]; intros s v; [cbn; lia|]. cbn [all_states concat]. rewrite IH, app_length.
    use s v l. subst w. rewrite go_arcs. cbn. lia.
  Qed.
  Lemma all_number ls : forall s v, v_states (all s ls v) = v_states v + length ls.
  Proof.
    induction ls as [|l ls IH]; intros s v; [cbn; lia|]. cbn [all_states length]. rewrite IH.
    use s v l. subst w. destruct (go_same pairs s (entered s v) l) as (-> & _). cbn. lia.
  Qed.
  Lemma all_finals ls : forall s v, v_finals (all s ls v) = v_finals v + length (filter is_fin (seq s (length ls))).
  Proof.
    induction ls as [|l ls IH]; intros s v; [cbn; lia|]. cbn [all_states length seq filter]. rewrite IH.
    use s v l. subst w. destruct (go_same pairs s (entered s v) l) as (_ & -> & _). cbn [entered v_finals].
    destruct (is_fin s); cbn; lia.
  Qed.
  Lemma all_eps ls : forall s v, let r := all s ls v in
    v_io r = v_io v + length (filter io_eps (concat ls)) /\
    v_ie r = v_ie v + length (filter (fun a => is_epsilon (isy a)) (concat ls)) /\
    v_oe r = v_oe v + length (filter (fun a => is_epsilon (osy a)) (concat ls)).
  Proof.
    induction ls as [|l ls IH]; intros s v; [cbn; lia|]. cbn [all_states concat]. rewrite !filter_app, !app_length.
    destruct (IH (S s) (one s v l)) as (I1 & I2 & I3). cbv zeta. rewrite I1, I2, I3.
    use s v l. subst w. destruct (go_eps pairs s (entered s v) l) as (-> & -> & ->). cbn [entered v_io v_ie v_oe]. lia.
  Qed.
  Lemma all_found ls x : forall s v, In x (v_found (all s ls v)) <-> In x (v_found v) \/ exists l a, In l ls /\ In a l /\ (x = isy a \/ x = osy a).
  Proof.
    induction ls as [|l ls IH]; intros s v; cbn [all_states].
    - split; [auto|]. intros [H|(l & a & [] & _)]. exact H.
    - rewrite IH. use s v l. subst w. rewrite go_found. cbn [entered v_found]. split.
      + intros [[H|(a & H & E)]|(l' & a & H1 & H2 & E)]; [auto| |].
        * right. exists l, a. cbn. auto.
        * right. exists l', a. cbn. auto.
      + intros [H|(l' & a & [<-|H1] & H2 & E)]; [auto| |].
        * left. right. exists a. auto.
        * right. exists l', a. auto.
  Qed.
  Lemma all_acc ls : forall s v, v_acc (all s ls v) = true <-> v_acc v = true /\ forall l a, In l ls -> In a l -> isy a = osy a.
  Proof.
    induction ls as [|l ls IH]; intros s v; cbn [all_states].
    - split; [intros H; split; [exact H|intros l a []]|intros [H _]; exact H].
    - rewrite IH. use s v l. subst w. rewrite go_acc. cbn [entered v_acc]. split.
      + intros [[H K] L]. split; [exact H|]. intros l' a [<-|I]; [apply K|apply L; exact I].
      + intros [H K]. split; [split; [exact H|]|]; intros; eapply K; cbn; eauto.
  Qed.
  Lemma all_det ls : forall s v, let r := all s ls v in
    (v_idet r = true <-> v_idet v = true /\ forall l, In l ls -> det isy l) /\
    (v_odet r = true <-> v_odet v = true /\ forall l, In l ls -> det osy l).
  Proof.
    induction ls as [|l ls IH]; intros s v; cbn [all_states]; cbv zeta.
    - split; (split; [intros H; split; [exact H|intros l []]|intros [H _]; exact H]).
    - destruct (IH (S s) (one s v l)) as [I1 I2]. rewrite I1, I2. use s v l. subst w.
      destruct (go_det pairs s (entered s v) l) as [-> ->]. cbn [entered v_idet v_odet].
      split; (split; [intros [[H K] L]; split; [exact H|]; intros l' [<-|I]; [exact K|apply L; exact I]
        |intros [H K]; split; [split; [exact H|apply K; left; reflexivity]|intros l' I; apply K; right; exact I]]).
  Qed.
  Lemma all_cyc ls : forall s v, let r := all s ls v in
    (v_cyc r = true <-> v_cyc v = true \/ exists k a, k < length ls /\ In a (nth k ls []) /\ tgt a = s + k) /\
    (v_cyc0 r = true <-> v_cyc0 v = true \/ s = 0 /\ ls <> [] /\ exists a, In a (nth 0 ls []) /\ tgt a = 0).
  Proof.
    induction ls as [|l ls IH]; intros s v; cbn [all_states]; cbv zeta.
    - split; (split; [auto|]); [intros [H|(k & a & H & _)]; [exact H|inversion H]|intros [H|(_ & H & _)]; [exact H|contradiction]].
    - destruct (IH (S s) (one s v l)) as [I1 I2]. rewrite I1, I2. use s v l. subst w.
      destruct (go_cyc pairs s (entered s v) l) as [-> ->]. cbn [entered v_cyc v_cyc0].
      split; split.
      + intros [[H|(a & H & E)]|(k & a & H & I & E)]; [auto| |].
        * right. exists 0, a. cbn. repeat split; [lia|exact H|lia].
        * right. exists (S k), a. cbn. repeat split; [lia|exact I|lia].
      + intros [H|(k & a & H & I & E)]; [auto|]. destruct k as [|k]; cbn in *.
        * left. right. exists a. split; [exact I|lia].
        * right. exists k, a. repeat split; [lia|exact I|lia].
      + intros [[H|(E & a & H & T)]|(H & _)]; [auto| |discriminate].
        right. repeat split; [exact E|discriminate|]. exists a. auto.
      + intros [H|(E & _ & a & H & T)]; [auto|]. left. right. split; [exact E|]. exists a. auto.
  Qed.
  Lemma all_pairs ls : pairs = true -> forall s v, v_pairs (all s ls v) = fold_left (bump pcmp) (map label (concat ls)) (v_pairs v).
  Proof.
    intros P. induction ls as [|l ls IH]; intros s v; [reflexivity|]. cbn [all_states concat]. rewrite IH, map_app, fold_left_app.
    f_equal. use s v l. subst w. exact (go_pairs pairs s (entered s v) l P).
  Qed.
  Lemma all_dense ls : forall s v, let r := all s ls v in
    v_dense v <= v_dense r /\ (forall l, In l ls -> length l <= v_dense r) /\ (v_dense r = v_dense v \/ exists l, In l ls /\ length l = v_dense r).
  Proof.
    induction ls as [|l ls IH]; intros s v; cbn [all_states]; cbv zeta.
    - repeat split; [lia|intros l []|auto].
    - specialize (IH (S s) (one s v l)). cbv zeta in IH. remember (all (S s) ls (one s v l)) as r eqn:Er. clear Er. revert IH.
      use s v l. subst w. destruct (go_same pairs s (entered s v) l) as (_ & _ & -> & _). cbn [entered v_dense].
      intros (I1 & I2 & I3).
      assert (M : v_dense v <= v_dense r /\ length l <= v_dense r) by (destruct (Nat.ltb_spec (v_dense v) (length l)); lia).
      repeat split; [lia| |].
      + intros l' [<-|I]; [lia|apply I2; exact I].
      + destruct I3 as [I3|(l' & I & E)]; [|right; exists l'; cbn; auto].
        destruct (v_dense v <? length l); [right; exists l; cbn; auto|left; exact I3].
  Qed.
  Lemma all_sparse ls : forall s v, let r := v_sparse (all s ls v) in
    (forall n, v_sparse v = Some n -> exists m, r = Some m /\ m <= n) /\
    (forall l, In l ls -> exists m, r = Some m /\ m <= length l) /\ (r = v_sparse v \/ exists l, In l ls /\ r = Some (length l)).
  Proof.
    induction ls as [|l ls IH]; intros s v; cbn [all_states]; cbv zeta.
    - repeat split; [intros n ->; exists n; auto|intros l []|auto].
    - specialize (IH (S s) (one s v l)). cbv zeta in IH. remember (v_sparse (all (S s) ls (one s v l))) as r eqn:Er. clear Er. revert IH.
      use s v l. subst w. destruct (go_same pairs s (entered s v) l) as (_ & _ & _ & -> & _). cbn [entered v_sparse].
      intros (I1 & I2 & I3). destruct (v_sparse v) as [n|].
      + destruct (Nat.ltb_spec (length l) n) as [L|L]; destruct (I1 _ eq_refl) as (m & -> & M); repeat split.
        * intros n' E. injection E as <-. exists m. split; [reflexivity|lia].
        * intros l' [<-|I]; [exists m; auto|apply I2; exact I].
        * destruct I3 as [E|(l' & I & E)]; right; [exists l; cbn; auto|exists l'; cbn; auto].
        * intros n' E. injection E as <-. exists m. split; [reflexivity|lia].
        * intros l' [<-|I]; [exists m; split; [reflexivity|lia]|apply I2; exact I].
        * destruct I3 as [E|(l' & I & E)]; [left; exact E|right; exists l'; cbn; auto].
      + destruct (I1 _ eq_refl) as (m & -> & M); repeat split; [discriminate| |].
        * intros l' [<-|I]; [exists m; auto|apply I2; exact I].
        * destruct I3 as [E|(l' & I & E)]; right; [exists l; cbn; auto|exists l'; cbn; auto].
  Qed.
  Lemma all_uniq ls : forall s v, let r := all s ls v in
    v_uin r = v_uin v + total_distinct isy ls /\ v_uout r = v_uout v + total_distinct osy ls.
  Proof.
    unfold total_distinct. induction ls as [|l ls IH]; intros s v; [cbn; lia|].
    cbn [all_states map]; cbv zeta. destruct (IH (S s) (one s v l)) as [-> ->].
    use s v l. subst w. destruct (go_same pairs s (entered s v) l) as (_ & _ & _ & _ & -> & -> & _). cbn [entered v_uin v_uout].
    rewrite !(counted_length bcmp bstr_eq_dec bcmp_eq bcmp_trans bcmp_op). cbn [list_sum fold_right]. unfold list_sum. lia.
  Qed.
  Lemma largest_counted side b l : let r := largest b (counted bcmp (map side l)) in
    snd b <= snd r /\ (forall x, times side x l <= snd r) /\ (r = b \/ times side (fst r) l = snd r).
  Proof.
    cbv zeta. destruct (largest_spec (counted bcmp (map side l)) b) as (H1 & H2 & H3). cbv zeta in *. repeat split; [exact H1| |].
    - intros x. unfold times. destruct (count_occ bstr_eq_dec (map side l) x) eqn:E; [lia|]. rewrite <- E.
      apply (H2 x). apply (counted_In bcmp bstr_eq_dec bcmp_eq bcmp_trans bcmp_op). rewrite E. split; [reflexivity|lia].
    - destruct H3 as [H3|H3]; [left; exact H3|right]. destruct (largest b (counted bcmp (map side l))) as [k n].
      apply (counted_In bcmp bstr_eq_dec bcmp_eq bcmp_trans bcmp_op) in H3. cbn. symmetry. apply H3.
  Qed.
  Lemma all_most ls : forall s v, let r := all s ls v in
    (snd (v_min v) <= snd (v_min r) /\ (forall l x, In l ls -> times isy x l <= snd (v_min r)) /\
      (v_min r = v_min v \/ exists l, In l ls /\ times isy (fst (v_min r)) l = snd (v_min r))) /\
    (snd (v_mout v) <= snd (v_mout r) /\ (forall l x, In l ls -> times osy x l <= snd (v_mout r)) /\
      (v_mout r = v_mout v \/ exists l, In l ls /\ times osy (fst (v_mout r)) l = snd (v_mout r))).
  Proof.
    induction ls as [|l ls IH]; intros s v; cbn [all_states]; cbv zeta.
    - split; (repeat split; [lia|intros l x []|auto]).
    - specialize (IH (S s) (one s v l)). cbv zeta in IH. remember (all (S s) ls (one s v l)) as r eqn:Er. clear Er. revert IH.
      use s v l. subst w. destruct (go_same pairs s (entered s v) l) as (_ & _ & _ & _ & _ & _ & -> & ->). cbn [entered v_min v_mout].
      intros [(I1 & I2 & I3) (O1 & O2 & O3)].
      destruct (largest_counted isy (v_min v) l) as (A1 & A2 & A3). destruct (largest_counted osy (v_mout v) l) as (B1 & B2 & B3).
      cbv zeta in *. split; repeat split.
      + lia.
      + intros l' x [<-|I]; [specialize (A2 x); lia|apply I2; exact I].
      + destruct I3 as [->|(l' & I & E)]; [|right; exists l'; cbn; auto].
        destruct A3 as [E|E]; [left; exact E|right; exists l; cbn; auto].
      + lia.
      + intros l' x [<-|I]; [specialize (B2 x); lia|apply O2; exact I].
      + destruct O3 as [->|(l' & I & E)]; [|right; exists l'; cbn; auto].
        destruct B3 as [E|E]; [left; exact E|right; exists l; cbn; auto].
  Qed.
End Outer.

Lemma are_filter g (P : bstr * bstr -> Prop) (p : arc -> bool) : (forall a, p a = true <-> P (isy a, osy a)) ->
  transitions_are g P (length (filter p (concat (sts g)))).
Proof.
  intros H. exists (filter p (concat (sts g))), (filter (fun a => negb (p a)) (concat (sts g))). repeat split.
  - generalize (concat (sts g)). induction l as [|a l IH]; [constructor|]. cbn. destruct (p a); cbn.
    + constructor. exact IH.
    + apply Permutation_cons_app. exact IH.
  - apply Forall_forall. intros a I. apply filter_In in I. apply H, I.
  - apply Forall_forall. intros a I K. apply filter_In in I. destruct I as [_ I]. apply H in K. rewrite K in I. discriminate.
Qed.
