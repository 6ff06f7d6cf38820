From Coq Require Import Permutation Sorted NArith.
From Verif Require Import Base OrdMap Flags_Model Flags_Spec Flags_Proofs BT_Model OLF_Proofs BT_Spec An_Spec OLF_Model OLC_Model OLC_Spec OLL_Model OLL_Spec
  OLC_Proofs OLL_Proofs2 OLL_Proofs3 OLL_Props LS_Model LS_Spec LS_Proofs LS_Proofs2.

(** * The order of outputs and of weights *)
Lemma ncmp_eq x : forall y, ncmp x y = Eq <-> x = y.
Proof.
  induction x as [|k x IH]; intros [|l y]; cbn [ncmp]; try (split; congruence).
  destruct (N.compare_spec k l) as [E|E|E]; [subst; rewrite IH; split; [intros ->; reflexivity|intros H; injection H; auto]| |]; split; try discriminate; intros H; injection H; intros; subst; lia.
Qed.
Lemma ncmp_op x : forall y, ncmp y x = CompOpp (ncmp x y).
Proof.
  induction x as [|k x IH]; intros [|l y]; cbn [ncmp]; auto. rewrite (N.compare_antisym k l). destruct (N.compare k l); cbn [CompOpp]; auto.
Qed.
Lemma ncmp_tr x : forall y z, ncmp x y = Lt -> ncmp y z = Lt -> ncmp x z = Lt.
Proof.
  induction x as [|k x IH]; intros [|l y] [|m z]; cbn [ncmp]; try discriminate; auto.
  destruct (N.compare_spec k l); destruct (N.compare_spec l m); try discriminate; intros H1 H2; destruct (N.compare_spec k m); try lia; auto.
  eapply IH; eassumption.
Qed.
Lemma wcmp_op p q : wcmp q p = CompOpp (wcmp p q).
Proof. unfold wcmp. rewrite (Z.compare_antisym (get_weight p) (get_weight q)). destruct (Z.compare _ _); cbn [CompOpp]; auto. apply ncmp_op. Qed.
Lemma wcmp_tr p q r : wcmp p q = Lt -> wcmp q r = Lt -> wcmp p r = Lt.
Proof.
  unfold wcmp. destruct (Z.compare_spec (get_weight p) (get_weight q)) as [A|A|A]; destruct (Z.compare_spec (get_weight q) (get_weight r)) as [B|B|B]; try discriminate; intros H1 H2;
    destruct (Z.compare_spec (get_weight p) (get_weight r)); try lia; auto. eapply ncmp_tr; eassumption.
Qed.
Lemma wcmp_eq_out p q : wcmp p q = Eq -> lp_out p = lp_out q.
Proof. unfold wcmp. destruct (Z.compare _ _); try discriminate. apply ncmp_eq. Qed.

(** * The set of final paths *)
Section Finals.
  Variables (before : path -> path -> bool) (dec : N -> Z) (t : tables).
  Definition keyed (m : list (list N * path)) : Prop := StronglySorted (klt ncmp) (map fst m) /\ forall k p, In (k, p) m -> lp_out p = k.
  Lemma keyed_set m p : keyed m -> keyed (mset ncmp (lp_out p) p m).
  Proof.
    intros (S & K). split; [apply (sorted_mset ncmp ncmp_eq ncmp_tr ncmp_op), S|]. intros k q H. apply In_mset in H. destruct H as [H|H]; [congruence|auto].
  Qed.
  Lemma add_final_spec m p : keyed m -> keyed (add_final before m p) /\
    (forall k q, In (k, q) (add_final before m p) -> In (k, q) m \/ q = p) /\
    (forall k, In k (map fst m) \/ k = lp_out p -> In k (map fst (add_final before m p))).
  Proof.
    intros K. assert (A : keyed (mset ncmp (lp_out p) p m) /\ (forall k q, In (k, q) (mset ncmp (lp_out p) p m) -> In (k, q) m \/ q = p) /\
      (forall k, In k (map fst m) \/ k = lp_out p -> In k (map fst (mset ncmp (lp_out p) p m)))).
    { split; [apply keyed_set, K|]. split.
      - intros k q H. apply In_mset in H. destruct H as [H|H]; [right; congruence|auto].
      - intros k H. assert (G : exists q, mget ncmp k (mset ncmp (lp_out p) p m) = Some q).
        { destruct (ncmp k (lp_out p)) eqn:E.
          - apply ncmp_eq in E. subst k. exists p. apply (mget_mset_same ncmp ncmp_eq).
          - assert (N : k <> lp_out p) by (intros Q; apply ncmp_eq in Q; congruence). rewrite (mget_mset_other ncmp ncmp_eq) by exact N. destruct H as [H|H]; [|contradiction].
            apply in_map_iff in H. destruct H as ((k', q) & Q & H). cbn [fst] in Q. subst k'. exists q. apply (mget_sorted_In ncmp ncmp_eq); [|exact H]. apply (sorted_NoDup ncmp ncmp_eq), K.
          - assert (N : k <> lp_out p) by (intros Q; apply ncmp_eq in Q; congruence). rewrite (mget_mset_other ncmp ncmp_eq) by exact N. destruct H as [H|H]; [|contradiction].
            apply in_map_iff in H. destruct H as ((k', q) & Q & H). cbn [fst] in Q. subst k'. exists q. apply (mget_sorted_In ncmp ncmp_eq); [|exact H]. apply (sorted_NoDup ncmp ncmp_eq), K. }
        destruct G as (q & G). apply (mget_In ncmp ncmp_eq) in G. apply in_map_iff. exists (k, q). auto. }
    unfold add_final. destruct (mget ncmp (lp_out p) m) as [q|] eqn:E; [|exact A]. destruct (before p q); [exact A|].
    split; [exact K|]. split; [auto|]. intros k [H| ->]; [exact H|]. apply (mget_In ncmp ncmp_eq) in E. apply in_map_iff. exists (lp_out p, q). auto.
  Qed.
  Lemma gather_spec : forall ps m, keyed m -> (forall p, In p ps -> exists b, at_final dec t p = Ok b) ->
    exists m', gather_finals before dec t ps m = Ok m' /\ keyed m' /\
      (forall k q, In (k, q) m' -> In (k, q) m \/ (In q ps /\ at_final dec t q = Ok true)) /\
      (forall k, In k (map fst m) -> In k (map fst m')) /\
      (forall p, In p ps -> at_final dec t p = Ok true -> In (lp_out p) (map fst m')).
  Proof.
    induction ps as [|p ps IH]; intros m K HF; cbn [gather_finals].
    - exists m. split; [reflexivity|]. split; [exact K|]. split; [auto|]. split; [auto|]. intros p [].
    - destruct (HF p (or_introl eq_refl)) as (b & Eb). rewrite Eb. cbn [rbind].
      assert (HF' : forall p, In p ps -> exists b, at_final dec t p = Ok b) by (intros q Hq; apply HF; right; exact Hq).
      destruct b.
      + destruct (add_final_spec m p K) as (K1 & A1 & A2). destruct (IH _ K1 HF') as (m' & E & K2 & B1 & B2 & B3). exists m'. split; [exact E|]. split; [exact K2|]. split; [|split].
        * intros k q H. destruct (B1 k q H) as [H1|(H1 & H2)]; [destruct (A1 k q H1) as [H2|H2]; [auto|subst q; right; split; [left; reflexivity|exact Eb]]|right; split; [right; exact H1|exact H2]].
        * intros k H. apply B2, A2. auto.
        * intros q [<- |Hq] Fq; [apply B2, A2; auto|apply B3; auto].
      + destruct (IH _ K HF') as (m' & E & K2 & B1 & B2 & B3). exists m'. split; [exact E|]. split; [exact K2|]. split; [|split].
        * intros k q H. destruct (B1 k q H) as [H1|(H1 & H2)]; [auto|right; split; [right; exact H1|exact H2]].
        * exact B2.
        * intros q [<- |Hq] Fq; [congruence|apply B3; auto].
  Qed.
  Lemma finals_spec ps : (forall p, In p ps -> exists b, at_final dec t p = Ok b) -> exists fs, get_finals_set before dec t ps = Ok fs /\
    NoDup (map lp_out fs) /\ (forall p, In p fs -> In p ps /\ at_final dec t p = Ok true) /\
    (forall p, In p ps -> at_final dec t p = Ok true -> exists q, In q fs /\ lp_out q = lp_out p).
  Proof.
    intros HF. destruct (gather_spec ps [] (conj (SSorted_nil _) (fun k p (H : In _ []) => match H with end)) HF) as (m & E & (S & K) & B1 & _ & B3).
    exists (map snd m). unfold get_finals_set. rewrite E. split; [reflexivity|]. split; [|split].
    - replace (map lp_out (map snd m)) with (map fst m); [apply (sorted_NoDup ncmp ncmp_eq), S|]. rewrite map_map. apply map_ext_in. intros (k, p) H. cbn [fst snd]. symmetry. apply K, H.
    - intros p H. apply in_map_iff in H. destruct H as ((k, q) & Q & H). cbn [snd] in Q. subst q. destruct (B1 k p H) as [[]|H1]. exact H1.
    - intros p Hp Fp. apply B3 in Fp; [|exact Hp]. apply in_map_iff in Fp. destruct Fp as ((k, q) & Q & H). cbn [fst] in Q. subst k. exists q. split; [apply in_map_iff; exists (lp_out p, q); auto|]. apply K, H.
  Qed.
  Lemma is_final_spec ps : (forall p, In p ps -> exists b, at_final dec t p = Ok b) -> exists b, is_final dec t ps = Ok b /\
    (b = true <-> exists p, In p ps /\ at_final dec t p = Ok true).
  Proof.
    induction ps as [|p ps IH]; intros HF; cbn [is_final].
    - exists false. split; [reflexivity|]. split; [discriminate|intros (p & [] & _)].
    - destruct (HF p (or_introl eq_refl)) as ([|] & Eb); rewrite Eb; cbn [rbind].
      + exists true. split; [reflexivity|]. split; [intros _; exists p; split; [left; reflexivity|exact Eb]|reflexivity].
      + destruct IH as (b & E & I); [intros q Hq; apply HF; right; exact Hq|]. exists b. split; [exact E|]. rewrite I. split.
        * intros (q & Hq & Fq). exists q. split; [right; exact Hq|exact Fq].
        * intros (q & [<- |Hq] & Fq); [congruence|eauto].
  Qed.
End Finals.

(** * The choice among the analyses *)
Section Choice.
  Definition wlt (p q : path) : Prop := wcmp p q = Lt.
  Lemma sadd_distinct p : forall s, ~ In (lp_out p) (map lp_out s) -> StronglySorted wlt s ->
    StronglySorted wlt (sadd wcmp p s) /\ forall x, In x (sadd wcmp p s) <-> x = p \/ In x s.
  Proof.
    induction s as [|q s IH]; intros N S; cbn [sadd].
    - split; [constructor; constructor|]. intros x. cbn [In]. split; [intros [<- |[]]; auto|intros [-> |[]]; auto].
    - inversion S as [|? ? S1 F]; subst. destruct (wcmp p q) eqn:E.
      + exfalso. apply N. left. symmetry. apply wcmp_eq_out, E.
      + split; [|intros x; cbn [In]; intuition]. constructor; [exact S|]. constructor; [exact E|]. rewrite Forall_forall in *. intros z Hz. eapply wcmp_tr; [exact E|apply F, Hz].
      + destruct IH as (S2 & I); [intros H; apply N; right; exact H|exact S1|]. split; [|intros x; cbn [In]; rewrite I; intuition].
        constructor; [exact S2|]. apply Forall_forall. intros z Hz. apply I in Hz. destruct Hz as [-> |Hz]; [unfold wlt; rewrite wcmp_op, E; reflexivity|]. rewrite Forall_forall in F. apply F, Hz.
  Qed.
  Lemma by_weight_spec l : NoDup (map lp_out l) -> StronglySorted wlt (by_weight l) /\ forall x, In x (by_weight l) <-> In x l.
  Proof.
    unfold by_weight. intros N. assert (G : forall l acc, NoDup (map lp_out l) -> StronglySorted wlt acc -> (forall p q, In p l -> In q acc -> lp_out p <> lp_out q) ->
      StronglySorted wlt (fold_left (fun s p => sadd wcmp p s) l acc) /\ forall x, In x (fold_left (fun s p => sadd wcmp p s) l acc) <-> In x l \/ In x acc).
    { clear l N. induction l as [|p l IH]; intros acc N S D; cbn [fold_left map] in *; [split; [exact S|intros x; cbn [In]; intuition]|].
      inversion N as [|? ? N1 N2]; subst. destruct (sadd_distinct p acc) as (S2 & I); [|exact S|].
      - intros H. apply in_map_iff in H. destruct H as (q & Q & Hq). exact (D p q (or_introl eq_refl) Hq (eq_sym Q)).
      - destruct (IH (sadd wcmp p acc) N2 S2) as (S3 & I3).
        + intros a b Ha Hb. apply I in Hb. destruct Hb as [-> |Hb]; [intros Q; apply N1; rewrite <- Q; apply in_map, Ha|apply D; [right; exact Ha|exact Hb]].
        + split; [exact S3|]. intros x. rewrite I3, I. cbn [In]. intuition. }
    destruct (G l [] N (SSorted_nil _)) as (S & I); [intros p q _ []|]. split; [exact S|]. intros x. rewrite I. cbn [In]. intuition.
  Qed.

  Lemma fewest_spec b l : (forall p, In p l -> (fewest b l <= b p)%nat) /\ (l <> [] -> exists p, In p l /\ b p = fewest b l).
  Proof.
    unfold fewest. assert (G : forall l m, (fold_left (fun m p => Nat.min m (b p)) l m <= m)%nat /\ (forall p, In p l -> (fold_left (fun m p => Nat.min m (b p)) l m <= b p)%nat) /\
      (fold_left (fun m p => Nat.min m (b p)) l m = m \/ exists p, In p l /\ b p = fold_left (fun m p => Nat.min m (b p)) l m)).
    { clear l. induction l as [|q l IH]; intros m; cbn [fold_left]; [split; [lia|]; split; [intros p []|auto]|].
      destruct (IH (Nat.min m (b q))) as (A1 & A2 & A3). split; [lia|]. split.
      - intros p [<- |Hp]; [lia|apply A2, Hp].
      - destruct A3 as [A3|(p & Hp & E)]; [|right; exists p; split; [right; exact Hp|exact E]].
        destruct (Nat.min_spec m (b q)) as [(L & E)|(L & E)]; [left; lia|right; exists q; split; [left; reflexivity|lia]]. }
    destruct (G l (match l with [] => O | p :: _ => b p end)) as (A1 & A2 & A3). split; [exact A2|]. intros N. destruct l as [|q l]; [congruence|].
    destruct A3 as [A3|A3]; [exists q; split; [left; reflexivity|congruence]|exact A3].
  Qed.
  Lemma filter_compounds_spec b l x : In x (filter_compounds b l) <-> In x l /\ forall q, In q l -> (b x <= b q)%nat.
  Proof.
    unfold filter_compounds. rewrite filter_In. destruct (fewest_spec b l) as (F1 & F2). split.
    - intros (Hx & L). apply negb_true_iff, Nat.ltb_ge in L. split; [exact Hx|]. intros q Hq. specialize (F1 q Hq). lia.
    - intros (Hx & L). split; [exact Hx|]. apply negb_true_iff, Nat.ltb_ge. destruct F2 as (q & Hq & E); [intros ->; destruct Hx|]. specialize (L q Hq). lia.
  Qed.
  Lemma sorted_filter {A} (R : A -> A -> Prop) f l : StronglySorted R l -> StronglySorted R (filter f l).
  Proof.
    induction 1 as [|x l S IH F]; cbn [filter]; [constructor|]. destruct (f x); [|exact IH]. constructor; [exact IH|].
    apply Forall_forall. intros y Hy. apply filter_In in Hy. rewrite Forall_forall in F. apply F, Hy.
  Qed.
  Lemma wlt_le p q : wlt p q -> (get_weight p <= get_weight q)%Z.
  Proof. unfold wlt, wcmp. destruct (Z.compare_spec (get_weight p) (get_weight q)); try discriminate; lia. Qed.

  (** The distinct weights below one. *)
  Definition below (l : list path) (w : Z) : list Z := nodup Z.eq_dec (filter (fun v => (v <? w)%Z) (map get_weight l)).
  Lemma below_In l w v : In v (below l w) <-> (v < w)%Z /\ exists q, In q l /\ get_weight q = v.
  Proof. unfold below. rewrite nodup_In, filter_In, in_map_iff, Z.ltb_lt. split; intros H; [destruct H as ((q & E & H) & L)|destruct H as (L & q & H & E)]; split; eauto. Qed.
  Lemma below_NoDup l w : NoDup (below l w). Proof. apply NoDup_nodup. Qed.
  Lemma below_mono l v w : (v <= w)%Z -> (length (below l v) <= length (below l w))%nat.
  Proof. intros L. apply NoDup_incl_length; [apply below_NoDup|]. intros x Hx. apply below_In in Hx. apply below_In. destruct Hx as (A & B). split; [lia|exact B]. Qed.
  Lemma among_best_below n l p : among_best n l p <-> (Z.of_nat (length (below l (get_weight p))) < n)%Z.
  Proof.
    split.
    - intros (ws & N & I & L). replace (length (below l (get_weight p))) with (length ws); [exact L|]. apply Permutation_length, NoDup_Permutation; [exact N|apply below_NoDup|]. intros x. rewrite I, below_In. reflexivity.
    - intros L. exists (below l (get_weight p)). split; [apply below_NoDup|]. split; [intros w; apply below_In|exact L].
  Qed.
  Lemma sorted_app_lt {A} (R : A -> A -> Prop) l1 : forall l2, StronglySorted R (l1 ++ l2) -> forall x y, In x l1 -> In y l2 -> R x y.
  Proof.
    induction l1 as [|a l1 IH]; intros l2 S x y Hx Hy; [destruct Hx|]. cbn [app] in S. inversion S as [|? ? S1 F]; subst. destruct Hx as [<- |Hx]; [|eapply IH; eassumption].
    rewrite Forall_forall in F. apply F, in_app_iff. auto.
  Qed.
  Lemma sorted_app_r {A} (R : A -> A -> Prop) l1 : forall l2, StronglySorted R (l1 ++ l2) -> StronglySorted R l2.
  Proof. induction l1 as [|a l1 IH]; intros l2 S; [exact S|]. cbn [app] in S. inversion S; subst. apply IH. assumption. Qed.
  Lemma best_classes_spec max whole : forall l done, whole = done ++ l -> StronglySorted wlt whole ->
    forall found, match found with
                  | None => done = []
                  | Some (n, w) => n = (1 + Z.of_nat (length (below whole w)))%Z /\ (exists p, In p done /\ get_weight p = w) /\ forall p, In p done -> (get_weight p <= w)%Z
                  end ->
    best_classes max found l = filter (fun p => (Z.of_nat (length (below whole (get_weight p))) <? max)%Z) l.
  Proof.
    induction l as [|p l IH]; intros done EW S found HF; [reflexivity|]. cbn [best_classes filter].
    assert (Ge : forall q, In q l -> (get_weight p <= get_weight q)%Z).
    { intros q Hq. apply wlt_le. rewrite EW in S. apply sorted_app_r in S. inversion S as [|? ? S1 F]; subst. rewrite Forall_forall in F. apply F, Hq. }
    assert (Le : forall q, In q done -> (get_weight q <= get_weight p)%Z).
    { intros q Hq. apply wlt_le. rewrite EW in S. eapply sorted_app_lt; [exact S|exact Hq|left; reflexivity]. }
    assert (EN : match found with None => 1%Z | Some (n, w) => if (w =? get_weight p)%Z then n else (n + 1)%Z end = (1 + Z.of_nat (length (below whole (get_weight p))))%Z).
    { destruct found as [(n, w)|].
      - destruct HF as (-> & (p0 & Hp0 & Ew) & Lw). destruct (Z.eqb_spec w (get_weight p)) as [-> |NE]; [reflexivity|].
        assert (Lt : (w < get_weight p)%Z) by (specialize (Le p0 Hp0); lia).
        replace (length (below whole (get_weight p))) with (length (w :: below whole w)); [cbn [length]; lia|].
        apply Permutation_length, NoDup_Permutation; [constructor; [intros H; apply below_In in H; lia|apply below_NoDup]|apply below_NoDup|].
        intros x. cbn [In]. rewrite !below_In. split.
        + intros [<- |(L & q & Hq & E)]; [split; [exact Lt|exists p0; split; [rewrite EW; apply in_app_iff; auto|exact Ew]]|split; [lia|eauto]].
        + intros (L & q & Hq & E). destruct (Z.eq_dec x w) as [-> |D]; [auto|right]. split; [|eauto]. rewrite EW in Hq. apply in_app_iff in Hq. destruct Hq as [Hq|[<- |Hq]]; [specialize (Lw q Hq); lia|lia|specialize (Ge q Hq); lia].
      - subst done. cbn [app] in EW. destruct (below whole (get_weight p)) as [|x r] eqn:EB; [reflexivity|]. exfalso.
        assert (H : In x (below whole (get_weight p))) by (rewrite EB; left; reflexivity). apply below_In in H. destruct H as (L & q & Hq & E). rewrite EW in Hq. destruct Hq as [<- |Hq]; [lia|specialize (Ge q Hq); lia]. }
    rewrite EN. destruct (Z.ltb_spec max (1 + Z.of_nat (length (below whole (get_weight p))))) as [L|L].
    - destruct (Z.ltb_spec (Z.of_nat (length (below whole (get_weight p)))) max) as [X|_]; [lia|]. symmetry.
      assert (Z0 : forall l', incl l' l -> filter (fun p => (Z.of_nat (length (below whole (get_weight p))) <? max)%Z) l' = []).
      { induction l' as [|q l' IHl]; intros I; [reflexivity|]. cbn [filter]. pose proof (below_mono whole _ _ (Ge q (I q (or_introl eq_refl)))). destruct (Z.ltb_spec (Z.of_nat (length (below whole (get_weight q)))) max); [lia|].
        apply IHl. intros x Hx. apply I. right. exact Hx. }
      apply Z0. intros x Hx. exact Hx.
    - destruct (Z.ltb_spec (Z.of_nat (length (below whole (get_weight p)))) max) as [_|X]; [|lia]. f_equal.
      apply (IH (done ++ [p])); [rewrite <- app_assoc; exact EW|exact S|]. split; [reflexivity|]. split; [exists p; split; [apply in_app_iff; right; left; reflexivity|reflexivity]|].
      intros q Hq. apply in_app_iff in Hq. destruct Hq as [Hq|[<- |[]]]; [apply Le, Hq|lia].
  Qed.
  Lemma below_ext l l' w : (forall x, In x l <-> In x l') -> length (below l w) = length (below l' w).
  Proof.
    intros H. apply Permutation_length, NoDup_Permutation; [apply below_NoDup|apply below_NoDup|]. intros x. rewrite !below_In. split; intros (L & q & Hq & E); split; auto; exists q; split; auto; apply H, Hq.
  Qed.
  (** The candidates: with compound filtering, those with the fewest boundaries. *)
  Definition candidate (compounds : bool) (boundaries : path -> nat) (finals : list path) (p : path) : Prop :=
    In p finals /\ (compounds = true -> forall q, In q finals -> (boundaries p <= boundaries q)%nat).
  Lemma preprocess_spec compounds boundaries mc ma finals : NoDup (map lp_out finals) ->
    exists cands best, (forall p, In p cands <-> candidate compounds boundaries finals p) /\
      (forall p, In p best <-> In p cands /\ among_best mc cands p) /\ StronglySorted wlt best /\
      preprocess_finals compounds boundaries mc ma finals = firstn (Z.to_nat ma) best.
  Proof.
    intros N. destruct (by_weight_spec finals N) as (S & I). unfold preprocess_finals.
    set (l := if compounds then filter_compounds boundaries (by_weight finals) else by_weight finals).
    assert (Sl : StronglySorted wlt l) by (unfold l; destruct compounds; [apply sorted_filter, S|exact S]).
    exists l, (best_classes mc None l). split; [|split; [|split; [|reflexivity]]].
    - intros p. unfold l, candidate. destruct compounds.
      + rewrite filter_compounds_spec, I. split; intros (A & B); (split; [exact A|]); intros; apply B; auto; apply I; auto.
      + rewrite I. split; [intros A; split; [exact A|discriminate]|intros (A & _); exact A].
    - intros p. rewrite (best_classes_spec mc l l [] eq_refl Sl None eq_refl), filter_In, among_best_below, Z.ltb_lt. reflexivity.
    - rewrite (best_classes_spec mc l l [] eq_refl Sl None eq_refl). apply sorted_filter, Sl.
  Qed.
End Choice.
