(** Nodes that are being built, and what they read. *)
From Verif Require Import Base SF_Spec SF_Model SF_Proofs.

Lemma label_eqb_eq a b : label_eqb a b = true <-> a = b.
Proof.
  unfold label_eqb. destruct a, b. cbn. rewrite andb_true_iff, !Nat.eqb_eq. split; [intros []; congruence|].
  intros E. injection E. auto.
Qed.
Lemma is_epsilon_eq l : is_epsilon l = true <-> l = (0, 0).
Proof. apply label_eqb_eq. Qed.
Lemma pair_eqb_eq a b : pair_eqb a b = true <-> a = b.
Proof. apply label_eqb_eq. Qed.
Lemma emit_eq l w : emit l w = if is_epsilon l then w else l :: w.
Proof. destruct l as [[|a] [|b]]; reflexivity. Qed.

Lemma update_length {A} n (f : A -> A) l : length (update n f l) = length l.
Proof. revert n; induction l as [|x l IH]; intros [|n]; simpl; auto. Qed.
Lemma nth_update {A} n (f : A -> A) l m d : n < length l ->
  nth m (update n f l) d = if m =? n then f (nth n l d) else nth m l d.
Proof.
  revert n m; induction l as [|x l IH]; intros n m H; simpl in H; [lia|].
  destruct n as [|n]; destruct m as [|m]; simpl; try reflexivity. rewrite IH by lia. reflexivity.
Qed.
Lemma node_at_update n f h m : n < length h ->
  node_at (update n f h) m = if m =? n then f (node_at h n) else node_at h m.
Proof. apply nth_update. Qed.
Lemma node_at_app h g m : m < length h -> node_at (h ++ g) m = node_at h m.
Proof. intros H. unfold node_at. apply app_nth1, H. Qed.
Lemma node_at_last h d : node_at (h ++ [d]) (length h) = d.
Proof. unfold node_at. rewrite app_nth2, Nat.sub_diag by lia. reflexivity. Qed.
Lemma node_at_over h n : length h <= n -> node_at h n = Node [] [] false.
Proof. apply nth_overflow. Qed.
Lemma add_arc_length n l t h : length (add_arc n l t h) = length h.
Proof. apply update_length. Qed.
Lemma set_final_length n b h : length (set_final n b h) = length h.
Proof. apply update_length. Qed.
Definition with_arc (l : label) (t : nat) (d : node) : node :=
  if is_epsilon l then Node (t :: eps d) (arcs d) (final d) else Node (eps d) ((l, t) :: arcs d) (final d).
Lemma node_at_add_arc n l t h m : n < length h ->
  node_at (add_arc n l t h) m = if m =? n then with_arc l t (node_at h n) else node_at h m.
Proof. apply node_at_update. Qed.
Lemma node_at_set_final n b h m : n < length h ->
  node_at (set_final n b h) m = if m =? n then Node (eps (node_at h n)) (arcs (node_at h n)) b else node_at h m.
Proof. apply node_at_update. Qed.
Lemma out_with_arc l t d x : In x (out (with_arc l t d)) <-> x = (l, t) \/ In x (out d).
Proof.
  unfold with_arc, out. destruct (is_epsilon l) eqn:E; cbn [eps arcs].
  - apply is_epsilon_eq in E. subst. cbn [map app In]. split; intros [H|H]; auto.
  - rewrite !in_app_iff. cbn [In]. split; [intros [H|[H|H]]|intros [H|[H|H]]]; auto.
Qed.
Lemma final_with_arc l t d : final (with_arc l t d) = final d.
Proof. unfold with_arc. destruct (is_epsilon l); reflexivity. Qed.
Lemma labels_with_arc l t d :
  map fst (arcs (with_arc l t d)) = (if is_epsilon l then [] else [l]) ++ map fst (arcs d).
Proof. unfold with_arc. destruct (is_epsilon l); reflexivity. Qed.

Section Built.
  Context {K : Type}.
  Variable keqb : K -> K -> bool.
  Hypothesis Hk : forall a b, keqb a b = true <-> a = b.
  Notation look := (find_key keqb).
  Lemma look_cons x k n m : look x ((k, n) :: m) = if keqb x k then Some n else look x m.
  Proof. reflexivity. Qed.
  Lemma keqb_same k : keqb k k = true. Proof. apply Hk. reflexivity. Qed.

  Record built (lo : nat) (base : nat -> node) (v : list K) (fin : K -> bool) (edge : K -> list (label * K))
               (g : list node) (m : list (K * nat)) : Prop := {
    b_lo : lo <= length g;
    b_base : forall i, i < lo -> node_at g i = base i;
    b_fwd : forall x, In x v -> exists n, look x m = Some n;
    b_range : forall x n, look x m = Some n -> In x v /\ lo <= n /\ n < length g;
    b_inj : forall x y n, look x m = Some n -> look y m = Some n -> x = y;
    b_surj : forall n, lo <= n -> n < length g -> exists x, look x m = Some n;
    b_fin : forall x n, look x m = Some n -> final (node_at g n) = fin x;
    b_lab : forall x n, look x m = Some n ->
      map fst (arcs (node_at g n)) = rev (filter (fun l => negb (is_epsilon l)) (map fst (edge x)));
    b_out : forall x n l t, look x m = Some n ->
      (In (l, t) (out (node_at g n)) <-> exists y, In (l, y) (edge x) /\ look y m = Some t);
    b_tgt : forall x l y, In x v -> In (l, y) (edge x) -> In y v }.

  Lemma built_ext lo base v v' fin edge g m base' fin' edge' :
    built lo base v fin edge g m -> (forall x, In x v' <-> In x v) -> (forall i, i < lo -> base' i = base i) ->
    (forall x, In x v -> fin' x = fin x) -> (forall x, In x v -> edge' x = edge x) ->
    built lo base' v' fin' edge' g m.
  Proof.
    intros [A1 A2 A3 A4 A5 A6 A7 A8 A9 A10] H0 H1 H2 H3.
    constructor; auto.
    - intros i Hi. rewrite H1 by exact Hi. auto.
    - intros x Hx. apply A3, H0, Hx.
    - intros x n Hx. rewrite H0. auto.
    - intros x n Hx. rewrite H2; [auto|]. apply (A4 _ _ Hx).
    - intros x n Hx. rewrite H3; [auto|]. apply (A4 _ _ Hx).
    - intros x n l t Hx. rewrite H3; [auto|]. apply (A4 _ _ Hx).
    - intros x l y Hx. rewrite H0 in *. rewrite H3; [eauto|]. exact Hx.
  Qed.

  Lemma built_alloc lo base v fin edge g m k b :
    built lo base v fin edge g m -> ~ In k v -> fin k = b -> edge k = [] ->
    built lo base (k :: v) fin edge (g ++ [Node [] [] b]) ((k, length g) :: m).
  Proof.
    intros [A1 A2 A3 A4 A5 A6 A7 A8 A9 A10] Nk Hf He.
    assert (Lold : forall x n, look x m = Some n -> look x ((k, length g) :: m) = Some n).
    { intros x n Hx. rewrite look_cons. destruct (keqb x k) eqn:E; [|exact Hx].
      apply Hk in E. subst. destruct (A4 _ _ Hx). contradiction. }
    assert (Lnew : forall x n, look x ((k, length g) :: m) = Some n ->
                     (x = k /\ n = length g) \/ (x <> k /\ look x m = Some n)).
    { intros x n. rewrite look_cons. destruct (keqb x k) eqn:E.
      - apply Hk in E. intros C. injection C as <-. auto.
      - intros Hx. right. split; [|exact Hx]. intros ->. rewrite keqb_same in E. discriminate. }
    constructor.
    - rewrite app_length. simpl. lia.
    - intros i Hi. rewrite node_at_app by lia. auto.
    - intros x [->|Hx].
      + exists (length g). rewrite look_cons, keqb_same. reflexivity.
      + destruct (A3 x Hx) as [n Hn]. exists n. auto.
    - intros x n Hx. rewrite app_length. cbn [length]. destruct (Lnew _ _ Hx) as [[-> ->]|[_ Hx']].
      + split; [left; reflexivity|lia].
      + destruct (A4 _ _ Hx'). split; [right; assumption|lia].
    - intros x y n Hx Hy. destruct (Lnew _ _ Hx) as [[-> ->]|[_ Hx']]; destruct (Lnew _ _ Hy) as [[-> E]|[_ Hy']].
      + reflexivity.
      + apply A4 in Hy'. lia.
      + apply A4 in Hx'. lia.
      + eauto.
    - intros n Hn Hl. rewrite app_length in Hl. cbn [length] in Hl. destruct (Nat.eq_dec n (length g)) as [->|N].
      + exists k. rewrite look_cons, keqb_same. reflexivity.
      + destruct (A6 n) as [x Hx]; [lia|lia|]. exists x. auto.
    - intros x n Hx. destruct (Lnew _ _ Hx) as [[-> ->]|[_ Hx']].
      + rewrite node_at_last. auto.
      + rewrite node_at_app by (apply A4 in Hx'; lia). auto.
    - intros x n Hx. destruct (Lnew _ _ Hx) as [[-> ->]|[_ Hx']].
      + rewrite node_at_last, He. reflexivity.
      + rewrite node_at_app by (apply A4 in Hx'; lia). auto.
    - intros x n l t Hx. destruct (Lnew _ _ Hx) as [[-> ->]|[_ Hx']].
      + rewrite node_at_last, He. cbn. split; [intros []|intros (y & [] & _)].
      + rewrite node_at_app by (apply A4 in Hx'; lia). rewrite (A9 x n l t Hx'). split.
        * intros (y & Hy & Hy'). exists y. auto.
        * intros (y & Hy & Hy'). exists y. split; [exact Hy|].
          destruct (Lnew _ _ Hy') as [[-> ->]|[_ H]]; [|exact H].
          exfalso. apply Nk. apply (A10 x l k); [|exact Hy]. apply (A4 _ _ Hx').
    - intros x l y [->|Hx] Hy; [rewrite He in Hy; destruct Hy|]. right. eauto.
  Qed.

  Lemma built_arc lo base v fin edge g m x y n t l edge' :
    built lo base v fin edge g m -> look x m = Some n -> look y m = Some t ->
    (edge' x = edge x ++ [(l, y)]) -> (forall z, z <> x -> edge' z = edge z) ->
    built lo base v fin edge' (add_arc n l t g) m.
  Proof.
    intros [A1 A2 A3 A4 A5 A6 A7 A8 A9 A10] Hx Hy E1 E2.
    assert (Hn : n < length g) by (apply A4 in Hx; tauto).
    assert (Hlo : lo <= n) by (apply A4 in Hx; tauto).
    constructor; rewrite ?add_arc_length; auto.
    - intros i Hi. rewrite node_at_add_arc by exact Hn.
      destruct (Nat.eqb_spec i n); [lia|auto].
    - intros z k Hz. rewrite node_at_add_arc by exact Hn. destruct (Nat.eqb_spec k n) as [->|N]; [|auto].
      rewrite final_with_arc. auto.
    - intros z k Hz. rewrite node_at_add_arc by exact Hn. destruct (Nat.eqb_spec k n) as [->|N].
      + rewrite (A5 _ _ _ Hz Hx). rewrite labels_with_arc, (A8 _ _ Hx), E1, map_app, filter_app, rev_app_distr.
        cbn [map filter fst]. destruct (is_epsilon l); reflexivity.
      + rewrite (A8 _ _ Hz), E2; [reflexivity|]. intros ->. congruence.
    - intros z k l' t' Hz. rewrite node_at_add_arc by exact Hn. destruct (Nat.eqb_spec k n) as [->|N].
      + rewrite (A5 _ _ _ Hz Hx). rewrite out_with_arc, (A9 _ _ _ _ Hx), E1. split.
        * intros [E|(u & Hu & Hu')].
          -- injection E as -> ->. exists y. split; [apply in_app_iff; right; left; reflexivity|exact Hy].
          -- exists u. split; [apply in_app_iff; left; exact Hu|exact Hu'].
        * intros (u & Hu & Hu'). apply in_app_iff in Hu. destruct Hu as [Hu|[E|[]]].
          -- right. exists u. auto.
          -- injection E as <- <-. left. congruence.
      + rewrite (A9 _ _ _ _ Hz), E2; [tauto|]. intros ->. congruence.
    - intros z l' u Hz Hu. destruct (keqb z x) eqn:E.
      + apply Hk in E. subst z. rewrite E1 in Hu. apply in_app_iff in Hu. destruct Hu as [Hu|[E|[]]]; [eauto|].
        injection E as <- <-. apply (A4 _ _ Hy).
      + rewrite E2 in Hu; [eauto|]. intros ->. rewrite keqb_same in E. discriminate.
  Qed.

  Lemma built_final lo base v fin edge g m x n b fin' :
    built lo base v fin edge g m -> look x m = Some n -> fin' x = b -> (forall z, z <> x -> fin' z = fin z) ->
    built lo base v fin' edge (set_final n b g) m.
  Proof.
    intros [A1 A2 A3 A4 A5 A6 A7 A8 A9 A10] Hx E1 E2.
    assert (Hn : n < length g) by (apply A4 in Hx; tauto).
    assert (Hlo : lo <= n) by (apply A4 in Hx; tauto).
    constructor; rewrite ?set_final_length; auto.
    - intros i Hi. rewrite node_at_set_final by exact Hn. destruct (Nat.eqb_spec i n); [lia|auto].
    - intros z k Hz. rewrite node_at_set_final by exact Hn. destruct (Nat.eqb_spec k n) as [->|N].
      + rewrite (A5 _ _ _ Hz Hx). auto.
      + rewrite (A7 _ _ Hz), E2; [reflexivity|]. intros ->. congruence.
    - intros z k Hz. rewrite node_at_set_final by exact Hn. destruct (Nat.eqb_spec k n) as [->|N]; [|auto].
      cbn [arcs]. auto.
    - intros z k l t Hz. rewrite node_at_set_final by exact Hn. destruct (Nat.eqb_spec k n) as [->|N]; [|auto].
      unfold out. cbn [eps arcs]. apply (A9 _ _ _ _ Hz).
  Qed.
End Built.

(** What is read in a graph given by its transitions and final nodes. *)
Inductive kreads {K} (sc : K -> list (label * K)) (fin : K -> bool) : K -> list label -> Prop :=
| kreads_end k : fin k = true -> kreads sc fin k []
| kreads_step k a w : In a (sc k) -> kreads sc fin (snd a) w -> kreads sc fin k (emit (fst a) w).

Lemma represented_reads {K} (sc : K -> list (label * K)) fin (R : K -> nat -> Prop) h :
  (forall k n, R k n -> final (node_at h n) = fin k /\
     forall l t, In (l, t) (out (node_at h n)) <-> exists y, In (l, y) (sc k) /\ R y t) ->
  (forall k a n, R k n -> In a (sc k) -> exists t, R (snd a) t) ->
  forall k n w, R k n -> reads h n w <-> kreads sc fin k w.
Proof.
  intros HR HT k n w Hkn. split.
  - intros H. revert k Hkn. induction H as [n F|n l t w Hi H IH]; intros k Hkn.
    + constructor. destruct (HR _ _ Hkn) as [E _]. congruence.
    + destruct (HR _ _ Hkn) as [_ E]. apply E in Hi. destruct Hi as (y & Hy & Ry).
      exact (kreads_step sc fin k (l, y) w Hy (IH y Ry)).
  - intros H. revert n Hkn. induction H as [k F|k [l y] w Hi H IH]; intros n Hkn.
    + constructor. destruct (HR _ _ Hkn) as [E _]. congruence.
    + destruct (HT _ _ _ Hkn Hi) as [t Ht]. cbn [fst snd] in *.
      apply reads_step with t; [|apply IH; exact Ht]. apply (HR _ _ Hkn). exists y. auto.
Qed.
Lemma reads_kreads h n w : reads h n w <-> kreads (fun n => out (node_at h n)) (fun n => final (node_at h n)) n w.
Proof.
  apply (represented_reads _ _ (fun k n => k = n)); [|eauto|reflexivity].
  intros k m <-. split; [reflexivity|]. intros l t. split; [intros H; exists t; auto|intros (y & H & ->); exact H].
Qed.
Lemma kreads_ext {K} (sc sc' : K -> list (label * K)) fin fin' (A : K -> Prop) :
  (forall k a, A k -> In a (sc k) -> A (snd a)) ->
  (forall k a, A k -> In a (sc k) <-> In a (sc' k)) -> (forall k, A k -> fin k = fin' k) ->
  forall k w, A k -> kreads sc fin k w <-> kreads sc' fin' k w.
Proof.
  intros C H1 H2 k w Hk. split; intros H.
  - induction H as [k F|k a w Hi H IH]; [constructor; rewrite <- H2; assumption|].
    apply kreads_step; [apply H1; assumption|apply IH; eauto].
  - induction H as [k F|k a w Hi H IH]; [constructor; rewrite H2; assumption|].
    apply kreads_step; [apply H1; assumption|apply IH]. apply H1 in Hi; [|assumption]. eauto.
Qed.
