(** Equality, cycles and automata. *)
From Verif Require Import Base SF_Spec SF_Model SF_Proofs SF_Proofs2 SF_Proofs3 SF_Proofs5 SF_Proofs6 SF_Proofs7 SF_Proofs8 SM_Model SM_Proofs5 SM_Proofs6 SM_Proofs7.

(** How many nodes of a graph are not in a list. *)
Definition fresh (n : nat) (v : list nat) : nat := length (filter (fun x => negb (existsb (Nat.eqb x) v)) (seq 0 n)).
Lemma existsb_In x v : existsb (Nat.eqb x) v = true <-> In x v.
Proof.
  rewrite existsb_exists. split; [intros (y & H & E); apply Nat.eqb_eq in E; subst; exact H|]. intros H. exists x. split; [exact H|apply Nat.eqb_refl].
Qed.
Lemma existsb_nIn x v : existsb (Nat.eqb x) v = false <-> ~ In x v.
Proof. rewrite <- existsb_In. destruct (existsb (Nat.eqb x) v); split; congruence. Qed.
Lemma filter_le {A} (f g : A -> bool) l : (forall x, f x = true -> g x = true) -> length (filter f l) <= length (filter g l).
Proof.
  intros H. induction l as [|x l IH]; [reflexivity|]. cbn [filter]. destruct (f x) eqn:F.
  - rewrite (H x F). cbn [length]. lia.
  - destruct (g x); cbn [length]; lia.
Qed.
Lemma filter_lt {A} (f g : A -> bool) l y : (forall x, f x = true -> g x = true) -> In y l -> f y = false -> g y = true -> length (filter f l) < length (filter g l).
Proof.
  intros H Hy F Gy. induction l as [|x l IH]; [destruct Hy|]. cbn [filter]. destruct Hy as [->|Hy].
  - rewrite F, Gy. cbn [length]. pose proof (filter_le f g l H). lia.
  - specialize (IH Hy). destruct (f x) eqn:Fx; [rewrite (H x Fx); cbn [length]; lia|]. destruct (g x); cbn [length]; lia.
Qed.
Lemma fresh_le n v w : incl v w -> fresh n w <= fresh n v.
Proof.
  intros H. apply filter_le. intros x Hx. apply negb_true_iff in Hx. apply negb_true_iff. apply existsb_nIn in Hx. apply existsb_nIn. intros C. apply Hx, H, C.
Qed.
Lemma fresh_lt n v x : x < n -> ~ In x v -> fresh n (x :: v) < fresh n v.
Proof.
  intros Hx Nx. apply (filter_lt _ _ _ x).
  - intros y Hy. apply negb_true_iff in Hy. apply negb_true_iff. apply existsb_nIn in Hy. apply existsb_nIn. intros C. apply Hy. right. exact C.
  - apply in_seq. lia.
  - apply negb_false_iff. apply existsb_In. left. reflexivity.
  - apply negb_true_iff, existsb_nIn, Nx.
Qed.
Lemma fresh_all n v : fresh n v <= n.
Proof.
  unfold fresh. rewrite <- (seq_length n 0) at 2. induction (seq 0 n) as [|x l IH]; [reflexivity|]. cbn [filter]. destruct (negb _); cbn [length]; lia.
Qed.

Section Aut.
  Variable h : list node.
  Hypothesis G : graph_ok h.
  Definition aut_loop (f : nat) := fix loop (l : list (label * nat)) (vis : list nat) : res (bool * list nat) :=
    match l with
    | [] => Ok (true, vis)
    | a :: l' =>
        if negb (snd (fst a) =? fst (fst a)) then Ok (false, vis) else
        rbind (is_automaton_node h f (snd a) vis) (fun '(b, vis') =>
        if b then loop l' vis' else Ok (false, vis'))
    end.
  Lemma automaton_eq f n vis : is_automaton_node h (S f) n vis =
    if existsb (Nat.eqb n) vis then Ok (true, vis) else aut_loop f (out (node_at h n)) (n :: vis).
  Proof. reflexivity. Qed.
  Definition good (v : list nat) (n : nat) : Prop := forall l t, In (l, t) (out (node_at h n)) -> fst l = snd l /\ In t v.
  Definition bad (n : nat) : Prop := exists m l t, reachable h n m /\ In (l, t) (out (node_at h m)) /\ fst l <> snd l.
  Lemma good_incl v w n : incl v w -> good v n -> good w n.
  Proof. intros H Hg l t Hi. destruct (Hg l t Hi). auto. Qed.
  Definition aut_post (vis : list nat) (b : bool) (vis' : list nat) : Prop :=
    incl vis vis' /\ (b = true -> forall x, In x vis' -> ~ In x vis -> good vis' x).
  Lemma automaton_run f : forall n vis, n < length h -> fresh (length h) vis < f -> exists b vis',
    is_automaton_node h f n vis = Ok (b, vis') /\ aut_post vis b vis' /\ (b = true -> In n vis') /\ (b = false -> bad n).
  Proof using G.
    induction f as [|f IH]; intros n vis Hn Hf; [lia|]. rewrite automaton_eq. destruct (existsb (Nat.eqb n) vis) eqn:Ev.
    { apply existsb_In in Ev. exists true, vis. split; [reflexivity|]. split; [split; [apply incl_refl|intros _ x H1 H2; contradiction]|]. split; [auto|discriminate]. }
    apply existsb_nIn in Ev. pose proof (fresh_lt _ _ _ Hn Ev) as Hl.
    assert (Loop : forall l v, incl l (out (node_at h n)) -> fresh (length h) v < f -> exists b v', aut_loop f l v = Ok (b, v') /\ aut_post v b v' /\
              (b = true -> forall x t, In (x, t) l -> fst x = snd x /\ In t v') /\ (b = false -> bad n)).
    { induction l as [|[x t] l IHl]; intros v Hi Hc; cbn [aut_loop fst snd]; fold (aut_loop f).
      - exists true, v. split; [reflexivity|]. split; [split; [apply incl_refl|intros _ y H1 H2; contradiction]|]. split; [intros _ x t []|discriminate].
      - destruct (Nat.eqb_spec (snd x) (fst x)) as [Ex|Ex]; cbn [negb].
        2:{ exists false, v. split; [reflexivity|]. split; [split; [apply incl_refl|discriminate]|]. split; [discriminate|]. intros _. exists n, x, t. split; [constructor|].
            split; [apply Hi; left; reflexivity|congruence]. }
        assert (Hin : In (x, t) (out (node_at h n))) by (apply Hi; left; reflexivity).
        pose proof (proj1 (proj2 G n Hn) x t Hin) as Ht. destruct (IH t v Ht Hc) as (b & v1 & E1 & [P1 P2] & P3 & P4). rewrite E1. cbn [rbind]. destruct b.
        + destruct (IHl v1) as (b' & v2 & E2 & [Q1 Q2] & Q3 & Q4).
          { intros y Hy. apply Hi. right. exact Hy. }
          { pose proof (fresh_le (length h) v v1 P1). lia. }
          exists b', v2. split; [exact E2|]. split; [split; [exact (incl_tran P1 Q1)|]|].
          * intros Hb y Hy Ny. destruct (in_dec Nat.eq_dec y v1) as [Hy1|Hy1].
            -- apply (good_incl v1 v2 y Q1). exact (P2 eq_refl y Hy1 Ny).
            -- exact (Q2 Hb y Hy Hy1).
          * split; [|exact Q4]. intros Hb x' t' [C|C].
            -- injection C as <- <-. split; [congruence|]. apply Q1, P3, eq_refl.
            -- exact (Q3 Hb x' t' C).
        + exists false, v1. split; [reflexivity|]. split; [split; [exact P1|discriminate]|]. split; [discriminate|]. intros _.
          destruct (P4 eq_refl) as (m & l2 & t2 & R & H1 & H2). exists m, l2, t2. split; [econstructor; [exact Hin|exact R]|auto]. }
    destruct (Loop (out (node_at h n)) (n :: vis) (incl_refl _)) as (b & v' & E & [P1 P2] & P3 & P4); [lia|]. exists b, v'. split; [exact E|].
    split; [split; [intros x Hx; apply P1; right; exact Hx|]|].
    - intros Hb x Hx Nx. destruct (Nat.eq_dec x n) as [->|Nn].
      + intros l t Hi. exact (P3 Hb l t Hi).
      + apply (P2 Hb x Hx). intros [C|C]; [congruence|contradiction].
    - split; [|exact P4]. intros _. apply P1. left. reflexivity.
  Qed.
End Aut.
Lemma is_automaton_correct t : graph_ok (nodes t) -> exists b, is_automaton t = Ok b /\
  (b = true <-> forall n l m, reachable (nodes t) 0 n -> In (l, m) (out (node_at (nodes t) n)) -> fst l = snd l).
Proof.
  intros G. unfold is_automaton. destruct (automaton_run (nodes t) G (S (length (nodes t))) 0 []) as (b & v & E & [P1 P2] & P3 & P4).
  { apply graph_root, G. }
  { pose proof (fresh_all (length (nodes t)) []). lia. }
  rewrite E. cbn [rmap rbind fst]. exists b. split; [reflexivity|]. split.
  - intros Hb n l m R Hi.
    assert (Hv : In n v).
    { specialize (P3 Hb). clear - P3 P2 Hb R. induction R as [n|n l m k Hi R IH]; [exact P3|]. apply IH. exact (proj2 (P2 Hb n P3 (fun C => C) l m Hi)). }
    exact (proj1 (P2 Hb n Hv (fun C => C) l m Hi)).
  - intros H. destruct b; [reflexivity|]. destruct (P4 eq_refl) as (m & l & k & R & Hi & N). destruct (N (H m l k R Hi)).
Qed.

Section Cyc.
  Variable h : list node.
  Hypothesis G : graph_ok h.
  Definition cyc_loop (f n : nat) (path : list nat) := fix loop (l : list (label * nat)) (vis : list nat) : res (bool * list nat) :=
    match l with
    | [] => Ok (false, vis)
    | a :: l' =>
        if existsb (Nat.eqb (snd a)) (n :: path) then Ok (true, vis) else
        rbind (is_cyclic_node h f (snd a) (n :: path) vis) (fun '(b, vis') =>
        if b then Ok (true, vis') else loop l' vis')
    end.
  Lemma cyclic_eq f n path vis : is_cyclic_node h (S f) n path vis =
    if existsb (Nat.eqb n) vis then Ok (false, vis) else cyc_loop f n path (out (node_at h n)) (n :: vis).
  Proof. reflexivity. Qed.
  Definition on_cycle (x : nat) : Prop := exists l y, In (l, y) (out (node_at h x)) /\ reachable h y x.
  (** Nodes from which everything has been looked at. *)
  Definition done (B : nat -> Prop) : Prop :=
    (forall x l y, B x -> In (l, y) (out (node_at h x)) -> B y) /\ (forall x, B x -> ~ on_cycle x).
  Lemma done_reach B : done B -> forall x y, reachable h x y -> B x -> B y.
  Proof. intros [D _]. induction 1 as [x|x l m y Hi R IH]; intros Hx; [exact Hx|]. exact (IH (D x l m Hx Hi)). Qed.
  Lemma done_add B n : done B -> ~ B n -> (forall l y, In (l, y) (out (node_at h n)) -> B y) -> done (fun x => x = n \/ B x).
  Proof.
    intros [D1 D2] Nn Hn. split.
    - intros x l y [->|Hx] Hi; right; [exact (Hn l y Hi)|exact (D1 x l y Hx Hi)].
    - intros x [->|Hx]; [|exact (D2 x Hx)]. intros (l & y & Hi & R). apply Nn. exact (done_reach B (conj D1 D2) y n R (Hn l y Hi)).
  Qed.
  Lemma cyclic_run f : forall n path vis B, n < length h -> fresh (length h) vis < f -> done B ->
    (forall x, In x vis <-> B x \/ In x path) -> (forall x, B x -> ~ In x path) -> ~ In n path ->
    (forall x, In x path -> reachable h x n) ->
    exists b vis', is_cyclic_node h f n path vis = Ok (b, vis') /\ incl vis vis' /\
      (b = true -> exists x, (reachable h n x \/ In x path) /\ on_cycle x) /\
      (b = false -> exists B', done B' /\ (forall x, B x -> B' x) /\ B' n /\ (forall x, In x vis' <-> B' x \/ In x path) /\ (forall x, B' x -> ~ In x path)).
  Proof using G.
    induction f as [|f IH]; intros n path vis B Hn Hf DB HV HB Np HR; [lia|]. rewrite cyclic_eq. destruct (existsb (Nat.eqb n) vis) eqn:Ev.
    { apply existsb_In in Ev. exists false, vis. split; [reflexivity|]. split; [apply incl_refl|]. split; [discriminate|]. intros _. exists B.
      split; [exact DB|]. split; [auto|]. split; [apply HV in Ev; tauto|]. auto. }
    apply existsb_nIn in Ev. pose proof (fresh_lt _ _ _ Hn Ev) as Hl.
    assert (Loop : forall l v C, incl l (out (node_at h n)) -> fresh (length h) v < f -> done C -> (forall x, In x v <-> C x \/ In x (n :: path)) -> (forall x, C x -> ~ In x (n :: path)) ->
              exists b v', cyc_loop f n path l v = Ok (b, v') /\ incl v v' /\
                (b = true -> exists x, (reachable h n x \/ In x path) /\ on_cycle x) /\
                (b = false -> exists C', done C' /\ (forall x, C x -> C' x) /\ (forall x t, In (x, t) l -> C' t) /\ (forall x, In x v' <-> C' x \/ In x (n :: path)) /\ (forall x, C' x -> ~ In x (n :: path)))).
    { induction l as [|[x t] l IHl]; intros v C Hi Hc DC HVC HC; cbn [cyc_loop snd]; fold (cyc_loop f n path).
      - exists false, v. split; [reflexivity|]. split; [apply incl_refl|]. split; [discriminate|]. intros _. exists C. split; [exact DC|]. split; [auto|]. split; [intros x t []|]. auto.
      - assert (Hin : In (x, t) (out (node_at h n))) by (apply Hi; left; reflexivity).
        destruct (existsb (Nat.eqb t) (n :: path)) eqn:Et.
        { apply existsb_In in Et. exists true, v. split; [reflexivity|]. split; [apply incl_refl|]. split; [|discriminate]. intros _. exists n. split; [left; constructor|].
          exists x, t. split; [exact Hin|]. destruct Et as [<-|Et]; [constructor|exact (HR t Et)]. }
        apply existsb_nIn in Et. pose proof (proj1 (proj2 G n Hn) x t Hin) as Ht.
        destruct (IH t (n :: path) v C Ht Hc DC HVC HC Et) as (b & v1 & E1 & P1 & P2 & P3).
        { intros y [<-|Hy]; [econstructor; [exact Hin|constructor]|]. eapply reachable_trans; [exact (HR y Hy)|]. econstructor; [exact Hin|constructor]. }
        rewrite E1. cbn [rbind]. destruct b.
        + exists true, v1. split; [reflexivity|]. split; [exact P1|]. split; [|discriminate]. intros _. destruct (P2 eq_refl) as (y & [R|[Ey|Hy]] & Cy); exists y; (split; [|exact Cy]).
          * left. econstructor; [exact Hin|exact R].
          * left. subst y. constructor.
          * right. exact Hy.
        + destruct (P3 eq_refl) as (C1 & D1 & S1 & M1 & V1 & N1). destruct (IHl v1 C1) as (b & v2 & E2 & Q1 & Q2 & Q3); auto.
          { intros y Hy. apply Hi. right. exact Hy. }
          { pose proof (fresh_le (length h) v v1 P1). lia. }
          exists b, v2. split; [exact E2|]. split; [exact (incl_tran P1 Q1)|]. split; [exact Q2|]. intros Hb. destruct (Q3 Hb) as (C2 & D2 & S2 & M2 & V2 & N2).
          exists C2. split; [exact D2|]. split; [auto|]. split; [|auto]. intros x' t' [K|K]; [injection K as <- <-; auto|exact (M2 x' t' K)]. }
    destruct (Loop (out (node_at h n)) (n :: vis) B (incl_refl _)) as (b & v' & E & P1 & P2 & P3); [lia|exact DB| | |].
    { intros x. cbn [In]. rewrite HV. tauto. }
    { intros x Hx [<-|C]; [apply Ev, HV; auto|exact (HB x Hx C)]. }
    exists b, v'. split; [exact E|]. split; [intros x Hx; apply P1; right; exact Hx|]. split; [exact P2|]. intros Hb. destruct (P3 Hb) as (C & DC & S & M & V & N).
    exists (fun x => x = n \/ C x). split; [apply done_add; [exact DC|intros K; apply (N n K); left; reflexivity|exact M]|]. split; [auto|]. split; [auto|]. split.
    - intros x. rewrite V. cbn [In]. intuition.
    - intros x [->|Hx]; [exact Np|]. intros K. apply (N x Hx). right. exact K.
  Qed.
End Cyc.
Lemma is_cyclic_correct t : graph_ok (nodes t) -> exists b, is_cyclic t = Ok b /\
  (b = true <-> exists n l m, reachable (nodes t) 0 n /\ In (l, m) (out (node_at (nodes t) n)) /\ reachable (nodes t) m n).
Proof.
  intros G. unfold is_cyclic. destruct (cyclic_run (nodes t) G (S (length (nodes t))) 0 [] [] (fun _ => False)) as (b & v & E & _ & P2 & P3).
  { apply graph_root, G. }
  { pose proof (fresh_all (length (nodes t)) []). lia. }
  { split; intros; contradiction. }
  { intros x. cbn [In]. tauto. }
  { intros x []. }
  { intros []. }
  { intros x []. }
  rewrite E. cbn [rmap rbind fst]. exists b. split; [reflexivity|]. split.
  - intros Hb. destruct (P2 Hb) as (x & [R|[]] & (l & y & Hi & R')). exists x, l, y. auto.
  - intros (n & l & m & R & Hi & R'). destruct b; [reflexivity|]. destruct (P3 eq_refl) as (B & D & _ & B0 & _). exfalso.
    apply (proj2 D n (done_reach _ B D 0 n R B0)). exists l, m. auto.
Qed.

(** Comparing two minimal transducers. *)
Lemma forward_some m n y : forward_of n m = Some y -> In (n, y) m.
Proof.
  unfold forward_of. induction m as [|[a b] m IH]; cbn [find_key]; [discriminate|]. destruct (Nat.eqb_spec n a) as [->|]; intros H; [injection H as ->; left; reflexivity|right; auto].
Qed.
Lemma forward_none m n : forward_of n m = None <-> forall y, ~ In (n, y) m.
Proof.
  unfold forward_of. induction m as [|[a b] m IH]; cbn [find_key]; [split; [intros _ y []|reflexivity]|]. destruct (Nat.eqb_spec n a) as [->|Na].
  - split; [discriminate|]. intros H. destruct (H b). left. reflexivity.
  - rewrite IH. split; intros H y.
    + intros [C|C]; [injection C; congruence|exact (H y C)].
    + intros C. exact (H y (or_intror C)).
Qed.
Lemma back_some m n y : back_of n m = Some y -> In (y, n) m.
Proof.
  unfold back_of. destruct (find _ m) as [[a b]|] eqn:E; cbn [option_map fst]; [|discriminate]. intros H. injection H as ->. apply find_some in E. destruct E as [E1 E2].
  cbn [snd] in E2. apply Nat.eqb_eq in E2. subst. exact E1.
Qed.
Lemma back_none m n : back_of n m = None <-> forall y, ~ In (y, n) m.
Proof.
  unfold back_of. destruct (find _ m) as [[a b]|] eqn:E; cbn [option_map fst].
  - split; [discriminate|]. intros H. apply find_some in E. destruct E as [E1 E2]. cbn [snd] in E2. apply Nat.eqb_eq in E2. subst. destruct (H a E1).
  - split; [|reflexivity]. intros _ y Hy. apply (find_none _ _ E) in Hy. cbn [snd] in Hy. rewrite Nat.eqb_refl in Hy. discriminate.
Qed.

Section Comp.
  Variables h1 h2 : list node.
  Hypothesis G1 : graph_ok h1.
  Hypothesis G2 : graph_ok h2.
  Hypothesis M1 : minimal h1.
  Hypothesis M2 : minimal h2.
  Definition cmp_loop (f : nat) (d2 : node) := fix loop (l : list (label * nat)) (m : list (nat * nat)) : res (bool * list (nat * nat)) :=
    match l with
    | [] => Ok (true, m)
    | a :: l' =>
        match target_node d2 (fst a) with
        | None => Ok (false, m)
        | Some t2 =>
            rbind (compare_nodes h1 h2 f (snd a) t2 m) (fun '(b, m') =>
            if b then loop l' m' else Ok (false, m'))
        end
    end.
  Lemma compare_eq f n1 n2 m : compare_nodes h1 h2 (S f) n1 n2 m =
    match forward_of n1 m, back_of n2 m with
    | Some m2, Some m1 => Ok ((m2 =? n2) && (m1 =? n1), m)
    | None, None =>
        if negb (Bool.eqb (final (node_at h1 n1)) (final (node_at h2 n2))) then Ok (false, (n1, n2) :: m) else
        rbind (cmp_loop f (node_at h2 n2) (out (node_at h1 n1)) ((n1, n2) :: m)) (fun '(b, m') =>
        Ok (b && forallb (fun a => match target_node (node_at h1 n1) (fst a) with Some _ => true | None => false end) (out (node_at h2 n2)), m'))
    | _, _ => Ok (false, m)
    end.
  Proof. reflexivity. Qed.
  Definition alike (p : nat * nat) : Prop := forall w, reads h1 (fst p) w <-> reads h2 (snd p) w.
  Definition bisim (m : list (nat * nat)) (p : nat * nat) : Prop :=
    final (node_at h1 (fst p)) = final (node_at h2 (snd p)) /\
    (forall l t, In (l, t) (arcs (node_at h1 (fst p))) -> exists t2, In (l, t2) (arcs (node_at h2 (snd p))) /\ In (t, t2) m) /\
    (forall l t2, In (l, t2) (arcs (node_at h2 (snd p))) -> exists t, In (l, t) (arcs (node_at h1 (fst p)))).
  Lemma bisim_incl m m' p : incl m m' -> bisim m p -> bisim m' p.
  Proof. intros H (B1 & B2 & B3). split; [exact B1|]. split; [|exact B3]. intros l t Hi. destruct (B2 l t Hi) as (t2 & H1 & H2). eauto. Qed.
  Definition both (p : nat * nat) : Prop := reachable h1 0 (fst p) /\ reachable h2 0 (snd p).
  Lemma alike_next n1 n2 l t1 t2 : both (n1, n2) -> alike (n1, n2) -> In (l, t1) (arcs (node_at h1 n1)) -> In (l, t2) (arcs (node_at h2 n2)) -> alike (t1, t2).
  Proof using G1 G2 M1 M2.
    intros [R1 R2] A H1 H2 w. cbn [fst snd] in *. specialize (A (l :: w)). cbn [fst snd] in A.
    rewrite (det_reads_cons _ _ _ _ G1 (proj1 M1) R1), (det_reads_cons _ _ _ _ G2 (proj1 M2) R2) in A.
    destruct (proj1 M1 n1 R1) as [_ N1]. destruct (proj1 M2 n2 R2) as [_ N2]. split; intros H.
    - destruct (proj1 A (ex_intro _ t1 (conj H1 H))) as (t & Hi & R). apply (In_target_node _ _ _ N2) in Hi, H2. congruence.
    - destruct (proj2 A (ex_intro _ t2 (conj H2 H))) as (t & Hi & R). apply (In_target_node _ _ _ N1) in Hi, H1. congruence.
  Qed.
  Lemma compare_run f : forall n1 n2 m, both (n1, n2) -> fresh (length h1) (map fst m) < f -> (forall p, In p m -> both p) -> exists b m',
    compare_nodes h1 h2 f n1 n2 m = Ok (b, m') /\ incl m m' /\ (forall p, In p m' -> both p) /\
    (b = true -> In (n1, n2) m' /\ forall p, In p m' -> ~ In p m -> bisim m' p) /\
    (alike (n1, n2) -> (forall p, In p m -> alike p) -> b = true /\ forall p, In p m' -> alike p).
  Proof using G1 G2 M1 M2.
    induction f as [|f IH]; intros n1 n2 m HB Hf Hm; [lia|]. rewrite compare_eq.
    assert (Uni2 : forall y, alike (n1, n2) -> (forall p, In p m -> alike p) -> In (n1, y) m -> y = n2).
    { intros y A Am Hi. apply (proj1 (proj2 M2)); [exact (proj2 (Hm _ Hi))|exact (proj2 HB)|]. intros w. rewrite <- (Am _ Hi w). exact (A w). }
    assert (Uni1 : forall y, alike (n1, n2) -> (forall p, In p m -> alike p) -> In (y, n2) m -> y = n1).
    { intros y A Am Hi. apply (proj1 (proj2 M1)); [exact (proj1 (Hm _ Hi))|exact (proj1 HB)|]. intros w. rewrite (Am _ Hi w). symmetry. exact (A w). }
    destruct (forward_of n1 m) as [y2|] eqn:F.
    { pose proof (forward_some _ _ _ F) as Fi. destruct (back_of n2 m) as [y1|] eqn:K.
      - pose proof (back_some _ _ _ K) as Ki. eexists. exists m. split; [reflexivity|]. split; [apply incl_refl|]. split; [exact Hm|]. split.
        + intros H. apply andb_true_iff in H. destruct H as [H1 H2]. apply Nat.eqb_eq in H1, H2. subst. split; [exact Fi|]. intros p H1 H2. contradiction.
        + intros A Am. rewrite (Uni2 _ A Am Fi), (Uni1 _ A Am Ki), !Nat.eqb_refl. auto.
      - exists false, m. split; [reflexivity|]. split; [apply incl_refl|]. split; [exact Hm|]. split; [discriminate|]. intros A Am. exfalso.
        rewrite (Uni2 _ A Am Fi) in Fi. exact (proj1 (back_none _ _) K _ Fi). }
    destruct (back_of n2 m) as [y1|] eqn:K.
    { pose proof (back_some _ _ _ K) as Ki. exists false, m. split; [reflexivity|]. split; [apply incl_refl|]. split; [exact Hm|]. split; [discriminate|]. intros A Am. exfalso.
      rewrite (Uni1 _ A Am Ki) in Ki. exact (proj1 (forward_none _ _) F _ Ki). }
    destruct HB as [R1 R2]. cbn [fst snd] in R1, R2.
    destruct (det_out _ _ G1 (proj1 M1) R1) as (O1 & E1 & N1). destruct (det_out _ _ G2 (proj1 M2) R2) as (O2 & E2 & N2). rewrite O1, O2.
    assert (Fin : alike (n1, n2) -> final (node_at h1 n1) = final (node_at h2 n2)).
    { intros A. specialize (A []). cbn [fst snd] in A. rewrite (det_reads_nil _ _ G1 (proj1 M1) R1), (det_reads_nil _ _ G2 (proj1 M2) R2) in A.
      destruct (final (node_at h1 n1)), (final (node_at h2 n2)); intuition congruence. }
    assert (HB' : both (n1, n2)) by (split; assumption).
    assert (Hm0 : forall p, In p ((n1, n2) :: m) -> both p) by (intros p [<-|Hp]; [exact HB'|exact (Hm p Hp)]).
    destruct (Bool.eqb (final (node_at h1 n1)) (final (node_at h2 n2))) eqn:Ef; cbn [negb].
    2:{ exists false, ((n1, n2) :: m). split; [reflexivity|]. split; [intros p Hp; right; exact Hp|]. split; [exact Hm0|]. split; [discriminate|].
        intros A _. rewrite (Fin A), Bool.eqb_reflx in Ef. discriminate. }
    apply Bool.eqb_prop in Ef.
    assert (L1 : n1 < length h1) by (apply (reachable_lt h1 0); [exact G1|apply graph_root, G1|exact R1]).
    assert (Nm : ~ In n1 (map fst m)).
    { intros C. apply in_map_iff in C. destruct C as ([a b] & Ea & Hi). cbn [fst] in Ea. subst. exact (proj1 (forward_none _ _) F _ Hi). }
    pose proof (fresh_lt _ _ _ L1 Nm) as Hl.
    assert (Loop : forall l m0, incl l (arcs (node_at h1 n1)) -> fresh (length h1) (map fst m0) < f -> (forall p, In p m0 -> both p) -> exists b m',
              cmp_loop f (node_at h2 n2) l m0 = Ok (b, m') /\ incl m0 m' /\ (forall p, In p m' -> both p) /\
              (b = true -> (forall x t, In (x, t) l -> exists t2, In (x, t2) (arcs (node_at h2 n2)) /\ In (t, t2) m') /\ forall p, In p m' -> ~ In p m0 -> bisim m' p) /\
              (alike (n1, n2) -> (forall p, In p m0 -> alike p) -> b = true /\ forall p, In p m' -> alike p)).
    { induction l as [|[x t] l IHl]; intros m0 Hi Hc Hm1; cbn [cmp_loop fst snd]; fold (cmp_loop f (node_at h2 n2)).
      - exists true, m0. split; [reflexivity|]. split; [apply incl_refl|]. split; [exact Hm1|]. split; [intros _; split; [intros x t []|intros; contradiction]|]. auto.
      - assert (Hin : In (x, t) (arcs (node_at h1 n1))) by (apply Hi; left; reflexivity).
        assert (Rt : reachable h1 0 t) by (apply (reachable_next h1 n1 x); [exact R1|rewrite O1; exact Hin]).
        destruct (target_node (node_at h2 n2) x) as [t2|] eqn:Et.
        + apply target_node_In in Et. assert (Rt2 : reachable h2 0 t2) by (apply (reachable_next h2 n2 x); [exact R2|rewrite O2; exact Et]).
          destruct (IH t t2 m0 (conj Rt Rt2) Hc Hm1) as (b & m1 & Ec & P1 & P2 & P3 & P4). rewrite Ec. cbn [rbind]. destruct b.
          * destruct (IHl m1) as (b & m2 & Ed & Q1 & Q2 & Q3 & Q4).
            { intros y Hy. apply Hi. right. exact Hy. }
            { pose proof (fresh_le (length h1) (map fst m0) (map fst m1) (incl_map fst P1)). lia. }
            { exact P2. }
            exists b, m2. split; [exact Ed|]. split; [exact (incl_tran P1 Q1)|]. split; [exact Q2|]. split.
            -- intros Hb. destruct (Q3 Hb) as [Q5 Q6]. destruct (P3 eq_refl) as [P5 P6]. split.
               ++ intros x' t' [C|C]; [injection C as <- <-; exists t2; auto|exact (Q5 x' t' C)].
               ++ intros p Hp Np. assert (Dp : {In p m1} + {~ In p m1}) by (apply in_dec; decide equality; apply Nat.eq_dec).
                  destruct Dp as [Hp1|Hp1]; [apply (bisim_incl m1 m2 p Q1), P6; assumption|exact (Q6 p Hp Hp1)].
            -- intros A Am. destruct (P4 (alike_next _ _ _ _ _ HB' A Hin Et) Am) as [_ P5]. exact (Q4 A P5).
          * exists false, m1. split; [reflexivity|]. split; [exact P1|]. split; [exact P2|]. split; [discriminate|]. intros A Am.
            destruct (P4 (alike_next _ _ _ _ _ HB' A Hin Et) Am) as [C _]. discriminate.
        + exists false, m0. split; [reflexivity|]. split; [apply incl_refl|]. split; [exact Hm1|]. split; [discriminate|]. intros A _. exfalso.
          destruct (proj2 (proj2 M1) n1 x t R1) as [w Hw]; [rewrite O1; exact Hin|].
          specialize (A (x :: w)). cbn [fst snd] in A. rewrite (det_reads_cons _ _ _ _ G1 (proj1 M1) R1), (det_reads_cons _ _ _ _ G2 (proj1 M2) R2) in A.
          destruct (proj1 A (ex_intro _ t (conj Hin Hw))) as (t' & Hi' & _). exact (proj1 (target_none _ _) Et _ Hi'). }
    destruct (Loop (arcs (node_at h1 n1)) ((n1, n2) :: m) (incl_refl _)) as (b & m' & Ec & P1 & P2 & P3 & P4); [cbn [map fst]; lia|exact Hm0|].
    rewrite Ec. cbn [rbind]. eexists. exists m'. split; [reflexivity|]. split; [intros p Hp; apply P1; right; exact Hp|]. split; [exact P2|]. split.
    - intros H. apply andb_true_iff in H. destruct H as [Hb Hr]. destruct (P3 Hb) as [P5 P6]. split; [apply P1; left; reflexivity|].
      intros p Hp Np. assert (Dp : {p = (n1, n2)} + {p <> (n1, n2)}) by (decide equality; apply Nat.eq_dec). destruct Dp as [->|Dp].
      + split; [exact Ef|]. split; [exact P5|]. intros l t2 Hi. rewrite forallb_forall in Hr. specialize (Hr _ Hi). cbn [fst snd] in *.
        destruct (target_node (node_at h1 n1) l) as [t|] eqn:Et; [|discriminate]. exists t. apply target_node_In, Et.
      + apply (P6 p Hp). intros [C|C]; [congruence|contradiction].
    - intros A Am. destruct (P4 A) as [Hb Ha]; [intros p [<-|Hp]; [exact A|exact (Am p Hp)]|]. split; [|exact Ha]. rewrite Hb. cbn [andb]. apply forallb_forall.
      intros [l t2] Hi. cbn [fst]. destruct (target_node (node_at h1 n1) l) as [t|] eqn:Et; [reflexivity|]. exfalso.
      destruct (proj2 (proj2 M2) n2 l t2 R2) as [w Hw]; [rewrite O2; exact Hi|].
      specialize (A (l :: w)). cbn [fst snd] in A. rewrite (det_reads_cons _ _ _ _ G1 (proj1 M1) R1), (det_reads_cons _ _ _ _ G2 (proj1 M2) R2) in A.
      destruct (proj2 A (ex_intro _ t2 (conj Hi Hw))) as (t' & Hi' & _). exact (proj1 (target_none _ _) Et _ Hi').
  Qed.
  Lemma compare_result : exists b m, compare_nodes h1 h2 (S (length h1)) 0 0 [] = Ok (b, m) /\ (b = true <-> forall w, reads h1 0 w <-> reads h2 0 w).
  Proof using G1 G2 M1 M2.
    destruct (compare_run (S (length h1)) 0 0 []) as (b & m & E & _ & P2 & P3 & P4).
    { split; constructor. }
    { pose proof (fresh_all (length h1) (map fst (@nil (nat * nat)))). lia. }
    { intros p []. }
    exists b, m. split; [exact E|]. split.
    - intros Hb. destruct (P3 Hb) as [P5 P6].
      assert (Gen : forall w p, In p m -> (reads h1 (fst p) w <-> reads h2 (snd p) w)).
      { induction w as [|l w IH]; intros [n1 n2] Hp; destruct (P2 _ Hp) as [R1 R2]; destruct (P6 _ Hp (fun C => C)) as (B1 & B2 & B3); cbn [fst snd] in *.
        - rewrite (det_reads_nil _ _ G1 (proj1 M1) R1), (det_reads_nil _ _ G2 (proj1 M2) R2), B1. reflexivity.
        - rewrite (det_reads_cons _ _ _ _ G1 (proj1 M1) R1), (det_reads_cons _ _ _ _ G2 (proj1 M2) R2). destruct (proj1 M2 n2 R2) as [_ N2]. split.
          + intros (t & Hi & R). destruct (B2 l t Hi) as (t2 & Hi2 & Hm). exists t2. split; [exact Hi2|]. apply (IH _ Hm). exact R.
          + intros (t2 & Hi2 & R). destruct (B3 l t2 Hi2) as (t & Hi). destruct (B2 l t Hi) as (t3 & Hi3 & Hm).
            apply (In_target_node _ _ _ N2) in Hi2, Hi3. assert (t3 = t2) by congruence. subst t3. exists t. split; [exact Hi|]. apply (IH _ Hm). exact R. }
      intros w. exact (Gen w _ P5).
    - intros A. apply P4; [exact A|intros p []].
  Qed.
End Comp.
Lemma are_equivalent_correct hop t u : trans_ok t -> trans_ok u -> exists b, are_equivalent hop t u = Ok b /\ (b = true <-> same_lang t u).
Proof.
  intros T U. unfold are_equivalent. destruct (get_minimal hop t T) as (p1 & E1 & G1 & M1 & L1). destruct (get_minimal hop u U) as (p2 & E2 & G2 & M2 & L2).
  rewrite E1. cbn [rbind]. rewrite E2. cbn [rbind]. destruct (compare_result _ _ G1 G2 M1 M2) as (b & m & E & H). rewrite E. cbn [rmap rbind fst]. exists b. split; [reflexivity|].
  rewrite H. split; intros A w.
  - rewrite <- (L1 w), <- (L2 w). exact (A w).
  - rewrite (L1 w), (L2 w). exact (A w).
Qed.

(** Projections of the back end. *)
Lemma relabel_relabel f g : f (0, 0) = (0, 0) -> forall w, relabel f (relabel g w) = relabel (fun l => f (g l)) w.
Proof.
  intros F. induction w as [|l w IH]; [reflexivity|]. cbn [relabel fold_right]. fold (relabel g w). fold (relabel (fun l => f (g l)) w).
  rewrite (emit_eq (g l)). destruct (is_epsilon (g l)) eqn:E.
  - apply is_epsilon_eq in E. rewrite E, F. exact IH.
  - cbn [relabel fold_right]. fold (relabel f (relabel g w)). rewrite IH. reflexivity.
Qed.
Lemma extract_language_correct input t : trans_ok t -> exists r, extract_language input t = Ok r /\ trans_ok r /\
  (forall w, lang r w <-> exists u, lang t u /\ w = relabel (fun l => let s := if input then fst l else snd l in let c := if s =? 1 then 2 else s in (c, c)) u).
Proof.
  intros T. unfold extract_language. destruct (level_correct input t (proj1 T)) as (l & E & Tl & Ll & Al). rewrite E. cbn [rbind].
  destruct (replace_char_correct 1 2 l (proj1 Tl)) as (r & Er & Tr & Lr & Ar); [discriminate|]. rewrite Er. cbn [rmap rbind]. eexists. split; [reflexivity|]. split.
  - destruct Tr as (T1 & T2 & T3 & T4). split; [exact T1|]. split; [exact T2|]. split; [exact T3|]. apply no_eps_insert, T4.
  - intros w. change (lang r w <-> exists u, lang t u /\ w = relabel (fun l => let s := if input then fst l else snd l in let c := if s =? 1 then 2 else s in (c, c)) u).
    rewrite Lr. split.
    + intros (u & Hu & ->). apply Ll in Hu. destruct Hu as (v & Hv & ->). exists v. split; [exact Hv|]. rewrite relabel_relabel by reflexivity. reflexivity.
    + intros (v & Hv & ->). eexists. split; [apply Ll; exists v; split; [exact Hv|reflexivity]|]. rewrite relabel_relabel by reflexivity. reflexivity.
Qed.
