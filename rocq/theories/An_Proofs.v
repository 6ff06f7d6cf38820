(** Lemmas behind An_Props: epsilon cycles. *)
From Verif Require Import Base Flags_Model BT_Model BT_Spec BT_Proofs BT_Proofs3 An_Model An_Spec.

Lemma path_app g s r1 u r2 t : path g s r1 u -> path g u r2 t -> path g s (r1 ++ r2) t.
Proof. induction 1 as [|s a r u Ha R IH]; simpl; [auto|]. intros P. constructor; [exact Ha|exact (IH P)]. Qed.
Lemma path_app_inv g r1 : forall s r2 t, path g s (r1 ++ r2) t -> exists u, path g s r1 u /\ path g u r2 t.
Proof.
  induction r1 as [|a r1 IH]; intros s r2 t P; simpl in P; [exists s; split; [constructor|exact P]|].
  inversion P as [|? ? ? ? Ha P']; subst. destruct (IH _ _ _ P') as (u & P1 & P2). exists u. split; [constructor; assumption|exact P2].
Qed.
Lemma path_bound g s r t : structure_ok g -> s < length (sts g) -> path g s r t -> t < length (sts g).
Proof. intros G Hs P. induction P as [|s a r t Ha P IH]; [exact Hs|]. apply IH. exact (proj1 (proj2 G) s a Ha). Qed.
Lemma path_weight_app r1 r2 : path_weight (r1 ++ r2) = (path_weight r1 + path_weight r2)%Z.
Proof. induction r1 as [|a r1 IH]; simpl; lia. Qed.
Lemma path_last g s r a t : path g s (r ++ [a]) t -> t = tgt a.
Proof. intros P. apply path_app_inv in P. destruct P as (u & _ & P). inversion P as [|? ? ? ? Ha P']; subst. inversion P'; reflexivity. Qed.
Lemma transitions_ok g s : s < length (sts g) -> transitions g s = Ok (nth s (sts g) []).
Proof. intros H. unfold transitions. rewrite (nth_error_nth' _ [] H). reflexivity. Qed.

Lemma is_epsilon_iff x : is_epsilon x = true <-> x = B "@_EPSILON_SYMBOL_@".
Proof. apply bstr_eqb_eq. Qed.
Lemma both_epsilon_iff a : both_epsilon a = true <-> epsilon_arc a.
Proof. unfold both_epsilon, epsilon_arc. rewrite andb_true_iff, !is_epsilon_iff. tauto. Qed.
Lemma epsilon_like_iff a : epsilon_like (isy a) = true <-> free_arc a.
Proof. unfold epsilon_like, free_arc. rewrite orb_true_iff, is_epsilon_iff. tauto. Qed.

Lemma not_NoDup_split (l : list nat) : ~ NoDup l -> exists x l1 l2 l3, l = l1 ++ x :: l2 ++ x :: l3.
Proof.
  induction l as [|x l IH]; intros N; [exfalso; apply N; constructor|].
  destruct (in_dec Nat.eq_dec x l) as [H|H].
  - apply in_split in H. destruct H as (l2 & l3 & ->). exists x, [], l2, l3. reflexivity.
  - destruct IH as (y & l1 & l2 & l3 & ->); [intros K; apply N; constructor; assumption|]. exists y, (x :: l1), l2, l3. reflexivity.
Qed.
Lemma map_eq_app3 (r : list arc) l1 x l2 l3 : map tgt r = l1 ++ x :: l2 ++ x :: l3 ->
  exists r1 a r2 b r3, r = r1 ++ a :: r2 ++ b :: r3 /\ tgt a = x /\ tgt b = x.
Proof.
  intros E. apply map_eq_app in E. destruct E as (r1 & q & -> & _ & E). destruct q as [|a q]; [discriminate|]. injection E as Ea E.
  apply map_eq_app in E. destruct E as (r2 & q2 & -> & _ & E). destruct q2 as [|b q2]; [discriminate|]. injection E as Eb _.
  exists r1, a, r2, b, q2. auto.
Qed.
Lemma path_split g s r1 a r2 t : path g s (r1 ++ a :: r2) t -> path g s (r1 ++ [a]) (tgt a) /\ path g (tgt a) r2 t.
Proof.
  intros P. apply path_app_inv in P. destruct P as (u & P1 & P2). inversion P2 as [|? ? ? ? Ha P']; subst. split; [|exact P'].
  eapply path_app; [exact P1|]. constructor; [exact Ha|constructor].
Qed.
Lemma incl_bound (l : list nat) n : NoDup l -> (forall x, In x l -> x < n) -> length l <= n.
Proof. intros D H. rewrite <- (seq_length n 0). apply NoDup_incl_length; [exact D|]. intros x Hx. apply in_seq. apply H in Hx. lia. Qed.

Section G.
  Variable g : graph.
  Hypothesis G : structure_ok g.
  Let n := length (sts g).

  (** ** Negative epsilon cycles *)
  Lemma simple_negative : forall k s r, length r <= k -> cycle epsilon_arc g s r -> (path_weight r < 0)%Z ->
    exists s' r', cycle epsilon_arc g s' r' /\ (path_weight r' < 0)%Z /\ NoDup (map tgt r').
  Proof.
    induction k as [|k IH]; intros s r L (N & P & F) W; [destruct r; [congruence|simpl in L; lia]|].
    destruct (ListDec.NoDup_dec Nat.eq_dec (map tgt r)) as [D|D]; [exists s, r; repeat split; assumption|].
    apply not_NoDup_split in D. destruct D as (x & l1 & l2 & l3 & E). apply map_eq_app3 in E. destruct E as (r1 & a & r2 & b & r3 & -> & Ea & Eb).
    destruct (path_split _ _ _ _ _ _ P) as [P1 P2]. destruct (path_split _ _ _ _ _ _ P2) as [P3 P4].
    apply Forall_app in F. destruct F as [F1 F]. inversion F as [|? ? Fa F']; subst. apply Forall_app in F'. destruct F' as [F2 F3]. inversion F3 as [|? ? Fb F4]; subst.
    rewrite !app_length in L. simpl in L. rewrite app_length in L. simpl in L.
    assert (C1 : cycle epsilon_arc g (tgt a) (r2 ++ [b])).
    { split; [destruct r2; discriminate|]. split; [rewrite Eb in P3; exact P3|]. apply Forall_app. split; [exact F2|constructor; [exact Fb|constructor]]. }
    assert (C2 : cycle epsilon_arc g s ((r1 ++ [a]) ++ r3)).
    { split; [destruct r1; discriminate|]. split; [eapply path_app; [exact P1|]; rewrite Eb in P4; exact P4|]. apply Forall_app. split; [|exact F4].
      apply Forall_app. split; [exact F1|constructor; [exact Fa|constructor]]. }
    rewrite !path_weight_app in W. cbn [path_weight] in W. rewrite path_weight_app in W. cbn [path_weight] in W.
    destruct (Z.ltb_spec (path_weight (r2 ++ [b])) 0) as [W1|W1].
    - refine (IH _ _ _ C1 W1). rewrite app_length. simpl. lia.
    - refine (IH _ _ _ C2 _); [rewrite !app_length; simpl; lia|]. rewrite !path_weight_app in *. cbn [path_weight] in *. lia.
  Qed.

  Definition extend (M : nat -> option Z) (s : nat) (t : Z) : nat -> option Z := fun x => if x =? s then Some t else M x.
  (** What an exploration that answers false has established. *)
  Inductive no_neg : nat -> Z -> (nat -> option Z) -> Prop :=
  | nn_back s t M v : M s = Some v -> (v <= t)%Z -> no_neg s t M
  | nn_new s t M : M s = None -> (forall a, In a (nth s (sts g) []) -> epsilon_arc a -> no_neg (tgt a) (t + wt a) (extend M s t)) -> no_neg s t M.
  Lemma no_neg_ext s t M M' : (forall x, M x = M' x) -> no_neg s t M -> no_neg s t M'.
  Proof.
    intros E H. revert M' E. induction H as [s t M v Hv L|s t M Hn Ha IH]; intros M' E.
    - eapply nn_back; [rewrite <- E; exact Hv|exact L].
    - apply nn_new; [rewrite <- E; exact Hn|]. intros a H1 H2. apply IH; auto. intros x. unfold extend. destruct (x =? s); auto.
  Qed.
  Lemma no_neg_path s v0 : forall r cur t M, path g cur r s -> Forall epsilon_arc r -> no_neg cur t M -> M s = Some v0 -> (r <> [] -> M cur = None) ->
    NoDup (cur :: map tgt r) -> (forall x, In x (map tgt r) -> x <> s -> M x = None) -> (v0 <= t + path_weight r)%Z.
  Proof.
    induction r as [|a r IH]; intros cur t M P F NN Ms Hc ND Hd.
    - inversion P; subst. inversion NN as [? ? ? v Hv L|? ? ? Hn _]; subst; [rewrite Ms in Hv; injection Hv as <-; simpl; lia|congruence].
    - inversion P as [|? ? ? ? Ha P']; subst. inversion F as [|? ? Fa F']; subst. specialize (Hc ltac:(discriminate)).
      inversion NN as [? ? ? v Hv L|? ? ? Hn Hk]; subst; [congruence|]. specialize (Hk a Ha Fa).
      cbn [map] in ND. inversion ND as [|? ? N1 ND']; subst. inversion ND' as [|? ? N2 ND'']; subst.
      assert (Sin : r <> [] -> In s (map tgt r)).
      { intros Nr. destruct (exists_last Nr) as (r0 & b & ->). rewrite (path_last _ _ _ _ _ P'). rewrite map_app. apply in_app_iff. right. left. reflexivity. }
      assert (Ns : s <> cur).
      { intros ->. congruence. }
      cbn [path_weight]. rewrite Z.add_assoc. apply (IH (tgt a) (t + wt a)%Z (extend M cur t)); auto.
      + unfold extend. destruct (Nat.eqb_spec s cur); [contradiction|exact Ms].
      + intros Nr. unfold extend. destruct (Nat.eqb_spec (tgt a) cur) as [E|E]; [exfalso; apply N1; left; exact E|].
        apply Hd; [left; reflexivity|]. intros E'. apply N2. rewrite E'. exact (Sin Nr).
      + intros x Hx Nx. unfold extend. destruct (Nat.eqb_spec x cur) as [->|]; [exfalso; apply N1; right; exact Hx|]. apply Hd; [right; exact Hx|exact Nx].
  Qed.
  Lemma no_neg_no_cycle : (forall s, s < n -> no_neg s 0 (fun _ => None)) -> forall s r, cycle epsilon_arc g s r -> (path_weight r >= 0)%Z.
  Proof.
    intros H s0 r0 C0. apply Z.le_ge, Z.nlt_ge. intros W. destruct (simple_negative (length r0) s0 r0 (le_n _) C0 W) as (s & r & (N & P & F) & Wr & ND).
    destruct r as [|a r]; [congruence|]. inversion P as [|? ? ? ? Ha P']; subst. inversion F as [|? ? Fa F']; subst.
    assert (Hs : s < n).
    { destruct (Nat.lt_ge_cases s n) as [L|L]; [exact L|]. rewrite nth_overflow in Ha by exact L. destruct Ha. }
    pose proof (H s Hs) as NN. inversion NN as [? ? ? v Hv _|? ? ? _ Hk]; subst; [discriminate|]. specialize (Hk a Ha Fa).
    assert (Q : (0 <= 0 + wt a + path_weight r)%Z).
    { apply (no_neg_path s 0 r (tgt a) (0 + wt a) (extend (fun _ => None) s 0)); auto.
      - unfold extend. rewrite Nat.eqb_refl. reflexivity.
      - intros Nr. unfold extend. destruct (Nat.eqb_spec (tgt a) s) as [E|]; [|reflexivity]. exfalso. cbn [map] in ND. apply NoDup_cons_iff in ND. destruct ND as [N2 _]. apply N2.
        destruct (exists_last Nr) as (r1 & b & ->). rewrite E. rewrite (path_last _ _ _ _ _ P'). rewrite map_app. apply in_app_iff. right. left. reflexivity.
      - intros x Hx Nx. unfold extend. destruct (Nat.eqb_spec x s); [contradiction|reflexivity]. }
    cbn [path_weight] in Wr. lia.
  Qed.

  Lemma neg_from_spec : forall fuel s total M D, (forall x, In x D <-> mget Nat.compare x M <> None) -> NoDup D -> (forall x, In x D -> x < n) -> s < n ->
    n - length D < fuel ->
    (forall x v, mget Nat.compare x M = Some v -> exists r, path g x r s /\ Forall epsilon_arc r /\ r <> [] /\ total = (v + path_weight r)%Z) ->
    exists b M', neg_cycles_from fuel g s total M = Ok (b, M') /\
      (b = true -> exists s' r, cycle epsilon_arc g s' r /\ (path_weight r < 0)%Z) /\
      (b = false -> (forall x, mget Nat.compare x M' = mget Nat.compare x M) /\ no_neg s total (fun x => mget Nat.compare x M)).
  Proof.
    induction fuel as [|fuel IH]; intros s total M D HD ND BD Hs Hf HP; [lia|]. cbn [neg_cycles_from].
    destruct (mget Nat.compare s M) as [w|] eqn:Es.
    - exists (total - w <? 0)%Z, M. split; [reflexivity|]. destruct (HP s w Es) as (r & P & F & Nr & ->). split.
      + intros B. apply Z.ltb_lt in B. exists s, r. split; [split; [exact Nr|split; assumption]|lia].
      + intros B. apply Z.ltb_ge in B. split; [reflexivity|]. eapply nn_back; [exact Es|]. lia.
    - unfold at_state. rewrite transitions_ok by exact Hs. cbn [rbind].
      assert (HsD : ~ In s D) by (rewrite HD; congruence).
      match goal with |- exists b M', ?f _ _ = _ /\ _ => set (go := f) end.
      assert (Loop : forall l dn Mc, nth s (sts g) [] = dn ++ l -> (forall x, mget Nat.compare x Mc = extend (fun x => mget Nat.compare x M) s total x) ->
        (forall a, In a dn -> epsilon_arc a -> no_neg (tgt a) (total + wt a) (extend (fun x => mget Nat.compare x M) s total)) ->
        exists b M', go l Mc = Ok (b, M') /\
          (b = true -> exists s' r, cycle epsilon_arc g s' r /\ (path_weight r < 0)%Z) /\
          (b = false -> (forall x, mget Nat.compare x M' = mget Nat.compare x M) /\ no_neg s total (fun x => mget Nat.compare x M))).
      { induction l as [|a l IHl]; intros dn Mc El HMc Hdn.
        - exists false, (mdel Nat.compare s Mc). split; [reflexivity|]. split; [discriminate|]. intros _. split.
          + intros x. destruct (Nat.eqb_spec x s) as [->|Nx]; [rewrite (mget_mdel_same Nat.compare), Es; reflexivity|].
            rewrite (mget_mdel_other Nat.compare Nat.compare_eq_iff) by exact Nx. rewrite HMc. unfold extend. destruct (Nat.eqb_spec x s); [contradiction|reflexivity].
          + apply nn_new; [exact Es|]. intros a Ha. rewrite app_nil_r in El. rewrite El in Ha. exact (Hdn a Ha).
        - assert (Ha : In a (nth s (sts g) [])) by (rewrite El; apply in_app_iff; right; left; reflexivity).
          assert (El' : nth s (sts g) [] = (dn ++ [a]) ++ l) by (rewrite <- app_assoc; exact El).
          simpl. fold go. destruct (both_epsilon a) eqn:Ea.
          + apply both_epsilon_iff in Ea.
            destruct (IH (tgt a) (total + wt a)%Z Mc (s :: D)) as (b & M' & E & T & Fb).
            * intros x. rewrite HMc. unfold extend. simpl. rewrite HD. destruct (Nat.eqb_spec x s) as [->|Nx]; [split; [discriminate|auto]|]. split; [intros [K|K]; [congruence|exact K]|auto].
            * constructor; assumption.
            * intros x [<-|Hx]; [exact Hs|exact (BD x Hx)].
            * exact (proj1 (proj2 G) s a Ha).
            * simpl. pose proof (incl_bound (s :: D) n ltac:(constructor; assumption) ltac:(intros x [<-|Hx]; [exact Hs|exact (BD x Hx)])) as K. simpl in K. lia.
            * intros x v Hx. rewrite HMc in Hx. unfold extend in Hx. destruct (Nat.eqb_spec x s) as [->|Nx].
              -- injection Hx as <-. exists [a]. split; [constructor; [exact Ha|constructor]|]. split; [constructor; [exact Ea|constructor]|]. split; [discriminate|]. simpl. lia.
              -- destruct (HP x v Hx) as (r & P & F & Nr & ->). exists (r ++ [a]). split; [eapply path_app; [exact P|constructor; [exact Ha|constructor]]|].
                 split; [apply Forall_app; split; [exact F|constructor; [exact Ea|constructor]]|]. split; [destruct r; discriminate|]. rewrite path_weight_app. simpl. lia.
            * rewrite E. cbn [rbind]. destruct b.
              -- exists true, M'. split; [reflexivity|]. split; [exact T|discriminate].
              -- destruct (Fb eq_refl) as [EM NN]. apply (IHl (dn ++ [a]) M' El').
                 ++ intros x. rewrite EM. apply HMc.
                 ++ intros c Hc Ec. apply in_app_iff in Hc. destruct Hc as [Hc|[<-|[]]]; [exact (Hdn c Hc Ec)|]. eapply no_neg_ext; [|exact NN]. exact HMc.
          + apply (IHl (dn ++ [a]) Mc El' HMc). intros c Hc Ec. apply in_app_iff in Hc. destruct Hc as [Hc|[<-|[]]]; [exact (Hdn c Hc Ec)|].
            apply both_epsilon_iff in Ec. congruence. }
      apply (Loop _ [] _ eq_refl); [|intros a []]. intros x. unfold extend. destruct (Nat.eqb_spec x s) as [->|Nx].
      + apply (mget_mset_same Nat.compare Nat.compare_eq_iff).
      + apply (mget_mset_other Nat.compare Nat.compare_eq_iff). exact Nx.
  Qed.
  Lemma neg_any_spec fuel : n < fuel -> forall l M, (forall x, mget Nat.compare x M = None) -> (forall s, In s l -> s < n) ->
    exists b, neg_cycles_any fuel g l M = Ok b /\
      (b = true -> exists s' r, cycle epsilon_arc g s' r /\ (path_weight r < 0)%Z) /\
      (b = false -> forall s, In s l -> no_neg s 0 (fun _ => None)).
  Proof.
    intros Hf. induction l as [|s l IH]; intros M HM Hl; cbn [neg_cycles_any]; [exists false; split; [reflexivity|]; split; [discriminate|intros _ s []]|].
    destruct (neg_from_spec fuel s 0 M []) as (b & M' & E & T & F).
    - intros x. rewrite HM. simpl. tauto.
    - constructor.
    - intros x [].
    - apply Hl. left. reflexivity.
    - simpl. lia.
    - intros x v Hx. rewrite HM in Hx. discriminate.
    - rewrite E. cbn [rbind]. destruct b; [exists true; split; [reflexivity|]; split; [exact T|discriminate]|].
      destruct (F eq_refl) as [EM NN]. destruct (IH M') as (b & Eb & Tb & Fb).
      + intros x. rewrite EM. apply HM.
      + intros x Hx. apply Hl. right. exact Hx.
      + exists b. split; [exact Eb|]. split; [exact Tb|]. intros Bf x [<-|Hx]; [|exact (Fb Bf x Hx)]. eapply no_neg_ext; [|exact NN]. exact HM.
  Qed.

  (** ** Cycles of free transitions *)
  (** Every free transition of a state in the list leads to a later element. *)
  Definition ordered (H : list nat) : Prop :=
    forall l1 x l2, H = l1 ++ x :: l2 -> forall a, In a (nth x (sts g) []) -> free_arc a -> In (tgt a) l2.
  Lemma ordered_path H : ordered H -> forall r l1 s l2 t, H = l1 ++ s :: l2 -> path g s r t -> Forall free_arc r -> r <> [] -> In t l2.
  Proof.
    intros O. induction r as [|a r IH]; intros l1 s l2 t E P F N; [congruence|]. inversion P as [|? ? ? ? Ha P']; subst. inversion F as [|? ? Fa F']; subst.
    pose proof (O _ _ _ eq_refl a Ha Fa) as I. destruct r as [|b r]; [inversion P'; subst; exact I|].
    apply in_split in I. destruct I as (m1 & m2 & ->). apply in_app_iff. right. right.
    apply (IH (l1 ++ s :: m1) (tgt a) m2 t); auto; [rewrite <- app_assoc; reflexivity|discriminate].
  Qed.
  Lemma in_split_last (x : nat) l : In x l -> exists l1 l2, l = l1 ++ x :: l2 /\ ~ In x l2.
  Proof.
    induction l as [|y l IH]; intros Hx; [destruct Hx|]. destruct (in_dec Nat.eq_dec x l) as [I|I].
    - destruct (IH I) as (l1 & l2 & -> & N). exists (y :: l1), l2. auto.
    - destruct Hx as [->|Hx]; [|contradiction]. exists [], l. auto.
  Qed.
  Lemma ordered_no_cycle H s r : ordered H -> In s H -> ~ cycle free_arc g s r.
  Proof.
    intros O I (N & P & F). destruct (in_split_last _ _ I) as (l1 & l2 & E & N2). apply N2. exact (ordered_path H O r l1 s l2 s E P F N).
  Qed.
  Lemma in_smem x l : smem Nat.compare x l = true <-> In x l.
  Proof. apply (smem_In Nat.compare Nat.compare_eq_iff). Qed.
  Lemma notin_smem x l : smem Nat.compare x l = false <-> ~ In x l.
  Proof. rewrite <- in_smem. symmetry. apply not_true_iff_false. Qed.
  Lemma in_sadd (x k : nat) l : In x (sadd Nat.compare k l) <-> x = k \/ In x l.
  Proof. apply (In_sadd Nat.compare Nat.compare_eq_iff). Qed.
  Lemma in_sdel (x k : nat) l : In x (sdel Nat.compare k l) <-> x <> k /\ In x l.
  Proof. apply (In_sdel Nat.compare Nat.compare_eq_iff). Qed.

  (** Elements of D lead to s. *)
  Definition leads (D : nat -> Prop) (s : nat) : Prop := forall x, D x -> exists r, path g x r s /\ Forall free_arc r /\ r <> [].
  Lemma leads_step D s a : leads D s -> In a (nth s (sts g) []) -> free_arc a -> leads (fun x => x = s \/ D x) (tgt a).
  Proof.
    intros L Ha Fa x [->|Hx].
    - exists [a]. split; [constructor; [exact Ha|constructor]|]. split; [constructor; [exact Fa|constructor]|discriminate].
    - destruct (L x Hx) as (r & P & F & N). exists (r ++ [a]). split; [eapply path_app; [exact P|constructor; [exact Ha|constructor]]|].
      split; [apply Forall_app; split; [exact F|constructor; [exact Fa|constructor]]|destruct r; discriminate].
  Qed.
  Lemma leads_cycle D s a : leads D s -> In a (nth s (sts g) []) -> free_arc a -> tgt a = s \/ D (tgt a) -> exists r, cycle free_arc g (tgt a) r.
  Proof.
    intros L Ha Fa H. destruct (leads_step D s a L Ha Fa (tgt a)) as (r & P & F & N); [destruct H; auto|]. exists r. split; [exact N|]. split; assumption.
  Qed.

  Lemma inf_from_spec : forall fuel s P H D, (forall x, In x P <-> In x D) -> NoDup D -> (forall x, In x D -> x < n) -> s < n -> ~ In s D ->
    n - length D < fuel -> leads (fun x => In x D) s -> ordered H ->
    exists b P' H', inf_from fuel g s P H = Ok (b, P', H') /\
      (b = true -> exists s' r, cycle free_arc g s' r) /\
      (b = false -> (forall x, In x P' <-> In x D) /\ ordered H' /\ In s H' /\ incl H H').
  Proof.
    induction fuel as [|fuel IH]; intros s P H D HP ND BD Hs NsD Hf HL HO; [lia|]. cbn [inf_from].
    destruct (smem Nat.compare s H) eqn:Eh.
    - apply in_smem in Eh. exists false, P, H. split; [reflexivity|]. split; [discriminate|]. intros _. split; [exact HP|]. split; [exact HO|]. split; [exact Eh|apply incl_refl].
    - unfold at_state. rewrite transitions_ok by exact Hs. cbn [rbind].
      match goal with |- exists b P' H', ?f _ _ _ = _ /\ _ => set (go := f) end.
      assert (Loop : forall l dn Pc Hc, nth s (sts g) [] = dn ++ l -> (forall x, In x Pc <-> In x D) -> ordered Hc -> incl H Hc ->
        (forall a, In a dn -> free_arc a -> In (tgt a) Hc) ->
        exists b P' H', go l Pc Hc = Ok (b, P', H') /\ (b = true -> exists s' r, cycle free_arc g s' r) /\
          (b = false -> (forall x, In x P' <-> In x D) /\ ordered H' /\ In s H' /\ incl H H')).
      { induction l as [|a l IHl]; intros dn Pc Hc El HPc HOc HI Hdn.
        - exists false, Pc, (s :: Hc). split; [reflexivity|]. split; [discriminate|]. intros _. split; [exact HPc|]. split; [|split; [left; reflexivity|intros x Hx; right; apply HI; exact Hx]].
          intros l1 x l2 E b Hb Fb. destruct l1 as [|y l1]; cbn [app] in E.
          + injection E as <- <-. rewrite app_nil_r in El. rewrite El in Hb. exact (Hdn b Hb Fb).
          + injection E as <- E. exact (HOc l1 x l2 E b Hb Fb).
        - assert (Ha : In a (nth s (sts g) [])) by (rewrite El; apply in_app_iff; right; left; reflexivity).
          assert (El' : nth s (sts g) [] = (dn ++ [a]) ++ l) by (rewrite <- app_assoc; exact El).
          simpl. fold go. destruct (epsilon_like (isy a)) eqn:Ea.
          + apply epsilon_like_iff in Ea.
            assert (HP1 : forall x, In x (sadd Nat.compare s Pc) <-> In x (s :: D)).
            { intros x. rewrite in_sadd, HPc. simpl. split; intros [K|K]; auto. }
            destruct (smem Nat.compare (tgt a) (sadd Nat.compare s Pc)) eqn:Et.
            * apply in_smem, HP1 in Et. exists true, (sadd Nat.compare s Pc), Hc. split; [reflexivity|]. split; [|discriminate]. intros _. exists (tgt a).
              apply (leads_cycle _ s a HL Ha Ea). destruct Et as [K|K]; auto.
            * apply notin_smem in Et. rewrite HP1 in Et.
              assert (ND' : NoDup (s :: D)) by (constructor; assumption).
              assert (BD' : forall x, In x (s :: D) -> x < n) by (intros x [<-|Hx]; [exact Hs|exact (BD x Hx)]).
              destruct (IH (tgt a) (sadd Nat.compare s Pc) Hc (s :: D) HP1 ND' BD' (proj1 (proj2 G) s a Ha) Et) as (b & P2 & H2 & E & T & F).
              { pose proof (incl_bound (s :: D) n ND' BD') as K. simpl in K |- *. lia. }
              { intros x Hx. apply (leads_step _ s a HL Ha Ea). destruct Hx as [<-|Hx]; auto. }
              { exact HOc. }
              rewrite E. cbn [rbind]. destruct b.
              -- exists true, P2, H2. split; [reflexivity|]. split; [exact T|discriminate].
              -- destruct (F eq_refl) as (FP & FO & FI & FH). apply (IHl (dn ++ [a]) _ H2 El').
                 ++ intros x. rewrite in_sdel, FP. simpl. split; [intros [N [K|K]]; [congruence|exact K]|]. intros Hx. split; [intros ->; contradiction|auto].
                 ++ exact FO.
                 ++ eapply incl_tran; eassumption.
                 ++ intros c Hc' Fc. apply in_app_iff in Hc'. destruct Hc' as [Hc'|[<-|[]]]; [apply FH; exact (Hdn c Hc' Fc)|exact FI].
          + apply (IHl (dn ++ [a]) Pc Hc El' HPc HOc HI). intros c Hc' Fc. apply in_app_iff in Hc'. destruct Hc' as [Hc'|[<-|[]]]; [exact (Hdn c Hc' Fc)|].
            apply epsilon_like_iff in Fc. congruence. }
      apply (Loop _ [] P H eq_refl HP HO (incl_refl _)). intros a [].
  Qed.
  Lemma inf_any_spec fuel : n < fuel -> forall l P H, (forall x, ~ In x P) -> ordered H -> (forall s, In s l -> s < n) ->
    exists b, inf_any fuel g l P H = Ok b /\ (b = true -> exists s' r, cycle free_arc g s' r) /\
      (b = false -> exists H', ordered H' /\ incl H H' /\ forall s, In s l -> In s H').
  Proof.
    intros Hf. induction l as [|s l IH]; intros P H HP HO Hl; cbn [inf_any].
    - exists false. split; [reflexivity|]. split; [discriminate|]. intros _. exists H. split; [exact HO|]. split; [apply incl_refl|intros s []].
    - destruct (inf_from_spec fuel s P H []) as (b & P' & H' & E & T & F); auto.
      + intros x. simpl. split; [intros K; exact (HP x K)|intros []].
      + constructor.
      + intros x [].
      + apply Hl. left. reflexivity.
      + simpl. lia.
      + intros x [].
      + rewrite E. cbn [rbind]. destruct b; [exists true; split; [reflexivity|]; split; [exact T|discriminate]|].
        destruct (F eq_refl) as (FP & FO & FI & FH). destruct (IH P' H') as (b & Eb & Tb & Fb); auto.
        * intros x K. apply FP in K. destruct K.
        * intros x Hx. apply Hl. right. exact Hx.
        * exists b. split; [exact Eb|]. split; [exact Tb|]. intros Bf. destruct (Fb Bf) as (H2 & O2 & I2 & A2). exists H2. split; [exact O2|].
          split; [eapply incl_tran; eassumption|]. intros x [<-|Hx]; [apply I2; exact FI|exact (A2 x Hx)].
  Qed.

  (** ** Lookup *)
  Lemma reads_iff a x : epsilon_like (isy a) = false -> (reads g (isy a) x = true <-> consumes g a x).
  Proof.
    intros E. assert (NF : ~ free_arc a) by (rewrite <- epsilon_like_iff, E; discriminate). unfold reads, consumes.
    rewrite orb_true_iff, andb_true_iff, orb_true_iff, negb_true_iff, !bstr_eqb_eq. unfold UNK, IDN.
    assert (K : smem bcmp x (alpha g) = false <-> ~ In x (alpha g)) by (rewrite <- (smem_In bcmp bcmp_eq); symmetry; apply not_true_iff_false). rewrite K. tauto.
  Qed.
  Inductive no_loop : list bstr -> nat -> (nat -> Prop) -> Prop :=
  | nl_intro i s D : 
      (forall a, In a (nth s (sts g) []) -> free_arc a -> tgt a <> s /\ ~ D (tgt a)) ->
      (forall a, In a (nth s (sts g) []) -> free_arc a -> no_loop i (tgt a) (fun x => x = s \/ D x)) ->
      (forall a x i', In a (nth s (sts g) []) -> i = x :: i' -> consumes g a x -> no_loop i' (tgt a) (fun _ => False)) -> no_loop i s D.
  Lemma no_loop_mono i s (D D' : nat -> Prop) : (forall x, D' x -> D x) -> no_loop i s D -> no_loop i s D'.
  Proof.
    intros S H. revert D' S. induction H as [i s D H0 HF IHF HC IHC]; intros D' S. constructor.
    - intros a Ha Fa. destruct (H0 a Ha Fa) as (H1 & H2). auto.
    - intros a Ha Fa. apply IHF; auto. intros x [K|K]; auto.
    - intros a x i' Ha E C. exact (HC a x i' Ha E C).
  Qed.
  Lemma no_loop_reading s i t : reading g s i t -> forall i2 D, no_loop (i ++ i2) s D -> exists D', no_loop i2 t D'.
  Proof.
    induction 1 as [s|s a i t Ha Fa R IH|s a x i t Ha Ca R IH]; intros i2 D H.
    - exists D. exact H.
    - inversion H as [? ? ? _ HF _]; subst. exact (IH _ _ (HF a Ha Fa)).
    - inversion H as [? ? ? _ _ HC]; subst. exact (IH _ _ (HC a x (i ++ i2) Ha eq_refl Ca)).
  Qed.
  Lemma no_loop_cycle_path s : forall r cur i D, path g cur r s -> Forall free_arc r -> r <> [] -> no_loop i cur D -> D s -> False.
  Proof.
    induction r as [|a r IH]; intros cur i D P F N NL Hs; [congruence|]. inversion P as [|? ? ? ? Ha P']; subst. inversion F as [|? ? Fa F']; subst.
    inversion NL as [? ? ? H0 HF _]; subst. destruct (H0 a Ha Fa) as (H1 & H2). pose proof (HF a Ha Fa) as H3. destruct r as [|b r]; [inversion P'; subst; contradiction|].
    apply (IH (tgt a) i (fun x => x = cur \/ D x)); auto. discriminate.
  Qed.
  Lemma no_loop_no_cycle s r i D : no_loop i s D -> cycle free_arc g s r -> False.
  Proof.
    intros NL (N & P & F). destruct r as [|a r]; [congruence|]. inversion P as [|? ? ? ? Ha P']; subst. inversion F as [|? ? Fa F']; subst.
    inversion NL as [? ? ? H0 HF _]; subst. destruct (H0 a Ha Fa) as (H1 & H2). pose proof (HF a Ha Fa) as H3. destruct r as [|b r]; [inversion P'; subst; contradiction|].
    apply (no_loop_cycle_path s (b :: r) (tgt a) i (fun x => x = s \/ D x)); auto. discriminate.
  Qed.

  Definition loops_on (input : list bstr) (s : nat) : Prop :=
    exists p q t r, input = p ++ q /\ reading g s p t /\ cycle free_arc g t r.
  Lemma loops_on_free input s a : In a (nth s (sts g) []) -> free_arc a -> loops_on input (tgt a) -> loops_on input s.
  Proof. intros Ha Fa (p & q & t & r & -> & R & C). exists p, q, t, r. split; [reflexivity|]. split; [eapply rd_free; eassumption|exact C]. Qed.
  Lemma loops_on_consume input s a x : In a (nth s (sts g) []) -> consumes g a x -> loops_on input (tgt a) -> loops_on (x :: input) s.
  Proof. intros Ha Ca (p & q & t & r & -> & R & C). exists (x :: p), q, t, r. split; [reflexivity|]. split; [eapply rd_consume; eassumption|exact C]. Qed.

  Lemma lookup_inf_spec : forall fuel input s P D, (forall x, In x P -> x = s \/ In x D) -> (forall x, In x D -> In x P) -> NoDup D -> (forall x, In x D -> x < n) ->
    s < n -> ~ In s D -> length input * (n + 1) + (n - length D) < fuel -> leads (fun x => In x D) s ->
    exists b P', lookup_inf_from fuel g input s P = Ok (b, P') /\ (b = true -> loops_on input s) /\
      (b = false -> (forall x, In x P' -> In x P) /\ (forall x, In x D -> In x P') /\ no_loop input s (fun x => In x D)).
  Proof.
    induction fuel as [|fuel IH]; intros input s P D HP1 HP2 ND BD Hs NsD Hf HL; [lia|]. cbn [lookup_inf_from].
    unfold at_state. rewrite transitions_ok by exact Hs. cbn [rbind].
    match goal with |- exists b P', ?f _ _ = _ /\ _ => set (go := f) end.
    assert (ND' : NoDup (s :: D)) by (constructor; assumption).
    assert (BD' : forall x, In x (s :: D) -> x < n) by (intros x [<-|Hx]; [exact Hs|exact (BD x Hx)]).
    pose proof (incl_bound (s :: D) n ND' BD') as BL. simpl in BL.
    assert (Loop : forall l dn Pc, nth s (sts g) [] = dn ++ l -> (forall x, In x Pc -> In x P) -> (forall x, In x D -> In x Pc) ->
      (forall a, In a dn -> free_arc a -> tgt a <> s /\ ~ In (tgt a) D /\ no_loop input (tgt a) (fun x => x = s \/ In x D)) ->
      (forall a x i', In a dn -> input = x :: i' -> consumes g a x -> no_loop i' (tgt a) (fun _ => False)) ->
      exists b P', go l Pc = Ok (b, P') /\ (b = true -> loops_on input s) /\
        (b = false -> (forall x, In x P' -> In x P) /\ (forall x, In x D -> In x P') /\ no_loop input s (fun x => In x D))).
    { induction l as [|a l IHl]; intros dn Pc El HPc HDc Hfr Hco.
      - exists false, Pc. split; [reflexivity|]. split; [discriminate|]. intros _. split; [exact HPc|]. split; [exact HDc|]. rewrite app_nil_r in El. rewrite <- El in *.
        constructor; [intros a Ha Fa; destruct (Hfr a Ha Fa) as (K1 & K2 & _); auto|intros a Ha Fa; exact (proj2 (proj2 (Hfr a Ha Fa)))|exact Hco].
      - assert (Ha : In a (nth s (sts g) [])) by (rewrite El; apply in_app_iff; right; left; reflexivity).
        assert (El' : nth s (sts g) [] = (dn ++ [a]) ++ l) by (rewrite <- app_assoc; exact El).
        simpl. fold go. destruct (epsilon_like (isy a)) eqn:Ea.
        + apply epsilon_like_iff in Ea.
          assert (HPs : forall x, In x (sadd Nat.compare s Pc) <-> In x (s :: D)).
          { intros x. rewrite in_sadd. simpl. split; [intros [K|K]; [auto|apply HPc, HP1 in K; destruct K; auto]|intros [K|K]; [auto|right; exact (HDc x K)]]. }
          destruct (smem Nat.compare (tgt a) (sadd Nat.compare s Pc)) eqn:Et.
          * apply in_smem, HPs in Et. exists true, (sadd Nat.compare s Pc). split; [reflexivity|]. split; [|discriminate]. intros _.
            destruct (leads_cycle _ s a HL Ha Ea) as [r C]; [destruct Et as [K|K]; auto|]. exists [], input, (tgt a), r. split; [reflexivity|].
            split; [eapply rd_free; [exact Ha|exact Ea|constructor]|exact C].
          * apply notin_smem in Et. rewrite HPs in Et.
            destruct (IH input (tgt a) (sadd Nat.compare s Pc) (s :: D)) as (b & P2 & E & T & F); auto.
            { intros x Hx. right. apply HPs. exact Hx. }
            { intros x Hx. apply HPs. exact Hx. }
            { exact (proj1 (proj2 G) s a Ha). }
            { simpl. lia. }
            { intros x Hx. apply (leads_step _ s a HL Ha Ea). destruct Hx as [<-|Hx]; auto. }
            rewrite E. cbn [rbind]. destruct b.
            -- exists true, P2. split; [reflexivity|]. split; [|discriminate]. intros _. apply (loops_on_free input s a Ha Ea). apply T. reflexivity.
            -- destruct (F eq_refl) as (F1 & F2 & F3). apply (IHl (dn ++ [a]) _ El').
               ++ intros x Hx. apply in_sdel in Hx. destruct Hx as [Nx Hx]. apply F1, HPs in Hx. destruct Hx as [K|K]; [congruence|auto].
               ++ intros x Hx. apply in_sdel. split; [intros ->; contradiction|]. apply F2. right. exact Hx.
               ++ intros c Hc Fc. apply in_app_iff in Hc. destruct Hc as [Hc|[<-|[]]]; [exact (Hfr c Hc Fc)|]. split; [intros K; apply Et; left; auto|]. split; [intros K; apply Et; right; exact K|].
                  eapply no_loop_mono; [|exact F3]. intros x [->|K]; [left; reflexivity|right; exact K].
               ++ intros c x i' Hc Ei Cc. apply in_app_iff in Hc. destruct Hc as [Hc|[<-|[]]]; [exact (Hco c x i' Hc Ei Cc)|]. exfalso. destruct Cc as [Nf _]. contradiction.
        + assert (Nf : ~ free_arc a) by (rewrite <- epsilon_like_iff, Ea; discriminate).
          assert (Hfr' : forall c, In c (dn ++ [a]) -> free_arc c -> tgt c <> s /\ ~ In (tgt c) D /\ no_loop input (tgt c) (fun x => x = s \/ In x D)).
          { intros c Hc Fc. apply in_app_iff in Hc. destruct Hc as [Hc|[<-|[]]]; [exact (Hfr c Hc Fc)|contradiction]. }
          destruct input as [|x input'].
          * apply (IHl (dn ++ [a]) Pc El' HPc HDc Hfr'). intros c x i' Hc Ei. discriminate.
          * destruct (reads g (isy a) x) eqn:Er.
            -- apply (reads_iff a x Ea) in Er.
               destruct (IH input' (tgt a) [] []) as (b & P2 & E & T & F).
               { intros y []. }
               { intros y []. }
               { constructor. }
               { intros y []. }
               { exact (proj1 (proj2 G) s a Ha). }
               { intros []. }
               { cbn [length] in Hf |- *. lia. }
               { intros y []. }
               rewrite E. cbn [rbind]. destruct b.
               ++ exists true, Pc. split; [reflexivity|]. split; [|discriminate]. intros _. apply (loops_on_consume input' s a x Ha Er). apply T. reflexivity.
               ++ destruct (F eq_refl) as (_ & _ & F3). apply (IHl (dn ++ [a]) Pc El' HPc HDc Hfr'). intros c y i' Hc Ei Cc. apply in_app_iff in Hc.
                  destruct Hc as [Hc|[<-|[]]]; [exact (Hco c y i' Hc Ei Cc)|]. injection Ei as <- <-. eapply no_loop_mono; [|exact F3]. intros z [].
            -- apply (IHl (dn ++ [a]) Pc El' HPc HDc Hfr'). intros c y i' Hc Ei Cc. apply in_app_iff in Hc. destruct Hc as [Hc|[<-|[]]]; [exact (Hco c y i' Hc Ei Cc)|].
               injection Ei as <- <-. apply (reads_iff a x Ea) in Cc. congruence. }
    apply (Loop _ [] P eq_refl); auto; [intros a []|intros a x i' []].
  Qed.
End G.
