(** Proofs about compose-intersect: what a rule object answers, whatever was asked before. *)
From Coq Require Import Sorted Permutation.
From Verif Require Import Base OrdMap Flags_Model BT_Model BT_Spec BT_Proofs BT_Proofs3 BT_Proofs4 BT_Proofs5 Isect_Model Isect_Proofs CI_Model CI_Spec CI_Proofs.

Section P.
  Variable num : bstr -> nat.
  Variable sym : nat -> bstr.
  Hypothesis sym_num : forall x, sym (num x) = x.
  Let num_inj := num_inj num sym sym_num.

  (** The place a state number of a rule object stands for. *)
  Fixpoint den (r : rule) (q : nat) : option place :=
    match r with
    | Single c _ => if q <? length (c_maps c) then Some (At q) else None
    | Pair d r1 r2 =>
        match nth_error (p_pairs d) q with
        | Some (q1, q2) => match den r1 q1, den r2 q2 with Some a, Some b => Some (AtBoth a b) | _, _ => None end
        | None => None
        end
    end.
  Definition ext (r r' : rule) : Prop := forall q p, den r q = Some p -> den r' q = Some p.
  Lemma ext_refl r : ext r r. Proof. intros q p H; exact H. Qed.
  Lemma ext_trans r1 r2 r3 : ext r1 r2 -> ext r2 r3 -> ext r1 r3. Proof. unfold ext; eauto. Qed.

  (** [set] is the right answer for symbol x at place p. *)
  Definition set_ok (T : rules) (r : rule) (p : place) (x : bstr) (set : list trn) : Prop :=
    tsorted set
    /\ (forall t, In t set -> exists y p', reads T p x y (t_w t) p' /\ t_in t = num x /\ t_out t = num y /\ den r (t_to t) = Some p')
    /\ (forall y w p', reads T p x y w p' -> exists q', In (Trn (num x) (num y) w q') set /\ den r q' = Some p').
  Lemma set_ok_ext T r r' p x set : ext r r' -> set_ok T r p x set -> set_ok T r' p x set.
  Proof.
    intros E (S & A & C). split; [exact S|]. split.
    - intros t Ht. destruct (A t Ht) as (y & p' & R & I & O & D). exists y, p'. auto.
    - intros y w p' R. destruct (C y w p' R) as (q' & I & D). exists q'. auto.
  Qed.

  (** Invariants. *)
  Definition single_inv (g : graph) (c : cfst) : Prop :=
    (forall x, In (num x) (c_syms c) <-> In x (alpha g))
    /\ length (c_maps c) = length (sts g)
    /\ (forall s, s < length (sts g) -> nth_error (c_fin c) s = Some (finw g s))
    /\ (forall s, s < length (sts g) -> nth_error (c_ident c) s = Some (identity_of num (sorted_state num g s)))
    /\ (forall s m, nth_error (c_maps c) s = Some m ->
          (forall k set, mget Nat.compare k m = Some set -> exists x, k = num x /\ set_ok (One g) (Single c []) (At s) x set)
          /\ (forall a, In a (nth s (sts g) []) -> isy a <> IDN -> mget Nat.compare (num (isy a)) m <> None)).
  Definition pair_base (d : pdata) (r1 r2 : rule) : Prop :=
    NoDup (p_pairs d)
    /\ (forall p s, mget npcmp p (p_map d) = Some s <-> nth_error (p_pairs d) s = Some p)
    /\ length (p_trans d) = length (p_pairs d)
    /\ (forall q1 q2, In (q1, q2) (p_pairs d) -> den r1 q1 <> None /\ den r2 q2 <> None).
  Fixpoint inv (T : rules) (r : rule) : Prop :=
    match T, r with
    | One g, Single c symbols => single_inv g c /\ symbols = alpha g
    | Both T1 T2, Pair d r1 r2 =>
        inv T1 r1 /\ inv T2 r2 /\ pair_base d r1 r2
        /\ (forall s m p, nth_error (p_trans d) s = Some m -> den r s = Some p ->
              forall k set, mget Nat.compare k m = Some set -> exists x, k = num x /\ set_ok T r p x set)
    | _, _ => False
    end.

  Lemma den_inj T : forall r q q' p, inv T r -> den r q = Some p -> den r q' = Some p -> q = q'.
  Proof.
    induction T as [g|T1 IH1 T2 IH2]; intros [c sy|d r1 r2] q q' p I D D'; simpl in I; try contradiction.
    - simpl in D, D'. destruct (q <? length (c_maps c)), (q' <? length (c_maps c)); congruence.
    - destruct I as (I1 & I2 & (N & _) & _). simpl in D, D'.
      destruct (nth_error (p_pairs d) q) as [[a b]|] eqn:E; [|discriminate].
      destruct (nth_error (p_pairs d) q') as [[a' b']|] eqn:E'; [|discriminate].
      destruct (den r1 a) as [pa|] eqn:Da; [|discriminate]. destruct (den r2 b) as [pb|] eqn:Db; [|discriminate].
      destruct (den r1 a') as [pa'|] eqn:Da'; [|discriminate]. destruct (den r2 b') as [pb'|] eqn:Db'; [|discriminate].
      injection D as <-. injection D' as -> ->.
      assert (a = a') by (eapply IH1; eauto). assert (b = b') by (eapply IH2; eauto). subst.
      apply (proj1 (NoDup_nth_error _) N); [apply nth_error_Some; congruence|congruence].
  Qed.

  Definition okT := every (fun g => well_formed g /\ one_identity g).
  Definition detT := every label_deterministic.
  Lemma one_identity_unique g s a b : one_identity g -> In a (nth s (sts g) []) -> In b (nth s (sts g) []) ->
    isy a = IDN -> isy b = IDN -> a = b.
  Proof.
    intros O Ha Hb Ia Ib. specialize (O s).
    assert (Fa : In a (filter (fun a => bstr_eqb (isy a) IDN) (nth s (sts g) []))) by (apply filter_In; rewrite Ia; auto using bstr_eqb_refl).
    assert (Fb : In b (filter (fun a => bstr_eqb (isy a) IDN) (nth s (sts g) []))) by (apply filter_In; rewrite Ib; auto using bstr_eqb_refl).
    change (B "@_IDENTITY_SYMBOL_@") with IDN in O.
    destruct (filter (fun a => bstr_eqb (isy a) IDN) (nth s (sts g) [])) as [|u [|v f]]; simpl in *; [tauto| |lia].
    destruct Fa as [<-|[]]. destruct Fb as [<-|[]]. reflexivity.
  Qed.
  Lemma reads_det T : okT T -> detT T -> forall p x y w p1 w' p2, reads T p x y w p1 -> reads T p x y w' p2 -> w = w' /\ p1 = p2.
  Proof.
    induction T as [g|T1 IH1 T2 IH2]; intros OK DT p x y w p1 w' p2 R R'.
    - destruct OK as ((_ & SY & _) & O). inversion R as [g0 s a Ha Na E1 E2 E3 E4 E5 E6|g0 s a x0 Ha Ia Xa E1 E2 E3 E4 E5 E6|]; subst.
      + inversion R' as [g1 s1 b Hb Nb E1 E2 E3 E4 E5 E6|g1 s1 b x0 Hb Ib Xb E1 E2 E3 E4 E5 E6|]; subst.
        * rewrite (DT s a b); auto.
        * exfalso. apply Xb. apply (SY s a Ha).
      + inversion R' as [g1 s1 b Hb Nb E1 E2 E3 E4 E5 E6|g1 s1 b x0 Hb Ib Xb E1 E2 E3 E4 E5 E6|]; subst.
        * exfalso. apply Xa. apply (SY s b Hb).
        * rewrite (one_identity_unique g s a b); auto.
    - destruct OK as [O1 O2], DT as [D1 D2]. inversion R as [| |? ? ? ? ? ? ? ? ? ? A1 A2]; subst. inversion R' as [| |? ? ? ? ? ? ? ? ? ? B1 B2]; subst.
      destruct (IH1 O1 D1 _ _ _ _ _ _ _ A1 B1) as [-> ->]. destruct (IH2 O2 D2 _ _ _ _ _ _ _ A2 B2) as [-> ->]. auto.
  Qed.
  Definition out_sorted := StronglySorted (fun a b : trn => t_out a < t_out b).
  Lemma set_ok_out_sorted T r p x set : okT T -> detT T -> inv T r -> set_ok T r p x set -> out_sorted set.
  Proof.
    intros OK DT I (S & A & _). induction S as [|t set S IH F]; [constructor|].
    constructor; [apply IH; intros; apply A; right; assumption|].
    rewrite Forall_forall in *. intros u Hu. specialize (F u Hu). apply trn_lt_iff in F.
    destruct (A t (or_introl eq_refl)) as (y & p1 & R1 & I1 & O1 & D1).
    destruct (A u (or_intror Hu)) as (z & p2 & R2 & I2 & O2 & D2).
    rewrite I1, I2 in F. destruct F as [F|(_ & [F|(E & F)])]; [lia|exact F|]. exfalso.
    rewrite O1, O2 in E. apply num_inj in E. subst z.
    destruct (reads_det T OK DT _ _ _ _ _ _ _ R1 R2) as [Ew Ep]. subst p2.
    assert (t_to t = t_to u) by (eapply den_inj; eauto). lia.
  Qed.

  (** * A single rule *)
  Lemma single_get g c s x : well_formed g -> one_identity g -> single_inv g c -> s < length (sts g) ->
    exists c' set, fst_transitions num c s (num x) = Ok (c', set) /\ single_inv g c' /\ length (c_maps c') = length (c_maps c)
      /\ set_ok (One g) (Single c' []) (At s) x set.
  Proof.
    intros ((_ & ST & _) & SY & _) OI I Hs. destruct I as (I1 & I2 & I3 & I4 & I5).
    assert (Dn : forall c0, length (c_maps c0) = length (sts g) -> forall a, In a (nth s (sts g) []) -> den (Single c0 []) (tgt a) = Some (At (tgt a))).
    { intros c0 L a Ha. simpl. rewrite L. rewrite (proj2 (Nat.ltb_lt _ _) (ST s a Ha)). reflexivity. }
    unfold fst_transitions. rewrite (nth_error_nth' _ []) by lia.
    assert (NE : nth_error (c_maps c) s = Some (nth s (c_maps c) [])) by (apply nth_error_nth'; lia).
    destruct (I5 s _ NE) as [M1 M2]. set (m := nth s (c_maps c) []) in *.
    destruct (mget Nat.compare (num x) m) as [set|] eqn:E.
    - exists c, set. split; [reflexivity|]. split; [exact (conj I1 (conj I2 (conj I3 (conj I4 I5))))|]. split; [reflexivity|].
      destruct (M1 _ _ E) as (x' & K & O). apply num_inj in K. subst x'. exact O.
    - set (enter := fun set => Cfst (c_syms c) (upd s (mset Nat.compare (num x) set m) (c_maps c)) (c_fin c) (c_ident c)).
      assert (NoArc : forall a, In a (nth s (sts g) []) -> isy a <> IDN -> isy a <> x) by (intros a Ha N K; apply (M2 a Ha N); rewrite K; exact E).
      assert (Lm : forall set, length (c_maps (enter set)) = length (c_maps c)) by (intros; simpl; apply upd_length).
      assert (Fin : forall set, set_ok (One g) (Single c []) (At s) x set ->
        single_inv g (enter set) /\ length (c_maps (enter set)) = length (c_maps c) /\ set_ok (One g) (Single (enter set) []) (At s) x set).
      { intros set O.
        assert (X : forall c0, length (c_maps c0) = length (c_maps c) -> ext (Single c []) (Single c0 [])).
        { intros c0 L q p H. simpl in *. rewrite L. exact H. }
        assert (O' : set_ok (One g) (Single (enter set) []) (At s) x set) by (eapply set_ok_ext; [apply X, Lm|exact O]).
        split; [|split; [apply Lm|exact O']].
        split; [exact I1|]. split; [rewrite Lm; exact I2|]. split; [exact I3|]. split; [exact I4|].
        intros s' m' Em. cbn [enter c_maps] in Em. destruct (Nat.eq_dec s' s) as [-> |N].
        - assert (m' = mset Nat.compare (num x) set m).
          { rewrite nth_error_upd_same in Em by lia. congruence. }
          subst m'. split.
          + intros k set' H. destruct (Nat.eq_dec k (num x)) as [-> |Nk].
            * rewrite (mget_mset_same _ Nat.compare_eq_iff) in H. injection H as <-. exists x. auto.
            * rewrite (mget_mset_other _ Nat.compare_eq_iff) in H by exact Nk. destruct (M1 _ _ H) as (x' & K & O2).
              exists x'. split; [exact K|]. eapply set_ok_ext; [apply X, Lm|exact O2].
          + intros a Ha Na H. destruct (Nat.eq_dec (num (isy a)) (num x)) as [Q|Q].
            * rewrite Q, (mget_mset_same _ Nat.compare_eq_iff) in H. discriminate.
            * rewrite (mget_mset_other _ Nat.compare_eq_iff) in H by exact Q. exact (M2 a Ha Na H).
        - assert (Em' : nth_error (c_maps c) s' = Some m').
          { rewrite nth_error_upd_other in Em by exact N. exact Em. }
          destruct (I5 s' m' Em') as [A1 A2]. split; [|exact A2]. intros k set' H. destruct (A1 k set' H) as (x' & K & O2).
          exists x'. split; [exact K|]. eapply set_ok_ext; [apply X, Lm|exact O2]. }
      destruct (smem Nat.compare (num x) (c_syms c)) eqn:K.
      + apply (smem_In _ Nat.compare_eq_iff) in K. apply I1 in K. exists (enter []), []. split; [reflexivity|]. apply Fin.
        split; [constructor|]. split; [intros t []|]. intros y w p' R. exfalso. inversion R; subst; [apply (NoArc a); auto|auto].
      + assert (NK : ~ In x (alpha g)). { intros H. apply I1 in H. apply (smem_In _ Nat.compare_eq_iff) in H. congruence. }
        rewrite (I4 s Hs). unfold identity_of.
        assert (P : forall a, In a (filter (fun a => bstr_eqb (isy a) IDN) (sorted_state num g s)) <-> In a (nth s (sts g) []) /\ isy a = IDN).
        { intros a. rewrite filter_In, bstr_eqb_eq. split; intros [H1 H2]; (split; [|exact H2]).
          - exact (Permutation_in _ (Permutation_sym (std_sort_nth num g s)) H1).
          - exact (Permutation_in _ (std_sort_nth num g s) H1). }
        destruct (filter (fun a => bstr_eqb (isy a) IDN) (sorted_state num g s)) as [|a f].
        * cbn [t_in]. replace (num EPS =? num IDN) with false.
          2: { symmetry. apply Nat.eqb_neq. intros H. apply num_inj in H. vm_compute in H. discriminate. }
          cbn [negb]. exists (enter []), []. split; [reflexivity|]. apply Fin.
          split; [constructor|]. split; [intros t []|]. intros y w p' R. exfalso. inversion R; subst; [apply (NoArc a); auto|].
          destruct (proj2 (P a)); auto.
        * destruct (proj1 (P a) (or_introl eq_refl)) as [Ha Ia].
          cbn [trn_of t_in t_w t_to]. rewrite Ia, Nat.eqb_refl. cbn [negb].
          exists (enter (trn_insert (Trn (num x) (num x) (wt a) (tgt a)) [])), (trn_insert (Trn (num x) (num x) (wt a) (tgt a)) []).
          split; [reflexivity|]. apply Fin. split; [apply tsorted_insert; constructor|]. split.
          -- intros t Ht. apply In_trn_insert in Ht. destruct Ht as [-> |[]]. exists x, (At (tgt a)). cbn [t_w t_in t_out t_to].
             split; [apply reads_identity; assumption|]. auto.
          -- intros y w p' R. inversion R; subst; [exfalso; apply (NoArc a0); auto|].
             assert (a0 = a) by (eapply one_identity_unique; eauto). subst a0.
             exists (tgt a). split; [apply In_trn_insert; auto|]. auto.
  Qed.

  (** * Rule pairs *)
  Definition grows (d d' : pdata) : Prop :=
    exists more, p_pairs d' = p_pairs d ++ more /\ p_trans d' = p_trans d ++ repeat [] (length more).
  Lemma grows_refl d : grows d d.
  Proof. exists []. simpl. rewrite !app_nil_r. auto. Qed.
  Lemma grows_trans d1 d2 d3 : grows d1 d2 -> grows d2 d3 -> grows d1 d3.
  Proof.
    intros (m1 & P1 & T1) (m2 & P2 & T2). exists (m1 ++ m2). rewrite P2, T2, P1, T1, app_length, repeat_app, <- !app_assoc. auto.
  Qed.
  Lemma grows_nth d d' s p : grows d d' -> nth_error (p_pairs d) s = Some p -> nth_error (p_pairs d') s = Some p.
  Proof. intros (more & -> & _) H. rewrite nth_error_app1; [exact H|]. apply nth_error_Some. congruence. Qed.
  Lemma NoDup_snoc {A} (l : list A) x : NoDup l -> ~ In x l -> NoDup (l ++ [x]).
  Proof.
    intros N X. induction N as [|y l Y N IH]; simpl; [constructor; [intros []|constructor]|].
    constructor; [|apply IH; intros H; apply X; right; exact H].
    rewrite in_app_iff. intros [H|[H|[]]]; [contradiction|]. subst. apply X. left. reflexivity.
  Qed.
  Lemma nth_error_snoc {A} (l : list A) x s y : nth_error (l ++ [x]) s = Some y <-> nth_error l s = Some y \/ s = length l /\ y = x.
  Proof.
    destruct (Nat.lt_trichotomy s (length l)) as [H|[-> |H]].
    - rewrite nth_error_app1 by exact H. split; [auto|]. intros [K|[K _]]; [exact K|lia].
    - rewrite nth_error_app2, Nat.sub_diag by lia. simpl. split.
      + intros K. right. split; congruence.
      + intros [K|[_ ->]]; [|reflexivity]. exfalso. assert (nth_error l (length l) <> None) as Q by congruence. apply nth_error_Some in Q. lia.
    - rewrite nth_error_app2 by lia. replace (s - length l) with (S (s - length l - 1)) by lia. simpl.
      split; [destruct (s - length l - 1); discriminate|]. intros [K|[K _]]; [|lia].
      exfalso. assert (nth_error l s <> None) as Q by congruence. apply nth_error_Some in Q. lia.
  Qed.
  Lemma pair_state_spec d r1 r2 q1 q2 d' s : pair_base d r1 r2 -> den r1 q1 <> None -> den r2 q2 <> None ->
    pair_state d (q1, q2) = (d', s) -> pair_base d' r1 r2 /\ grows d d' /\ nth_error (p_pairs d') s = Some (q1, q2).
  Proof.
    intros (N & M & L & D) D1 D2 E. unfold pair_state in E. destruct (mget npcmp (q1, q2) (p_map d)) as [s0|] eqn:G.
    - injection E as <- <-. split; [exact (conj N (conj M (conj L D)))|]. split; [apply grows_refl|]. apply M, G.
    - injection E as <- <-. cbn [p_pairs p_map p_trans].
      assert (X : ~ In (q1, q2) (p_pairs d)). { intros H. apply In_nth_error in H. destruct H as (i & H). apply M in H. congruence. }
      split; [|split].
      + split; [apply NoDup_snoc; assumption|]. split; [|split].
        * intros p t. cbn [p_map p_pairs]. rewrite nth_error_snoc. destruct (npcmp p (q1, q2)) eqn:Q.
          1: { apply npcmp_eq in Q. subst p. rewrite (mget_mset_same _ npcmp_eq). split.
               - intros K. injection K as <-. auto.
               - intros [K|[-> _]]; [|reflexivity]. apply M in K. congruence. }
          all: assert (Np : p <> (q1, q2)) by (intros ->; rewrite (proj2 (npcmp_eq _ _) eq_refl) in Q; discriminate).
          all: rewrite (mget_mset_other _ npcmp_eq) by exact Np; rewrite M; split; [auto|intros [K|[_ K]]; [exact K|contradiction]].
        * cbn [p_trans p_pairs]. rewrite !app_length, L. reflexivity.
        * intros a b H. apply in_app_iff in H. destruct H as [H|[H|[]]]; [apply D, H|]. injection H as <- <-. auto.
      + exists [(q1, q2)]. auto.
      + apply nth_error_snoc. auto.
  Qed.

  Lemma merge_spec r1 r2 k : forall n it jt d out d' out',
    out_sorted it -> out_sorted jt -> length it + length jt <= n ->
    (forall a, In a it -> den r1 (t_to a) <> None) -> (forall b, In b jt -> den r2 (t_to b) <> None) ->
    pair_base d r1 r2 -> tsorted out -> merge n k it jt d out = (d', out') ->
    pair_base d' r1 r2 /\ grows d d' /\ tsorted out'
    /\ (forall t, In t out' -> In t out \/ exists a b, In a it /\ In b jt /\ t_out a = t_out b
          /\ t_in t = k /\ t_out t = t_out a /\ t_w t = (t_w a + t_w b)%Z /\ nth_error (p_pairs d') (t_to t) = Some (t_to a, t_to b))
    /\ (forall t, In t out -> In t out')
    /\ (forall a b, In a it -> In b jt -> t_out a = t_out b ->
          exists s, In (Trn k (t_out a) (t_w a + t_w b) s) out' /\ nth_error (p_pairs d') s = Some (t_to a, t_to b)).
  Proof.
    induction n as [|n IH]; intros it jt d out d' out' Si Sj L Di Dj P So E.
    - destruct it, jt; simpl in L; try lia. simpl in E. injection E as <- <-.
      split; [exact P|]. split; [apply grows_refl|]. split; [exact So|]. split; [auto|]. split; [auto|]. intros a b [].
    - assert (Stop : it = [] \/ jt = [] -> (d, out) = (d', out') ->
        pair_base d' r1 r2 /\ grows d d' /\ tsorted out'
        /\ (forall t, In t out' -> In t out \/ exists a b, In a it /\ In b jt /\ t_out a = t_out b
              /\ t_in t = k /\ t_out t = t_out a /\ t_w t = (t_w a + t_w b)%Z /\ nth_error (p_pairs d') (t_to t) = Some (t_to a, t_to b))
        /\ (forall t, In t out -> In t out')
        /\ (forall a b, In a it -> In b jt -> t_out a = t_out b ->
              exists s, In (Trn k (t_out a) (t_w a + t_w b) s) out' /\ nth_error (p_pairs d') s = Some (t_to a, t_to b))).
      { intros Z F. injection F as <- <-. split; [exact P|]. split; [apply grows_refl|]. split; [exact So|]. split; [auto|]. split; [auto|].
        intros a b Ha Hb. destruct Z; subst; [destruct Ha|destruct Hb]. }
      destruct it as [|a it]; [apply Stop; auto|]. destruct jt as [|b jt]; [apply Stop; auto|]. clear Stop.
      simpl in L. cbn [merge] in E. inversion Si as [|? ? Si1 Si2]; subst. inversion Sj as [|? ? Sj1 Sj2]; subst.
      rewrite Forall_forall in Si2, Sj2.
      destruct (Nat.eqb_spec (t_out a) (t_out b)) as [Q|Q].
      + destruct (pair_state d (t_to a, t_to b)) as [d1 s1] eqn:E1.
        destruct (pair_state_spec d r1 r2 _ _ d1 s1 P (Di a (or_introl eq_refl)) (Dj b (or_introl eq_refl)) E1) as (P1 & G1 & N1).
        apply IH in E; try assumption; [|lia|intros; apply Di; right; assumption|intros; apply Dj; right; assumption|apply tsorted_insert, So].
        destruct E as (P2 & G2 & S2 & A & K & C). split; [exact P2|]. split; [eapply grows_trans; eauto|]. split; [exact S2|]. split; [|split].
        * intros t Ht. destruct (A t Ht) as [H|(a' & b' & Ha & Hb & R)].
          -- apply In_trn_insert in H. destruct H as [-> |H]; [|left; exact H]. right. exists a, b. cbn [t_in t_out t_w t_to].
             split; [left; reflexivity|]. split; [left; reflexivity|]. do 4 (split; [auto|]). exact (grows_nth _ _ _ _ G2 N1).
          -- right. exists a', b'. split; [right; exact Ha|]. split; [right; exact Hb|exact R].
        * intros t Ht. apply K, In_trn_insert. auto.
        * intros a' b' [<-|Ha] [<-|Hb] O.
          -- exists s1. split; [apply K, In_trn_insert; auto|]. exact (grows_nth _ _ _ _ G2 N1).
          -- exfalso. apply Sj2 in Hb. lia.
          -- exfalso. apply Si2 in Ha. lia.
          -- apply C; assumption.
      + destruct (Nat.ltb_spec (t_out a) (t_out b)) as [Lt|Ge].
        * apply IH in E; try assumption; [|simpl; lia|intros; apply Di; right; assumption].
          destruct E as (P2 & G2 & S2 & A & K & C). split; [exact P2|]. split; [exact G2|]. split; [exact S2|]. split; [|split; [exact K|]].
          -- intros t Ht. destruct (A t Ht) as [H|(a' & b' & Ha & Hb & R)]; [auto|]. right. exists a', b'. split; [right; exact Ha|]. auto.
          -- intros a' b' [<-|Ha] Hb O; [|apply C; assumption]. exfalso. destruct Hb as [<-|Hb]; [lia|]. apply Sj2 in Hb. lia.
        * apply IH in E; try assumption; [|simpl; lia|intros; apply Dj; right; assumption].
          destruct E as (P2 & G2 & S2 & A & K & C). split; [exact P2|]. split; [exact G2|]. split; [exact S2|]. split; [|split; [exact K|]].
          -- intros t Ht. destruct (A t Ht) as [H|(a' & b' & Ha & Hb & R)]; [auto|]. right. exists a', b'. split; [exact Ha|]. split; [right; exact Hb|]. auto.
          -- intros a' b' Ha [<-|Hb] O; [|apply C; assumption]. exfalso. destruct Ha as [<-|Ha]; [lia|]. apply Si2 in Ha. lia.
  Qed.

  Lemma den_Pair d r1 r2 q p : den (Pair d r1 r2) q = Some p <->
    exists q1 q2 p1 p2, nth_error (p_pairs d) q = Some (q1, q2) /\ den r1 q1 = Some p1 /\ den r2 q2 = Some p2 /\ p = AtBoth p1 p2.
  Proof.
    simpl. split.
    - destruct (nth_error (p_pairs d) q) as [[q1 q2]|]; [|discriminate]. destruct (den r1 q1) as [p1|] eqn:D1; [|discriminate].
      destruct (den r2 q2) as [p2|] eqn:D2; [|discriminate]. intros H. injection H as <-. exists q1, q2, p1, p2. auto.
    - intros (q1 & q2 & p1 & p2 & -> & -> & -> & ->). reflexivity.
  Qed.
  Lemma ext_Pair d d' r1 r1' r2 r2' : ext r1 r1' -> ext r2 r2' -> (forall s p, nth_error (p_pairs d) s = Some p -> nth_error (p_pairs d') s = Some p) ->
    ext (Pair d r1 r2) (Pair d' r1' r2').
  Proof.
    intros E1 E2 G q p H. apply den_Pair in H. destruct H as (q1 & q2 & p1 & p2 & N & D1 & D2 & ->).
    apply den_Pair. exists q1, q2, p1, p2. auto.
  Qed.

  Definition fitT (T : rules) : Prop := match T with One _ => True | Both _ _ => detT T end.
  Theorem get_spec T : okT T -> fitT T -> forall r q p x, inv T r -> den r q = Some p ->
    exists r' set, get_transitions num r q (num x) = Ok (r', set) /\ inv T r' /\ ext r r' /\ set_ok T r' p x set.
  Proof.
    induction T as [g|T1 IH1 T2 IH2]; intros OK FT [c sy|d r1 r2] q p x I D; cbn [inv] in I; try contradiction.
    - destruct OK as (WF & OI). destruct I as [I ->]. simpl in D. destruct (Nat.ltb_spec q (length (c_maps c))) as [H|H]; [|discriminate].
      injection D as <-. destruct (single_get g c q x WF OI I) as (c' & set & E & I' & L & S).
      { destruct I as (_ & I2 & _). lia. }
      exists (Single c' (alpha g)), set. cbn [get_transitions]. rewrite E. cbn [rmap]. split; [reflexivity|]. split; [split; [exact I'|reflexivity]|].
      split; [intros q' p' H'; simpl in *; rewrite L; exact H'|exact S].
    - destruct OK as [O1 O2]. destruct FT as [D1 D2]. destruct I as (I1 & I2 & PB & MM). pose proof D as Dp.
      apply den_Pair in D. destruct D as (q1 & q2 & p1 & p2 & Nq & Dq1 & Dq2 & ->).
      cbn [get_transitions]. rewrite Nq.
      assert (Lq : q < length (p_trans d)). { destruct PB as (_ & _ & -> & _). apply nth_error_Some. congruence. }
      destruct (nth_error (p_trans d) q) as [m|] eqn:Em; [|apply nth_error_None in Em; lia].
      destruct (mget Nat.compare (num x) m) as [set|] eqn:Es.
      + exists (Pair d r1 r2), set. split; [reflexivity|]. split; [exact (conj I1 (conj I2 (conj PB MM)))|]. split; [apply ext_refl|].
        destruct (MM q m _ Em Dp _ _ Es) as (x' & K & S). apply num_inj in K. subst x'. exact S.
      + destruct (IH1 O1) with (r := r1) (q := q1) (p := p1) (x := x) as (r1' & set1 & E1 & J1 & X1 & S1); auto.
        { destruct T1; [exact Logic.I|exact D1]. }
        destruct (IH2 O2) with (r := r2) (q := q2) (p := p2) (x := x) as (r2' & set2 & E2 & J2 & X2 & S2); auto.
        { destruct T2; [exact Logic.I|exact D2]. }
        rewrite E1. cbn [rbind]. rewrite E2. cbn [rbind].
        destruct (merge (length set1 + length set2) (num x) set1 set2 d []) as [d' set] eqn:Eg.
        assert (PB' : pair_base d r1' r2').
        { destruct PB as (B1 & B2 & B3 & B4). split; [exact B1|]. split; [exact B2|]. split; [exact B3|]. intros a b Hab.
          destruct (B4 a b Hab) as [Na Nb]. split.
          - destruct (den r1 a) as [pa|] eqn:Da; [|congruence]. rewrite (X1 _ _ Da). discriminate.
          - destruct (den r2 b) as [pb|] eqn:Db; [|congruence]. rewrite (X2 _ _ Db). discriminate. }
        destruct (merge_spec r1' r2' (num x) (length set1 + length set2) set1 set2 d [] d' set) as (P2 & G2 & S3 & A & _ & C); auto.
        { exact (set_ok_out_sorted T1 r1' p1 x set1 O1 D1 J1 S1). } { exact (set_ok_out_sorted T2 r2' p2 x set2 O2 D2 J2 S2). }
        { intros a Ha. destruct S1 as (_ & S1 & _). destruct (S1 a Ha) as (y & p' & _ & _ & _ & Da). congruence. }
        { intros a Ha. destruct S2 as (_ & S2 & _). destruct (S2 a Ha) as (y & p' & _ & _ & _ & Da). congruence. }
        { constructor. }
        set (d2 := Pdata (p_pairs d') (p_map d') (upd q (mset Nat.compare (num x) set (nth q (p_trans d') [])) (p_trans d'))).
        exists (Pair d2 r1' r2'), set. split; [reflexivity|].
        assert (EX : ext (Pair d r1 r2) (Pair d2 r1' r2')).
        { apply ext_Pair; [exact X1|exact X2|]. intros s pp H. cbn [d2 p_pairs]. exact (grows_nth _ _ _ _ G2 H). }
        assert (SK : set_ok (Both T1 T2) (Pair d2 r1' r2') (AtBoth p1 p2) x set).
        { split; [exact S3|]. destruct S1 as (_ & S1a & S1b). destruct S2 as (_ & S2a & S2b). split.
          - intros t Ht. destruct (A t Ht) as [[]|(a & b & Ha & Hb & Oab & Ti & To & Tw & Tt)].
            destruct (S1a a Ha) as (y & pa & Ra & Ia & Oa & Da). destruct (S2a b Hb) as (z & pb & Rb & Ib & Ob & Db).
            rewrite Oa, Ob in Oab. apply num_inj in Oab. subst z. exists y, (AtBoth pa pb).
            rewrite Tw. split; [constructor; assumption|]. split; [exact Ti|]. split; [congruence|].
            apply den_Pair. exists (t_to a), (t_to b), pa, pb. auto.
          - intros y w p' R. inversion R as [| |? ? ? ? ? ? w1 w2 pa pb R1 R2]; subst.
            destruct (S1b _ _ _ R1) as (a & Ha & Da). destruct (S2b _ _ _ R2) as (b & Hb & Db).
            destruct (C _ _ Ha Hb eq_refl) as (s & Hs & Ns). cbn [t_out t_w t_to] in *. exists s. split; [exact Hs|].
            apply den_Pair. exists a, b, pa, pb. auto. }
        split; [|split; [exact EX|exact SK]].
        destruct G2 as (more & Gp & Gt).
        assert (Lt' : length (p_trans d') = length (p_pairs d')) by apply P2.
        cbn [inv]. split; [exact J1|]. split; [exact J2|]. split.
        * destruct P2 as (B1 & B2 & B3 & B4). split; [exact B1|]. split; [exact B2|]. split; [cbn [d2 p_trans p_pairs]; rewrite upd_length; exact B3|exact B4].
        * intros s m' ps Hs Ds k set' Hk. cbn [d2 p_trans] in Hs.
          assert (Old : forall m0, nth_error (p_trans d') s = Some m0 -> mget Nat.compare k m0 = Some set' ->
            exists x0, k = num x0 /\ set_ok (Both T1 T2) (Pair d2 r1' r2') ps x0 set').
          { intros m0 H0 Hk0. rewrite Gt in H0. destruct (Nat.lt_ge_cases s (length (p_trans d))) as [Ls|Ls].
            - rewrite nth_error_app1 in H0 by exact Ls.
              assert (Ls' : s < length (p_pairs d)) by (destruct PB as (_ & _ & Lp & _); lia).
              destruct (nth_error (p_pairs d) s) as [[a b]|] eqn:Nab; [|apply nth_error_None in Nab; lia].
              destruct (proj2 (proj2 (proj2 PB)) a b (nth_error_In _ _ Nab)) as [Na Nb].
              destruct (den r1 a) as [pa|] eqn:Da; [|congruence]. destruct (den r2 b) as [pb|] eqn:Db; [|congruence].
              assert (Dold : den (Pair d r1 r2) s = Some (AtBoth pa pb)) by (apply den_Pair; exists a, b, pa, pb; auto).
              destruct (MM s m0 _ H0 Dold k set' Hk0) as (x0 & K & S0). exists x0. split; [exact K|].
              apply EX in Dold. rewrite Dold in Ds. injection Ds as <-. eapply set_ok_ext; [exact EX|exact S0].
            - rewrite nth_error_app2 in H0 by exact Ls. apply nth_error_In, repeat_spec in H0. subst m0. discriminate. }
          destruct (Nat.eq_dec s q) as [-> |Nsq].
          -- rewrite nth_error_upd_same in Hs by (rewrite Gt, app_length; lia). injection Hs as <-.
             apply EX in Dp. rewrite Dp in Ds. injection Ds as <-.
             destruct (Nat.eq_dec k (num x)) as [-> |Nk].
             ++ rewrite (mget_mset_same _ Nat.compare_eq_iff) in Hk. injection Hk as <-. exists x. auto.
             ++ rewrite (mget_mset_other _ Nat.compare_eq_iff) in Hk by exact Nk. apply (Old (nth q (p_trans d') [])); [|exact Hk].
                apply nth_error_nth'. rewrite Gt, app_length. lia.
          -- rewrite nth_error_upd_other in Hs by exact Nsq. exact (Old m' Hs Hk).
  Qed.

  (** * Construction and final weights *)
  Lemma build_inv T : okT T -> inv T (rule_object num T) /\ den (rule_object num T) 0 = Some (start T).
  Proof.
    induction T as [g|T1 IH1 T2 IH2]; intros OK.
    - destruct OK as (((NE & ST & _) & SY & SP) & OI). cbn [rule_object make_rule inv].
      destruct (make_cfst_spec num sym sym_num true g) as (A & Bm & C & D & E). set (c := make_cfst num true g) in *.
      split; [split; [|reflexivity]|].
      + split; [exact A|]. split; [exact Bm|]. split; [exact D|]. split; [exact (E OI)|].
        intros s m Hm. assert (Hs : s < length (sts g)) by (rewrite <- Bm; apply nth_error_Some; congruence).
        specialize (C s Hs). apply (nth_error_nth _ _ []) in Hm. rewrite Hm in C. destruct C as (_ & C1 & C2). split; [|exact C2].
        intros k set Hk. destruct (C1 k set Hk) as (x & K & (S & Sn) & F). exists x. split; [exact K|]. split; [exact S|].
        assert (XA : In x (alpha g)).
        { destruct set as [|t set]; [congruence|]. destruct (proj1 (F t) (or_introl eq_refl)) as (a & Ha & _ & <- & _). apply (SY s a Ha). }
        split.
        * intros t Ht. apply F in Ht. destruct Ht as (a & Ha & N & <- & ->). exists (osy a), (At (tgt a)). cbn [key trn_of t_w t_in t_out t_to].
          split; [constructor; assumption|]. split; [reflexivity|]. split; [reflexivity|].
          cbn [den]. rewrite Bm. rewrite (proj2 (Nat.ltb_lt _ _) (ST s a Ha)). reflexivity.
        * intros y w p' R. inversion R as [? ? a Ha N|? ? a ? Ha Ia Nx|]; subst; [|contradiction].
          exists (tgt a). split; [apply F; exists a; auto|]. cbn [den]. rewrite Bm. rewrite (proj2 (Nat.ltb_lt _ _) (ST s a Ha)). reflexivity.
      + unfold make_rule. cbn [den start]. fold c. rewrite Bm. destruct (sts g); [congruence|reflexivity].
    - destruct OK as [O1 O2]. destruct (IH1 O1) as [I1 D1]. destruct (IH2 O2) as [I2 D2]. cbn [rule_object make_pair]. split.
      + cbn [inv]. split; [exact I1|]. split; [exact I2|]. split.
        * split; [constructor; [intros []|constructor]|]. cbn [p_pairs p_map p_trans]. split; [|split; [reflexivity|]].
          -- intros [a b] s. split.
             ++ intros H. apply (mget_In _ npcmp_eq) in H. destruct H as [H|[]]. injection H as <- <- <-. reflexivity.
             ++ intros H. destruct s as [|s]; [|destruct s; discriminate]. injection H as <- <-. reflexivity.
          -- intros a b [H|[]]. injection H as <- <-. rewrite D1, D2. split; discriminate.
        * intros s m p H _ k set Hk. destruct s as [|[|s]]; simpl in H; [|discriminate|discriminate]. injection H as <-. discriminate.
      + cbn [start]. apply den_Pair. exists 0, 0, (start T1), (start T2). auto.
  Qed.
  Lemma final_spec T : forall r q p, inv T r -> den r q = Some p -> rule_final_weight r q = Ok (stops T p).
  Proof.
    induction T as [g|T1 IH1 T2 IH2]; intros [c sy|d r1 r2] q p I D; cbn [inv] in I; try contradiction.
    - destruct I as [(_ & I2 & I3 & _) _]. simpl in D. destruct (Nat.ltb_spec q (length (c_maps c))) as [H|H]; [|discriminate].
      injection D as <-. cbn [rule_final_weight fst_final_weight stops]. unfold fst_final_weight.
      destruct (Nat.leb_spec (length (c_maps c)) q); [lia|]. rewrite I3 by lia. reflexivity.
    - destruct I as (I1 & I2 & _). apply den_Pair in D. destruct D as (q1 & q2 & p1 & p2 & N & D1 & D2 & ->).
      cbn [rule_final_weight stops]. rewrite N, (IH1 _ _ _ I1 D1). cbn [rbind]. rewrite (IH2 _ _ _ I2 D2). reflexivity.
  Qed.
  Definition size (r : rule) : nat := match r with Single c _ => length (c_maps c) | Pair d _ _ => length (p_pairs d) end.
  Lemma den_size r q p : den r q = Some p -> q < size r.
  Proof.
    destruct r as [c sy|d r1 r2]; intros D.
    - simpl in *. destruct (Nat.ltb_spec q (length (c_maps c))); [assumption|discriminate].
    - apply den_Pair in D. destruct D as (q1 & q2 & p1 & p2 & N & _). simpl. apply nth_error_Some. congruence.
  Qed.
  Lemma size_bound T : forall r, inv T r -> size r <= places T.
  Proof.
    induction T as [g|T1 IH1 T2 IH2]; intros [c sy|d r1 r2] I; cbn [inv] in I; try contradiction.
    - destruct I as [(_ & I2 & _) _]. simpl. lia.
    - destruct I as (I1 & I2 & (N & _ & _ & D) & _). cbn [size places].
      apply IH1 in I1. apply IH2 in I2.
      replace (places T1 * places T2) with (length (list_prod (seq 0 (places T1)) (seq 0 (places T2)))) by (rewrite prod_length, !seq_length; reflexivity).
      apply NoDup_incl_length; [exact N|]. intros [a b] H. destruct (D a b H) as [Da Db].
      destruct (den r1 a) as [pa|] eqn:Ea; [|congruence]. destruct (den r2 b) as [pb|] eqn:Eb; [|congruence].
      apply den_size in Ea, Eb. apply in_prod; apply in_seq; lia.
  Qed.
End P.
