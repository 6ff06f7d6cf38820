(** Lemmas behind LK_Props. *)
From Verif Require Import Base Flags_Model BT_Model BT_Spec BT_Proofs BT_Proofs3 An_Model An_Spec An_Proofs An_Proofs2 LK_Model LK_Spec.
From Coq Require Import Permutation.

Lemma lpcmp_eq : forall x y, lpcmp x y = Eq <-> x = y.
Proof.
  induction x as [|a x IH]; intros [|c y]; simpl; try (split; [discriminate|discriminate]); [split; auto|].
  destruct (pcmp a c) eqn:E.
  - apply pcmp_eq in E. subst. rewrite IH. split; [intros ->; reflexivity|injection 1; auto].
  - split; [discriminate|]. intros H. injection H as -> ->. rewrite (proj2 (pcmp_eq c c) eq_refl) in E. discriminate.
  - split; [discriminate|]. intros H. injection H as -> ->. rewrite (proj2 (pcmp_eq c c) eq_refl) in E. discriminate.
Qed.
Lemma tlpcmp_eq p q : tlpcmp p q = Eq <-> p = q.
Proof.
  destruct p as [w x], q as [v y]. unfold tlpcmp. cbn [fst snd]. destruct (Z.compare_spec w v) as [->|L|L].
  - rewrite lpcmp_eq. split; [intros ->; reflexivity|injection 1; auto].
  - split; [discriminate|]. intros H. injection H as -> _. lia.
  - split; [discriminate|]. intros H. injection H as -> _. lia.
Qed.
Lemma length_sadd {K} (cmp : K -> K -> comparison) k s : length s <= length (sadd cmp k s) <= S (length s).
Proof. induction s as [|x s IH]; simpl; [lia|]. destruct (cmp k x); simpl; lia. Qed.

Lemma NoDup_snoc (l : list nat) x : NoDup l -> ~ In x l -> NoDup (l ++ [x]).
Proof.
  intros ND N. apply (Permutation_NoDup (l := x :: l)); [apply Permutation_cons_append|]. constructor; assumption.
Qed.
Lemma NoDup_app_l (l r : list nat) : NoDup (l ++ r) -> NoDup l.
Proof. induction l as [|x l IH]; intros H; [constructor|]. inversion H as [|? ? N H']; subst. constructor; [intros K; apply N, in_app_iff; auto|auto]. Qed.
(** ** The handler *)
Lemma cut_after_spec s l : match cut_after s l with
  | Some p => exists p1 p2, p = p1 ++ [s] /\ l = p1 ++ s :: p2 /\ ~ In s p1
  | None => ~ In s l end.
Proof.
  induction l as [|x l IH]; simpl; [tauto|]. destruct (Nat.eqb_spec x s) as [->|N]; [exists [], l; simpl; auto|].
  destruct (cut_after s l) as [p|].
  - destruct IH as (p1 & p2 & -> & -> & Np). exists (x :: p1), p2. split; [reflexivity|]. split; [reflexivity|]. simpl. intuition.
  - simpl. intuition.
Qed.
Lemma push_back_app p m c s : push_back (Handler (p ++ [s]) m c) s = Handler (p ++ [s]) m c.
Proof. unfold push_back. cbn [epsilon_path]. rewrite rev_app_distr. simpl. rewrite Nat.eqb_refl. reflexivity. Qed.
Lemma push_back_new p m c s : ~ In s p -> push_back (Handler p m c) s = Handler (p ++ [s]) m c.
Proof.
  intros N. unfold push_back. cbn [epsilon_path]. destruct (rev p) as [|b q] eqn:E; [reflexivity|]. destruct (Nat.eqb_spec b s) as [->|]; [|reflexivity].
  exfalso. apply N. apply in_rev. rewrite E. left. reflexivity.
Qed.
Definition hstep (h : handler) (s : nat) : handler := push_back (snd (can_continue h s)) s.

Definition heq (p : list nat) (m c : nat) := Handler p m c.
Lemma can_continue_cases p m c s :
  (~ In s p /\ can_continue (Handler p m c) s = (true, Handler p m c) /\ hstep (Handler p m c) s = Handler (p ++ [s]) m c) \/
  (exists p1 p2, p = p1 ++ s :: p2 /\ ~ In s p1 /\ fst (can_continue (Handler p m c) s) = (c + 1 <=? m) /\
     hstep (Handler p m c) s = Handler (p1 ++ [s]) m (c + 1)).
Proof.
  unfold hstep, can_continue. cbn [epsilon_path max_cycles cycles]. pose proof (cut_after_spec s p) as H. destruct (cut_after s p) as [q|].
  - right. destruct H as (p1 & p2 & -> & -> & N). exists p1, p2. split; [reflexivity|]. split; [exact N|]. cbn [fst snd]. split; [|apply push_back_app].
    destruct (Nat.ltb_spec m (c + 1)), (Nat.leb_spec (c + 1) m); simpl; try reflexivity; lia.
  - left. split; [exact H|]. split; [reflexivity|]. cbn [snd]. apply push_back_new. exact H.
Qed.

Section G.
  Variable g : graph.
  Hypothesis G : structure_ok g.
  Variable lim : limits.
  Variable cutoff : nat.
  Let n := length (sts g).

  Definition hinv (h : handler) : Prop :=
    NoDup (epsilon_path h) /\ (forall x, In x (epsilon_path h) -> x < n) /\ max_cycles h = cutoff /\ cycles h <= cutoff.
  Definition pot (h : handler) : nat := (cutoff - cycles h) * (n + 1) + (n - length (epsilon_path h)).
  Lemma hinv_new : hinv (new_handler cutoff).
  Proof. split; [constructor|]. split; [intros x []|]. split; [reflexivity|]. simpl. lia. Qed.
  Lemma hstep_spec h s : hinv h -> s < n -> fst (can_continue h s) = true ->
    hinv (hstep h s) /\ pot (hstep h s) < pot h /\ push_back (hstep h s) s = hstep h s.
  Proof.
    destruct h as [p m c]. intros (H1 & H2 & H3 & H4) Hs Hc. cbn in H1, H2, H3, H4. subst m.
    destruct (can_continue_cases p cutoff c s) as [(N & E & ->)|(p1 & p2 & -> & N & E & ->)].
    - assert (ND : NoDup (p ++ [s])) by (apply NoDup_snoc; assumption).
      assert (BD : forall x, In x (p ++ [s]) -> x < n) by (intros x Hx; apply in_app_iff in Hx; destruct Hx as [Hx|[<-|[]]]; [exact (H2 x Hx)|exact Hs]).
      split; [split; [exact ND|]; split; [exact BD|]; split; [reflexivity|exact H4]|]. split; [|apply push_back_app].
      pose proof (incl_bound _ n ND BD) as K. unfold pot. cbn [cycles epsilon_path]. rewrite app_length in *. simpl in *. lia.
    - rewrite E in Hc. apply Nat.leb_le in Hc.
      assert (ND : NoDup (p1 ++ [s])).
      { apply NoDup_snoc; [exact (NoDup_app_l _ _ H1)|exact N]. }
      assert (BD : forall x, In x (p1 ++ [s]) -> x < n) by (intros x Hx; apply H2; apply in_app_iff in Hx; apply in_app_iff; destruct Hx as [Hx|[<-|[]]]; [auto|right; left; reflexivity]).
      split; [split; [exact ND|]; split; [exact BD|]; split; [reflexivity|exact Hc]|]. split; [|apply push_back_app].
      pose proof (incl_bound _ n ND BD) as K. unfold pot. cbn [cycles epsilon_path]. rewrite app_length in *. simpl in *.
      replace (cutoff - c) with (S (cutoff - (c + 1))) by lia. cbn [Nat.mul]. lia.
  Qed.

  Fixpoint okrun (h : handler) (w : Z) (s : nat) (r : list step) : Prop :=
    fst (can_continue h s) = true /\ too_heavy lim w = false /\
    match r with
    | [] => True
    | (a, None) :: r => okrun (hstep h s) (w + wt a) (tgt a) r
    | (a, Some _) :: r => okrun (new_handler cutoff) (w + wt a) (tgt a) r
    end.
  Definition gen (input : list bstr) (state : nat) (path : list (bstr * bstr)) (weight : Z) (h : handler) (e : tlp) : Prop :=
    exists r t fw, matches g state r input t /\ mget Nat.compare t (fin g) = Some fw /\ snd e = path ++ map shown r /\
      fst e = (weight + run_weight r + fw)%Z /\ too_heavy lim (fst e) = false /\ okrun h weight state r.

  Lemma possible_spec a input : match is_possible_transition g a input with
    | Some true => exists x i, input = x :: i /\ can_read g a x
    | Some false => free_arc a /\ forall x i, input = x :: i -> ~ can_read g a x
    | None => ~ free_arc a /\ forall x i, input = x :: i -> ~ can_read g a x end.
  Proof.
    assert (F : (is_epsilon (isy a) || is_diacritic (isy a))%bool = true <-> free_arc a) by exact (epsilon_like_iff a).
    assert (R : forall x, (bstr_eqb (isy a) x || ((bstr_eqb (isy a) IDN || bstr_eqb (isy a) UNK) && negb (smem bcmp x (alpha g))))%bool = true <-> can_read g a x).
    { intros x. unfold can_read. rewrite orb_true_iff, andb_true_iff, orb_true_iff, negb_true_iff, !bstr_eqb_eq.
      assert (K : smem bcmp x (alpha g) = false <-> ~ In x (alpha g)) by (rewrite <- (smem_In bcmp bcmp_eq); symmetry; apply not_true_iff_false). rewrite K. unfold IDN, UNK. tauto. }
    unfold is_possible_transition. destruct input as [|x input].
    - destruct (is_epsilon (isy a) || is_diacritic (isy a))%bool eqn:E; (split; [|intros x i; discriminate]); [apply F; reflexivity|rewrite <- F; discriminate].
    - destruct (bstr_eqb (isy a) x || ((bstr_eqb (isy a) IDN || bstr_eqb (isy a) UNK) && negb (smem bcmp x (alpha g))))%bool eqn:E1; [exists x, input; split; [reflexivity|apply R; exact E1]|].
      assert (NR : forall y i, x :: input = y :: i -> ~ can_read g a y) by (intros y i Ey; injection Ey as <- <-; rewrite <- R, E1; discriminate).
      destruct (is_epsilon (isy a) || is_diacritic (isy a))%bool eqn:E; (split; [|exact NR]); [apply F; reflexivity|rewrite <- F; discriminate].
  Qed.
  Lemma free_not_special a : free_arc a -> bstr_eqb (isy a) IDN = false /\ bstr_eqb (isy a) UNK = false.
  Proof.
    intros F. split; apply bstr_eqb_neq; intros E; destruct F as [K|K]; rewrite E in K; try discriminate; vm_compute in K; discriminate.
  Qed.
  Lemma free_no_read a input : free_arc a -> (forall x i, input = x :: i -> ~ can_read g a x) <-> (forall x i, input = x :: i -> x <> isy a).
  Proof.
    intros F. split; intros H x i E.
    - intros ->. apply (H _ _ E). left. reflexivity.
    - intros [K|[K _]]; [exact (H _ _ E (eq_sym K))|]. destruct (free_not_special a F) as [N1 N2]. apply bstr_eqb_neq in N1, N2. destruct K; contradiction.
  Qed.

  Definition post (Gen : tlp -> Prop) (res res' : list tlp) : Prop :=
    incl res res' /\ length res <= length res' /\ (forall e, In e res' -> In e res \/ Gen e) /\
    (enough lim res' = false -> forall e, Gen e -> In e res') /\
    (forall m, max_number lim = Some m -> length res <= m -> length res' <= m).
  Lemma enough_mono r r' : length r <= length r' -> enough lim r' = false -> enough lim r = false.
  Proof. unfold enough. destruct (max_number lim); [|auto]. rewrite !Nat.leb_gt. lia. Qed.
  Lemma post_trans G1 G2 (Gen : tlp -> Prop) r1 r2 r3 : post G1 r1 r2 -> post G2 r2 r3 -> (forall e, Gen e <-> G1 e \/ G2 e) -> post Gen r1 r3.
  Proof.
    intros (A1 & A2 & A3 & A4 & A5) (B1 & B2 & B3 & B4 & B5) E. split; [eapply incl_tran; eassumption|]. split; [lia|]. split.
    - intros e He. rewrite E. destruct (B3 e He) as [K|K]; [destruct (A3 e K); auto|auto].
    - split.
      + intros En e He. apply E in He. destruct He as [K|K]; [|exact (B4 En e K)]. apply B1. apply A4; [exact (enough_mono _ _ B2 En)|exact K].
      + intros m Em L. apply (B5 m Em). exact (A5 m Em L).
  Qed.
  Lemma post_refl (Gen : tlp -> Prop) r : (forall e, ~ Gen e) -> post Gen r r.
  Proof. intros N. split; [apply incl_refl|]. split; [lia|]. split; [auto|]. split; [intros _ e He; destruct (N e He)|auto]. Qed.
  Lemma post_ext (G1 G2 : tlp -> Prop) r r' : (forall e, G1 e <-> G2 e) -> post G1 r r' -> post G2 r r'.
  Proof.
    intros E (A1 & A2 & A3 & A4 & A5). split; [exact A1|]. split; [exact A2|]. split; [intros e He; rewrite <- E; exact (A3 e He)|].
    split; [intros En e He; apply (A4 En), E; exact He|exact A5].
  Qed.
  Lemma run_weight_cons p r : run_weight (p :: r) = (wt (fst p) + run_weight r)%Z.
  Proof. reflexivity. Qed.

  (** What the transition a contributes. *)
  Definition gen_arc (input : list bstr) (state : nat) (path : list (bstr * bstr)) (weight : Z) (h : handler) (a : arc) (e : tlp) : Prop :=
    exists o i, (o = None /\ free_arc a /\ (forall x i, input = x :: i -> x <> isy a) /\ i = input \/ (exists x, o = Some x /\ input = x :: i /\ can_read g a x)) /\
      gen i (tgt a) (path ++ [shown (a, o)]) (weight + wt a) (match o with None => hstep h state | Some _ => new_handler cutoff end) e.
  Lemma gen_cases input state path weight h e : fst (can_continue h state) = true -> too_heavy lim weight = false ->
    gen input state path weight h e <->
    (input = [] /\ exists fw, mget Nat.compare state (fin g) = Some fw /\ e = ((weight + fw)%Z, path) /\ too_heavy lim (weight + fw) = false) \/
    (exists a, In a (nth state (sts g) []) /\ gen_arc input state path weight h a e).
  Proof.
    intros Hc Hw. split.
    - intros (r & t & fw & M & F & Ep & Ew & Hh & O). destruct M as [s|s a r input t Ha Fa Hn M|s a x r input t Ha Rx M].
      + left. split; [reflexivity|]. exists fw. split; [exact F|]. destruct e as [w ps]. cbn [fst snd] in *. cbn [map] in Ep. rewrite app_nil_r in Ep. cbn [run_weight path_weight map] in Ew. unfold run_weight in Ew. cbn [map path_weight] in Ew. rewrite Z.add_0_r in Ew. subst. auto.
      + right. exists a. split; [exact Ha|]. exists None, input. split; [left; auto|]. exists r, t, fw. split; [exact M|]. split; [exact F|]. split; [rewrite <- app_assoc; exact Ep|].
        split; [rewrite Ew, run_weight_cons; cbn [fst]; lia|]. split; [exact Hh|]. destruct O as (_ & _ & O). exact O.
      + right. exists a. split; [exact Ha|]. exists (Some x), input. split; [right; exists x; auto|]. exists r, t, fw. split; [exact M|]. split; [exact F|]. split; [rewrite <- app_assoc; exact Ep|].
        split; [rewrite Ew, run_weight_cons; cbn [fst]; lia|]. split; [exact Hh|]. destruct O as (_ & _ & O). exact O.
    - intros [(-> & fw & F & -> & Hh)|(a & Ha & o & i & Ho & r & t & fw & M & F & Ep & Ew & Hh & O)].
      + exists [], state, fw. split; [constructor|]. split; [exact F|]. cbn [fst snd map]. split; [rewrite app_nil_r; reflexivity|]. split; [unfold run_weight; simpl; lia|]. split; [exact Hh|]. simpl. auto.
      + exists ((a, o) :: r), t, fw. rewrite run_weight_cons. cbn [fst map]. split; [|split; [exact F|split; [rewrite <- app_assoc in Ep; exact Ep|split; [rewrite Ew; lia|split; [exact Hh|]]]]].
        * destruct Ho as [(-> & Fa & Hn & ->)|(x & -> & -> & Rx)]; [apply ma_free; assumption|apply ma_read; assumption].
        * cbn [okrun]. split; [exact Hc|]. split; [exact Hw|]. destruct o; exact O.
  Qed.

  Theorem lookup_from_spec : forall fuel input state path weight h res, hinv h -> state < n ->
    length input * (cutoff * (n + 1) + n + 1) + pot h < fuel ->
    exists res', lookup_from fuel g lim cutoff input state path weight h res = Ok res' /\ post (gen input state path weight h) res res'.
  Proof.
    induction fuel as [|fuel IH]; intros input state path weight h res Hh Hs Hf; [lia|]. cbn [lookup_from].
    destruct (can_continue h state) as [ok h1] eqn:Ec. destruct ok; cbn [negb].
    2:{ exists res. split; [reflexivity|]. apply post_refl. intros e (r & t & fw & _ & _ & _ & _ & _ & O). destruct r as [|[a [x|]] r]; destruct O as (O & _); rewrite Ec in O; discriminate. }
    assert (Hc : fst (can_continue h state) = true) by (rewrite Ec; reflexivity).
    destruct (too_heavy lim weight) eqn:Ew.
    { exists res. split; [reflexivity|]. apply post_refl. intros e (r & t & fw & _ & _ & _ & _ & _ & O). destruct r as [|[a [x|]] r]; destruct O as (_ & O & _); congruence. }
    destruct (enough lim res) eqn:En.
    { exists res. split; [reflexivity|]. split; [apply incl_refl|]. split; [lia|]. split; [auto|]. split; [congruence|auto]. }
    destruct (hstep_spec h state Hh Hs Hc) as (Hh' & Hp & Hpb).
    assert (Epb : push_back h1 state = hstep h state) by (unfold hstep; rewrite Ec; reflexivity).
    set (res1 := match input, finw g state with [], Some fw => add_to_results lim res (weight + fw) path | _, _ => res end).
    assert (P1 : post (fun e => input = [] /\ exists fw, mget Nat.compare state (fin g) = Some fw /\ e = ((weight + fw)%Z, path) /\ too_heavy lim (weight + fw) = false) res res1).
    { unfold res1. destruct input as [|x input]; [|apply post_refl; intros e [K _]; discriminate]. unfold finw. destruct (mget Nat.compare state (fin g)) as [fw|] eqn:Ef; [|apply post_refl; intros e (_ & fw & K & _); discriminate].
      unfold add_to_results. destruct (too_heavy lim (weight + fw)) eqn:Eh; [apply post_refl; intros e (_ & fw' & K & _ & Kh); injection K as <-; congruence|].
      pose proof (length_sadd tlpcmp ((weight + fw)%Z, path) res) as L.
      split; [intros e He; apply (In_sadd tlpcmp tlpcmp_eq); auto|]. split; [lia|]. split; [|split].
      - intros e He. apply (In_sadd tlpcmp tlpcmp_eq) in He. destruct He as [->|He]; [right; split; [reflexivity|]; exists fw; auto|auto].
      - intros _ e (_ & fw' & K & -> & _). injection K as <-. apply (In_sadd tlpcmp tlpcmp_eq). auto.
      - intros m Em _. unfold enough in En. rewrite Em in En. apply Nat.leb_gt in En. lia. }
    unfold at_state. rewrite transitions_ok by exact Hs. cbn [rbind].
    match goal with |- exists res', ?f _ _ _ = _ /\ _ => set (go := f) end.
    assert (Loop : forall l eh res2, incl l (nth state (sts g) []) -> push_back eh state = hstep h state ->
      exists res', go l eh res2 = Ok res' /\ post (fun e => exists a, In a l /\ gen_arc input state path weight h a e) res2 res').
    { induction l as [|a l IHl]; intros eh res2 Hl He.
      - exists res2. split; [reflexivity|]. apply post_refl. intros e (a & [] & _).
      - assert (Ha : In a (nth state (sts g) [])) by (apply Hl; left; reflexivity). assert (Hl' : incl l (nth state (sts g) [])) by (intros x Hx; apply Hl; right; exact Hx).
        assert (Ht : tgt a < n) by exact (proj1 (proj2 G) state a Ha).
        simpl. fold go. pose proof (possible_spec a input) as PS. destruct (is_possible_transition g a input) as [[|]|].
        + destruct PS as (x & i & -> & Rx).
          assert (Ep : path_pair a (x :: i) = Ok (shown (a, Some x))).
          { unfold path_pair, shown. fold IDN UNK. destruct (bstr_eqb (isy a) IDN); [reflexivity|]. destruct (bstr_eqb (isy a) UNK); reflexivity. }
          rewrite Ep. cbn [rbind tl].
          destruct (IH i (tgt a) (path ++ [shown (a, Some x)]) (weight + wt a)%Z (new_handler cutoff) res2 hinv_new Ht) as (res3 & E3 & P3).
          { unfold pot at 1. cbn [new_handler cycles epsilon_path length] in *. cbn [length] in Hf. lia. }
          rewrite E3. cbn [rbind]. destruct (IHl eh res3 Hl' He) as (res4 & E4 & P4). exists res4. split; [exact E4|].
          eapply post_trans; [exact P3|exact P4|]. intros e. split.
          * intros (c & [<-|Hc'] & Gc); [|right; exists c; auto]. left. destruct Gc as (o & i' & [(-> & Fa & Hn & ->)|(y & -> & Ey & Ry)] & Gc).
            -- exfalso. destruct (proj2 (free_no_read a (x :: i) Fa) Hn x i eq_refl Rx).
            -- injection Ey as <- <-. exact Gc.
          * intros [K|(c & Hc' & Gc)]; [|exists c; simpl; auto]. exists a. split; [left; reflexivity|]. exists (Some x), i. split; [right; exists x; auto|exact K].
        + destruct PS as (Fa & NR).
          assert (Ep : path_pair a input = Ok (shown (a, None))).
          { unfold path_pair, shown. destruct (free_not_special a Fa) as [-> ->]. reflexivity. }
          rewrite Ep. cbn [rbind]. rewrite He.
          destruct (IH input (tgt a) (path ++ [shown (a, None)]) (weight + wt a)%Z (hstep h state) res2 Hh' Ht ltac:(lia)) as (res3 & E3 & P3).
          rewrite E3. cbn [rbind]. destruct (IHl (hstep h state) res3 Hl' Hpb) as (res4 & E4 & P4). exists res4. split; [exact E4|].
          eapply post_trans; [exact P3|exact P4|]. intros e. split.
          * intros (c & [<-|Hc'] & Gc); [|right; exists c; auto]. left. destruct Gc as (o & i' & [(-> & _ & Hn & ->)|(y & -> & -> & Ry)] & Gc); [exact Gc|].
            exfalso. exact (NR y i' eq_refl Ry).
          * intros [K|(c & Hc' & Gc)]; [|exists c; simpl; auto]. exists a. split; [left; reflexivity|]. exists None, input. split; [|exact K]. left. split; [reflexivity|]. split; [exact Fa|].
            split; [apply (free_no_read a input Fa); exact NR|reflexivity].
        + destruct PS as (NF & NR). destruct (IHl eh res2 Hl' He) as (res4 & E4 & P4). exists res4. split; [exact E4|]. eapply post_ext; [|exact P4]. intros e. split.
          * intros (c & Hc' & Gc). exists c. simpl. auto.
          * intros (c & [<-|Hc'] & Gc); [|exists c; auto]. exfalso. destruct Gc as (o & i' & [(-> & Fa & _)|(y & -> & -> & Ry)] & Gc); [contradiction|]. exact (NR y i' eq_refl Ry). }
    destruct (Loop _ h1 res1 (incl_refl _) Epb) as (res' & E & P). exists res'. split; [exact E|]. eapply post_trans; [exact P1|exact P|].
    intros e. apply gen_cases; assumption.
  Qed.

  (** ** The handler against the specification of cycles *)
  Lemma trail_nonempty v p k : trail v p k -> v <> [] /\ NoDup p /\ last v 0 = last p 0 /\ p <> [].
  Proof.
    induction 1 as [s|v p k t T (I1 & I2 & I3 & I4) N|v p1 t p2 k T (I1 & I2 & I3 & I4)].
    - split; [discriminate|]. split; [repeat constructor; intros []|]. split; [reflexivity|discriminate].
    - split; [destruct v; discriminate|]. split; [apply NoDup_snoc; assumption|]. rewrite !last_last. split; [reflexivity|destruct p; discriminate].
    - split; [destruct v; discriminate|]. rewrite !last_last. split; [|split; [reflexivity|destruct p1; discriminate]]. apply NoDup_remove in I2. destruct I2 as [I2 N].
      apply NoDup_snoc; [eapply NoDup_app_l; exact I2|]. intros K. apply N. apply in_app_iff. auto.
  Qed.
  (** Walking on from a trail. *)
  Inductive walk_on : list nat -> nat -> list nat -> list nat -> nat -> Prop :=
  | wo_nil p k : walk_on p k [] p k
  | wo_new p k t v p' k' : ~ In t p -> walk_on (p ++ [t]) k v p' k' -> walk_on p k (t :: v) p' k'
  | wo_back p1 t p2 k v p' k' : ~ In t p1 -> walk_on (p1 ++ [t]) (k + 1) v p' k' -> walk_on (p1 ++ t :: p2) k (t :: v) p' k'.
  Lemma walk_on_trail v0 p k v p' k' : trail v0 p k -> walk_on p k v p' k' -> trail (v0 ++ v) p' k'.
  Proof.
    intros T W. revert v0 T. induction W as [p k|p k t v p' k' N W IH|p1 t p2 k v p' k' N W IH]; intros v0 T; [rewrite app_nil_r; exact T| |];
      change (t :: v) with ([t] ++ v); rewrite app_assoc; apply IH; [apply tr_new; assumption|eapply tr_back; exact T].
  Qed.
  Lemma walk_on_snoc p k v p' k' : walk_on p k v p' k' -> forall t,
    (~ In t p' -> walk_on p k (v ++ [t]) (p' ++ [t]) k') /\ (forall q1 q2, p' = q1 ++ t :: q2 -> ~ In t q1 -> walk_on p k (v ++ [t]) (q1 ++ [t]) (k' + 1)).
  Proof.
    induction 1 as [p k|p k t v p' k' N W IH|p1 t p2 k v p' k' N W IH]; intros u.
    - split; [intros H; apply wo_new; [exact H|constructor]|]. intros q1 q2 -> Nq. apply wo_back; [exact Nq|constructor].
    - destruct (IH u) as [I1 I2]. split; [intros H; apply wo_new; auto|]. intros q1 q2 E Nq. apply wo_new; [exact N|]. eapply I2; eassumption.
    - destruct (IH u) as [I1 I2]. split; [intros H; apply wo_back; auto|]. intros q1 q2 E Nq. apply wo_back; [exact N|]. eapply I2; eassumption.
  Qed.
  Lemma trail_walk_on v p k : trail v p k -> exists s u, v = s :: u /\ walk_on [s] 0 u p k.
  Proof.
    induction 1 as [s|v p k t T IH N|v p1 t p2 k T IH].
    - exists s, []. split; [reflexivity|constructor].
    - destruct IH as (s & u & -> & W). exists s, (u ++ [t]). split; [reflexivity|]. apply (walk_on_snoc _ _ _ _ _ W t). exact N.
    - destruct IH as (s & u & -> & W). exists s, (u ++ [t]). split; [reflexivity|]. apply (walk_on_snoc _ _ _ _ _ W t) with (q2 := p2); [reflexivity|].
      destruct (trail_nonempty _ _ _ T) as (_ & ND & _). apply NoDup_remove_2 in ND. intros K. apply ND. apply in_app_iff. auto.
  Qed.
  Lemma walk_on_mono p k v p' k' : walk_on p k v p' k' -> k <= k'.
  Proof. induction 1; lia. Qed.
  Lemma walk_on_inv p k t v p' k' : walk_on p k (t :: v) p' k' ->
    (~ In t p /\ walk_on (p ++ [t]) k v p' k') \/ (exists p1 p2, p = p1 ++ t :: p2 /\ ~ In t p1 /\ walk_on (p1 ++ [t]) (k + 1) v p' k').
  Proof. intros W. inversion W; subst; [left; auto|right; eauto]. Qed.
  Lemma split_first (t : nat) p1 p2 q1 q2 : p1 ++ t :: p2 = q1 ++ t :: q2 -> ~ In t p1 -> ~ In t q1 -> p1 = q1.
  Proof.
    revert q1. induction p1 as [|x p1 IH]; intros [|y q1] E N1 N2; cbn [app] in E; [reflexivity| | |].
    - injection E as -> _. exfalso. apply N2. left. reflexivity.
    - injection E as -> _. exfalso. apply N1. left. reflexivity.
    - injection E as -> E. f_equal. apply (IH q1 E); intros K; [apply N1|apply N2]; right; exact K.
  Qed.

  Definition ok_weights (w : Z) (r : list step) : Prop := forall r1 r2, r = r1 ++ r2 -> too_heavy lim (w + run_weight r1) = false.
  Lemma ok_weights_cons w p r : ok_weights w (p :: r) <-> too_heavy lim w = false /\ ok_weights (w + wt (fst p)) r.
  Proof.
    split.
    - intros H. split; [specialize (H [] _ eq_refl); unfold run_weight in H; simpl in H; rewrite Z.add_0_r in H; exact H|].
      intros r1 r2 ->. specialize (H (p :: r1) r2 eq_refl). rewrite run_weight_cons, Z.add_assoc in H. exact H.
    - intros [H0 H] [|q r1] r2 E; [unfold run_weight; simpl; rewrite Z.add_0_r; exact H0|]. injection E as <- E. rewrite run_weight_cons, Z.add_assoc. exact (H r1 r2 E).
  Qed.
  Lemma ok_weights_nil w : ok_weights w [] <-> too_heavy lim w = false.
  Proof.
    split; [intros H; specialize (H [] [] eq_refl); unfold run_weight in H; simpl in H; rewrite Z.add_0_r in H; exact H|].
    intros H r1 r2 E. destruct r1; [|discriminate]. unfold run_weight. simpl. rewrite Z.add_0_r. exact H.
  Qed.
  (** The segment that starts in s continues the trail p. *)
  Definition segs_ok (p : list nat) (k : nat) (s : nat) (r : list step) : Prop :=
    match segments s r with
    | v :: vs => (exists p' k', walk_on p k v p' k' /\ k' <= cutoff) /\ Forall (cycles_at_most cutoff) vs
    | [] => False
    end.
  Lemma segments_head s r : exists v vs, segments s r = (s :: v) :: vs.
  Proof.
    revert s. induction r as [|[a [x|]] r IH]; intros s; simpl; [exists [], []; reflexivity|exists [], (segments (tgt a) r); reflexivity|].
    destruct (IH (tgt a)) as (v & vs & ->). exists (tgt a :: v), vs. reflexivity.
  Qed.
  Lemma segs_fresh s r : segs_ok [] 0 s r <-> Forall (cycles_at_most cutoff) (segments s r).
  Proof.
    unfold segs_ok. destruct (segments_head s r) as (v & vs & ->). split.
    - intros ((p' & k' & W & L) & F). constructor; [|exact F]. exists p', k'. split; [|exact L]. apply walk_on_inv in W. destruct W as [(_ & W)|(p1 & p2 & E & _)]; [|destruct p1; discriminate].
      exact (walk_on_trail [s] [s] 0 v p' k' (tr_start s) W).
    - intros F. inversion F as [|? ? (p' & k' & T & L) F']; subst. split; [|exact F']. exists p', k'. split; [|exact L]. apply wo_new; [intros []|].
      apply trail_walk_on in T. destruct T as (s' & u & E & W). injection E as <- <-. exact W.
  Qed.
  Lemma okrun_iff : forall r p k w s, k <= cutoff -> okrun (Handler p cutoff k) w s r <-> segs_ok p k s r /\ ok_weights w r.
  Proof.
    induction r as [|[a o] r IH]; intros p k w s Hk.
    - cbn [okrun]. rewrite ok_weights_nil. unfold segs_ok. cbn [segments].
      destruct (can_continue_cases p cutoff k s) as [(N & E & _)|(p1 & p2 & -> & N & E & _)]; rewrite E.
      + cbn [fst]. split; [intros (_ & H & _); split; [|exact H]; split; [|constructor]; exists (p ++ [s]), k; split; [apply wo_new; [exact N|constructor]|exact Hk]|intros [_ H]; auto].
      + rewrite Nat.leb_le. split.
        * intros (L & H & _). split; [|exact H]. split; [|constructor]. exists (p1 ++ [s]), (k + 1). split; [apply wo_back; [exact N|constructor]|exact L].
        * intros [((p' & k' & W & L) & _) H]. split; [|auto]. apply walk_on_inv in W. destruct W as [(K & _)|(q1 & q2 & Eq & Nq & W)]; [exfalso; apply K; apply in_app_iff; right; left; reflexivity|].
          apply walk_on_mono in W. lia.
    - cbn [okrun]. rewrite ok_weights_cons. cbn [fst].
      assert (Shape : match o with
        | None => segs_ok p k s ((a, o) :: r) <-> ((~ In s p /\ segs_ok (p ++ [s]) k (tgt a) r) \/ (exists p1 p2, p = p1 ++ s :: p2 /\ ~ In s p1 /\ segs_ok (p1 ++ [s]) (k + 1) (tgt a) r))
        | Some _ => segs_ok p k s ((a, o) :: r) <-> (((~ In s p) \/ (exists p1 p2, p = p1 ++ s :: p2 /\ ~ In s p1 /\ k + 1 <= cutoff)) /\ segs_ok [] 0 (tgt a) r)
        end).
      { destruct o as [x|].
        - rewrite segs_fresh. unfold segs_ok. cbn [segments]. split.
          + intros ((p' & k' & W & L) & F). split; [|exact F]. apply walk_on_inv in W. destruct W as [(K & _)|(q1 & q2 & Eq & Nq & W)]; [auto|]. right. exists q1, q2. apply walk_on_mono in W. split; [exact Eq|]. split; [exact Nq|lia].
          + intros ([N|(p1 & p2 & -> & N & L)] & F); (split; [|exact F]).
            * exists (p ++ [s]), k. split; [apply wo_new; [exact N|constructor]|exact Hk].
            * exists (p1 ++ [s]), (k + 1). split; [apply wo_back; [exact N|constructor]|exact L].
        - unfold segs_ok. cbn [segments]. destruct (segments_head (tgt a) r) as (v & vs & ->). split.
          + intros ((p' & k' & W & L) & F). apply walk_on_inv in W. destruct W as [(K & W)|(q1 & q2 & Eq & Nq & W)].
            * left. split; [exact K|]. split; [exists p', k'; auto|exact F].
            * right. exists q1, q2. split; [exact Eq|]. split; [exact Nq|]. split; [exists p', k'; auto|exact F].
          + intros [(N & (p' & k' & W & L) & F)|(p1 & p2 & -> & N & (p' & k' & W & L) & F)]; (split; [|exact F]); exists p', k'; (split; [|exact L]); [apply wo_new|apply wo_back]; assumption. }
      destruct (can_continue_cases p cutoff k s) as [(N & E & Eh)|(p1 & p2 & -> & N & E & Eh)]; rewrite E; cbn [fst]; (destruct o as [x|]; [|rewrite Eh]); rewrite Shape.
      + unfold new_handler. rewrite IH by lia. tauto.
      + rewrite IH by exact Hk. split.
        * intros (_ & H & S & W). split; [left; auto|auto].
        * intros [[(_ & S)|(q1 & q2 & -> & _)] [H W]]; [auto|]. exfalso. apply N. apply in_app_iff. right. left. reflexivity.
      + unfold new_handler. rewrite IH by lia. rewrite Nat.leb_le. split.
        * intros (L & H & S & W). split; [split; [right; exists p1, p2; auto|exact S]|auto].
        * intros [[[K|(q1 & q2 & Eq & Nq & L)] S] [H W]]; [exfalso; apply K; apply in_app_iff; right; left; reflexivity|auto].
      + rewrite Nat.leb_le. split.
        * intros (L & H & K). apply (IH (p1 ++ [s]) (k + 1)) in K; [|exact L]. destruct K as [S W]. split; [right; exists p1, p2; auto|auto].
        * intros [[(K & _)|(q1 & q2 & Eq & Nq & S)] [H W]]; [exfalso; apply K; apply in_app_iff; right; left; reflexivity|].
          pose proof (split_first _ _ _ _ _ Eq N Nq) as <-. assert (L : k + 1 <= cutoff).
          { unfold segs_ok in S. destruct (segments (tgt a) r) as [|v vs]; [destruct S|]. destruct S as [(p' & k' & Wk & L) _]. apply walk_on_mono in Wk. lia. }
          split; [exact L|]. split; [exact H|]. apply (IH (p1 ++ [s]) (k + 1)); [exact L|auto].
  Qed.
End G.
