(** Lemmas behind Isect_Props. *)
From Verif Require Import Base BT_Model BT_Spec BT_Proofs BT_Proofs3 BT_Proofs4 Isect_Model.
From Coq Require Import Permutation Sorted.

Lemma npcmp_eq p q : npcmp p q = Eq <-> p = q.
Proof.
  unfold npcmp. destruct p as [a b], q as [c d]. simpl. destruct (Nat.compare a c) eqn:E.
  - apply Nat.compare_eq_iff in E. rewrite Nat.compare_eq_iff. split; congruence.
  - split; [discriminate|]. intros K. injection K as -> ->. rewrite Nat.compare_refl in E. discriminate.
  - split; [discriminate|]. intros K. injection K as -> ->. rewrite Nat.compare_refl in E. discriminate.
Qed.
Lemma NoDup_sadd {T} (cmp : T -> T -> comparison) (H : forall x y, cmp x y = Eq <-> x = y) k s :
  ~ In k s -> NoDup s -> NoDup (sadd cmp k s) /\ length (sadd cmp k s) = S (length s).
Proof.
  induction s as [|x r IH]; intros N D; simpl.
  - split; [constructor; [intros []|constructor]|reflexivity].
  - destruct (cmp k x) eqn:E.
    + apply H in E. exfalso. apply N. left. auto.
    + split; [|reflexivity]. constructor; assumption.
    + inversion D as [|? ? D1 D2]; subst. destruct IH as [I1 I2]; [intros K; apply N; right; exact K|exact D2|]. split; [|simpl; lia].
      constructor; [|exact I1]. intros K. apply (In_sadd cmp H) in K. destruct K as [->|K]; [apply N; left; reflexivity|contradiction].
Qed.

Section P.
  Variable num : bstr -> nat.
  Hypothesis num_inj : forall x y, num x = num y -> x = y.

  Lemma label_lt_iff a b : label_lt num a b = true <-> num (isy a) < num (isy b) \/ num (isy a) = num (isy b) /\ num (osy a) < num (osy b).
  Proof.
    unfold label_lt. destruct (Nat.ltb_spec (num (isy a)) (num (isy b))); [split; auto|].
    destruct (Nat.ltb_spec (num (isy b)) (num (isy a))); [split; [discriminate|lia]|].
    destruct (Nat.ltb_spec (num (osy a)) (num (osy b))); [split; [right; lia|auto]|].
    destruct (Nat.ltb_spec (num (osy b)) (num (osy a))); split; try discriminate; lia.
  Qed.
  Lemma label_lt_eq a b : label_lt num a b = false -> label_lt num b a = false -> label a = label b.
  Proof.
    intros H1 H2. apply not_true_iff_false in H1, H2. rewrite label_lt_iff in H1, H2. unfold label. f_equal; apply num_inj; lia.
  Qed.
  Lemma label_lt_neq a b : label_lt num a b = true -> label a <> label b.
  Proof. rewrite label_lt_iff. intros H K. injection K as K1 K2. rewrite K1, K2 in H. lia. Qed.

  Lemma scan_sound a orig rest m r : scan num a orig rest = (m, r) ->
    incl rest orig -> incl r orig /\ forall b, m = Some b -> In b orig /\ label a = label b.
  Proof.
    revert m r. induction rest as [|b rest IH]; simpl; intros m r E I.
    - injection E as <- <-. split; [apply incl_refl|discriminate].
    - destruct (label_lt num b a) eqn:L1.
      + apply IH in E; [exact E|]. intros x Hx. apply I. right. exact Hx.
      + destruct (label_lt num a b) eqn:L2; injection E as <- <-.
        * split; [exact I|discriminate].
        * split; [intros x Hx; apply I; right; exact Hx|]. intros b' K. injection K as <-. split; [apply I; left; reflexivity|].
          apply label_lt_eq; assumption.
  Qed.
  Lemma join_sound tr1 tr2 a b : In (a, b) (join num tr1 tr2) -> In a tr1 /\ In b tr2 /\ label a = label b.
  Proof.
    revert tr2. induction tr1 as [|c tr1 IH]; intros tr2; simpl; [intros []|].
    destruct (scan num c tr2 tr2) as [m r] eqn:E. apply scan_sound in E; [|apply incl_refl]. destruct E as [I M]. destruct m as [d|].
    - intros [K|K].
      + injection K as <- <-. destruct (M d eq_refl). auto.
      + apply IH in K. destruct K as (K1 & K2 & K3). auto.
    - intros K. apply IH in K. destruct K as (K1 & K2 & K3). auto.
  Qed.

  Definition by_label (l : list arc) : Prop := StronglySorted (fun a b => label_lt num a b = true) l.
  Lemma label_lt_trans a b c : label_lt num a b = true -> label_lt num b c = true -> label_lt num a c = true.
  Proof. rewrite !label_lt_iff. lia. Qed.
  Lemma label_lt_asym a b : label_lt num a b = true -> label_lt num b a = false.
  Proof. intros H. apply not_true_iff_false. rewrite label_lt_iff in *. lia. Qed.

  (** On a sorted list, scanning finds the match, and skips only smaller ones. *)
  Lemma scan_complete a rest : by_label rest -> forall orig m r, scan num a orig rest = (m, r) ->
    (forall b, In b rest -> label b = label a -> m = Some b) /\
    (r = orig \/ exists pre, rest = pre ++ r /\ forall b, In b pre -> label_lt num a b = false).
  Proof.
    induction 1 as [|b rest S IH F]; intros orig m r E; simpl in E.
    - injection E as <- <-. split; [intros b []|left; reflexivity].
    - rewrite Forall_forall in F. destruct (label_lt num b a) eqn:L1.
      + destruct (IH _ _ _ E) as [A C]. split.
        * intros c [<-|Hc] Lc; [apply label_lt_neq in L1; congruence|]. exact (A c Hc Lc).
        * destruct C as [C|(pre & C & P)]; [auto|]. right. exists (b :: pre). split; [rewrite C; reflexivity|].
          intros c [<-|Hc]; [apply label_lt_asym; exact L1|exact (P c Hc)].
      + destruct (label_lt num a b) eqn:L2; injection E as <- <-.
        * split.
          -- intros c Hc Lc. exfalso. assert (K : label_lt num a c = true) by (destruct Hc as [<-|Hc]; [exact L2|eapply label_lt_trans; [exact L2|exact (F c Hc)]]).
             apply label_lt_neq in K. congruence.
          -- right. exists []. split; [reflexivity|intros c []].
        * assert (E : label a = label b) by (apply label_lt_eq; assumption). split.
          -- intros c [<-|Hc] Lc; [reflexivity|]. exfalso. pose proof (F c Hc) as K. apply label_lt_neq in K. congruence.
          -- right. exists [b]. split; [reflexivity|]. intros c [<-|[]]. exact L2.
  Qed.
  Lemma by_label_app_r l1 l2 : by_label (l1 ++ l2) -> by_label l2.
  Proof. induction l1 as [|x l1 IH]; simpl; [auto|]. intros H. inversion H; subst. auto. Qed.
  Lemma join_complete tr1 : by_label tr1 -> forall tr2, by_label tr2 ->
    forall a b, In a tr1 -> In b tr2 -> label a = label b -> In (a, b) (join num tr1 tr2).
  Proof.
    induction 1 as [|c tr1 S IH F]; intros tr2 S2 a b Ha Hb L; [destruct Ha|]. rewrite Forall_forall in F. simpl.
    destruct (scan num c tr2 tr2) as [m r] eqn:E. destruct (scan_complete _ _ S2 _ _ _ E) as [A C].
    destruct Ha as [<-|Ha].
    - rewrite (A b Hb (eq_sym L)). left. reflexivity.
    - assert (K : In (a, b) (join num tr1 r)).
      { apply IH; auto.
        - destruct C as [->|(pre & -> & _)]; [exact S2|]. apply by_label_app_r in S2. exact S2.
        - destruct C as [->|(pre & -> & P)]; [exact Hb|]. apply in_app_iff in Hb. destruct Hb as [Hb|Hb]; [|exact Hb].
          exfalso. apply P in Hb. apply not_true_iff_false in Hb. apply Hb. pose proof (F a Ha) as K. rewrite label_lt_iff in *.
          injection L as L1 L2. rewrite <- L1, <- L2. exact K. }
      destruct m; [right|]; exact K.
  Qed.

  (** * The product *)
  Variables g1 g2 : graph.
  Hypothesis G1 : structure_ok g1.
  Hypothesis G2 : structure_ok g2.
  Definition pfin (p : nat * nat) : option Z :=
    match finw g1 (fst p), finw g2 (snd p) with
    | Some f1, Some f2 => Some (if (fst p =? 0) && (snd p =? 0) then Z.min f1 f2 else (f1 + f2)%Z)
    | _, _ => None
    end.
  Definition parc (M : list ((nat * nat) * nat)) (p : nat * nat) (a : arc) : Prop :=
    exists a1 a2, In (a1, a2) (join num (arcs g1 (fst p)) (arcs g2 (snd p))) /\
      label a = label a1 /\ wt a = (wt a1 + wt a2)%Z /\ mget npcmp (tgt a1, tgt a2) M = Some (tgt a).
  Definition val (st : istate) (s : nat) : Prop := exists p, mget npcmp p (i_map st) = Some s.
  Record inv (st : istate) : Prop := {
    inv_zero : mget npcmp (0, 0) (i_map st) = Some 0;
    inv_range : forall p s, mget npcmp p (i_map st) = Some s -> s < length (sts (i_graph st)) /\ fst p < length (sts g1) /\ snd p < length (sts g2);
    inv_inj : forall p q s, mget npcmp p (i_map st) = Some s -> mget npcmp q (i_map st) = Some s -> p = q;
    inv_arcs : forall p s a, mget npcmp p (i_map st) = Some s -> In a (arcs (i_graph st) s) -> parc (i_map st) p a;
    inv_fin : forall p s, mget npcmp p (i_map st) = Some s -> finw (i_graph st) s = pfin p;
    inv_fresh : forall s, length (sts (i_graph st)) <= s -> finw (i_graph st) s = None;
    inv_agenda : forall s, In s (i_agenda st) -> val st s;
    inv_nodup : NoDup (i_agenda st) }.
  (** Everything only grows. *)
  Record grows (st st' : istate) : Prop := {
    gr_map : forall p s, mget npcmp p (i_map st) = Some s -> mget npcmp p (i_map st') = Some s;
    gr_arcs : forall s a, In a (arcs (i_graph st) s) -> In a (arcs (i_graph st') s);
    gr_agenda : incl (i_agenda st) (i_agenda st') }.
  Lemma grows_refl st : grows st st. Proof. split; auto. apply incl_refl. Qed.
  Lemma grows_trans a b c : grows a b -> grows b c -> grows a c.
  Proof. intros [] []. split; auto. eapply incl_tran; eassumption. Qed.
  Lemma parc_mono M M' p a : (forall p s, mget npcmp p M = Some s -> mget npcmp p M' = Some s) -> parc M p a -> parc M' p a.
  Proof. intros H (a1 & a2 & H1 & H2 & H3 & H4). exists a1, a2. auto. Qed.

  Lemma agenda_bound st : inv st -> length (i_agenda st) <= length (sts g1) * length (sts g2).
  Proof.
    intros I.
    assert (K : forall l, NoDup l -> (forall s, In s l -> val st s) -> exists ps : list (nat * nat), NoDup ps /\ length ps = length l /\
       (forall p, In p ps -> exists s, In s l /\ mget npcmp p (i_map st) = Some s)).
    { induction 1 as [|s l N D IH]; intros V; [exists []; split; [constructor|split; [reflexivity|intros p []]]|].
      destruct IH as (ps & P1 & P2 & P3); [intros s' Hs; apply V; right; exact Hs|]. destruct (V s (or_introl eq_refl)) as [p Hp].
      exists (p :: ps). split; [|split; [simpl; lia|]].
      - constructor; [|exact P1]. intros K. destruct (P3 p K) as (s' & Hs & E). rewrite Hp in E. injection E as <-. contradiction.
      - intros q [<-|Hq]; [exists s; split; [left; reflexivity|exact Hp]|]. destruct (P3 q Hq) as (s' & Hs & E). exists s'. split; [right; exact Hs|exact E]. }
    destruct (K _ (inv_nodup st I) (inv_agenda st I)) as (ps & P1 & P2 & P3).
    rewrite <- P2, <- (seq_length (length (sts g1)) 0), <- (seq_length (length (sts g2)) 0), <- prod_length.
    apply NoDup_incl_length; [exact P1|]. intros p Hp. destruct (P3 p Hp) as (s & _ & E). apply (inv_range st I) in E. destruct p as [p1 p2].
    apply in_prod; apply in_seq; simpl in E; lia.
  Qed.

  Lemma finw_add_transition g s a b t : finw (add_transition g s a b) t = finw g t.
  Proof. unfold finw. rewrite fin_add_transition. reflexivity. Qed.

  Lemma handle_match_spec p s a1 a2 st st1 t : inv st -> mget npcmp p (i_map st) = Some s ->
    In (a1, a2) (join num (arcs g1 (fst p)) (arcs g2 (snd p))) -> handle_match g1 a1 g2 a2 s st = (st1, t) ->
    inv st1 /\ grows st st1 /\ mget npcmp (tgt a1, tgt a2) (i_map st1) = Some t /\
    (exists a, In a (arcs (i_graph st1) s) /\ label a = label a1 /\ wt a = (wt a1 + wt a2)%Z /\ tgt a = t) /\
    i_agenda st1 = i_agenda st /\ (forall q u, mget npcmp q (i_map st1) = Some u -> u = t \/ mget npcmp q (i_map st) = Some u).
  Proof.
    intros I Hp Hj E. pose proof (join_sound _ _ _ _ Hj) as (J1 & J2 & _).
    assert (T1 : tgt a1 < length (sts g1)) by exact (proj1 (proj2 G1) _ _ J1).
    assert (T2 : tgt a2 < length (sts g2)) by exact (proj1 (proj2 G2) _ _ J2).
    destruct (inv_range st I _ _ Hp) as (Hs & _). unfold handle_match, find_target_state in E.
    destruct (mget npcmp (tgt a1, tgt a2) (i_map st)) as [t0|] eqn:Et.
    - injection E as <- <-. destruct (inv_range st I _ _ Et) as (Ht & _). set (na := Arc t0 (isy a1) (osy a1) (wt a1 + wt a2)).
      assert (A : forall u, arcs (add_transition (i_graph st) s na true) u = if u =? s then arcs (i_graph st) u ++ [na] else arcs (i_graph st) u)
        by (intros u; rewrite arcs_add_transition; destruct (Nat.eqb_spec u s) as [->|]; reflexivity).
      assert (L : length (sts (add_transition (i_graph st) s na true)) = length (sts (i_graph st))) by (rewrite length_add_transition; simpl; lia).
      split; [|split; [|split; [exact Et|split; [|split; [reflexivity|auto]]]]].
      + split; cbn [i_graph i_map i_agenda]; try apply I.
        * intros q u Hq. rewrite L. exact (inv_range st I _ _ Hq).
        * intros q u a Hq Ha. rewrite A in Ha. destruct (Nat.eqb_spec u s) as [->|]; [|exact (inv_arcs st I _ _ _ Hq Ha)].
          apply in_app_iff in Ha. destruct Ha as [Ha|[<-|[]]]; [exact (inv_arcs st I _ _ _ Hq Ha)|].
          rewrite (inv_inj st I _ _ _ Hq Hp). exists a1, a2. auto.
        * intros u Hu. rewrite finw_add_transition. rewrite L in Hu. exact (inv_fresh st I _ Hu).
      + split; cbn [i_graph i_map i_agenda]; auto; [|apply incl_refl]. intros u a Ha. rewrite A. destruct (u =? s); [apply in_app_iff|]; auto.
      + exists na. cbn [i_graph]. rewrite A, Nat.eqb_refl. split; [apply in_app_iff; right; left; reflexivity|auto].
    - cbn [add_state i_graph i_map i_agenda] in E. set (n := length (sts (i_graph st))) in *. fold (fst (add_state (i_graph st))) in E.
      set (ga := with_sts (i_graph st) (sts (i_graph st) ++ [[]])) in *. set (na := Arc n (isy a1) (osy a1) (wt a1 + wt a2)) in *.
      set (gb := add_transition ga s na true) in *.
      assert (Aa : forall u, arcs ga u = arcs (i_graph st) u) by (intros u; apply (arcs_add_state (i_graph st) u)).
      assert (La : length (sts ga) = S n) by (unfold ga; cbn [sts with_sts]; rewrite app_length; simpl; lia).
      assert (A : forall u, arcs gb u = if u =? s then arcs (i_graph st) u ++ [na] else arcs (i_graph st) u).
      { intros u. unfold gb. rewrite arcs_add_transition, !Aa. destruct (Nat.eqb_spec u s) as [->|]; reflexivity. }
      assert (L : length (sts gb) = S n) by (unfold gb; rewrite length_add_transition, La; simpl; lia).
      set (gc := match finw g1 (tgt a1) with Some f1 => match finw g2 (tgt a2) with Some f2 => set_final_weight gb n (f1 + f2) | None => gb end | None => gb end) in *.
      injection E as <- <-.
      assert (Ac : forall u, arcs gc u = arcs gb u).
      { intros u. unfold gc. destruct (finw g1 _); [|reflexivity]. destruct (finw g2 _); [|reflexivity]. apply (arcs_add_state_n gb n u). }
      assert (Lc : length (sts gc) = S n).
      { unfold gc. destruct (finw g1 _); [|exact L]. destruct (finw g2 _); [|exact L]. unfold set_final_weight. cbn [sts with_fin]. rewrite length_add_state_n. lia. }
      assert (N0 : (tgt a1, tgt a2) <> (0, 0)) by (intros K; rewrite K, (inv_zero st I) in Et; discriminate).
      assert (Fb : forall u, finw gb u = finw (i_graph st) u) by (intros u; unfold gb; rewrite finw_add_transition; reflexivity).
      assert (Fc : forall u, finw gc u = if u =? n then pfin (tgt a1, tgt a2) else finw (i_graph st) u).
      { intros u. unfold gc, pfin. cbn [fst snd]. replace ((tgt a1 =? 0) && (tgt a2 =? 0)) with false.
        2:{ symmetry. apply not_true_iff_false. intros K. apply andb_true_iff in K. destruct K as [K1 K2]. apply Nat.eqb_eq in K1, K2. congruence. }
        assert (Fn : finw gb n = None) by (rewrite Fb; apply (inv_fresh st I); unfold n; lia).
        destruct (finw g1 (tgt a1)); [destruct (finw g2 (tgt a2))|].
        - unfold finw, set_final_weight. cbn [fin with_fin add_state_n with_sts]. destruct (Nat.eqb_spec u n) as [->|N].
          + apply (mget_mset_same Nat.compare Nat.compare_eq_iff).
          + rewrite (mget_mset_other Nat.compare Nat.compare_eq_iff) by exact N. apply (Fb u).
        - destruct (Nat.eqb_spec u n) as [->|N]; [exact Fn|apply Fb].
        - destruct (Nat.eqb_spec u n) as [->|N]; [exact Fn|apply Fb]. }
      assert (M : forall q u, mget npcmp q (mset npcmp (tgt a1, tgt a2) n (i_map st)) = Some u <->
                   q = (tgt a1, tgt a2) /\ u = n \/ mget npcmp q (i_map st) = Some u).
      { intros q u. destruct (npcmp q (tgt a1, tgt a2)) eqn:C.
        - apply npcmp_eq in C. subst q. rewrite (mget_mset_same npcmp npcmp_eq), Et. split; [intros K; injection K as <-; auto|intros [[_ ->]|K]; [reflexivity|discriminate]].
        - rewrite (mget_mset_other npcmp npcmp_eq); [|intros K; apply npcmp_eq in K; congruence]. split; [auto|intros [[-> _]|K]; [rewrite (proj2 (npcmp_eq _ _) eq_refl) in C; discriminate|exact K]].
        - rewrite (mget_mset_other npcmp npcmp_eq); [|intros K; apply npcmp_eq in K; congruence]. split; [auto|intros [[-> _]|K]; [rewrite (proj2 (npcmp_eq _ _) eq_refl) in C; discriminate|exact K]]. }
      assert (Mono : forall q u, mget npcmp q (i_map st) = Some u -> mget npcmp q (mset npcmp (tgt a1, tgt a2) n (i_map st)) = Some u) by (intros q u K; apply M; auto).
      assert (Mn : mget npcmp (tgt a1, tgt a2) (mset npcmp (tgt a1, tgt a2) n (i_map st)) = Some n) by (apply M; auto).
      split; [|split; [|split; [exact Mn|split; [|split; [reflexivity|]]]]].
      + split; cbn [i_graph i_map i_agenda].
        * apply Mono. apply I.
        * intros q u Hq. rewrite Lc. apply M in Hq. destruct Hq as [[-> ->]|Hq]; [simpl; lia|]. apply (inv_range st I) in Hq. unfold n. lia.
        * intros q q' u Hq Hq'. apply M in Hq, Hq'. destruct Hq as [[-> ->]|Hq], Hq' as [[-> E']|Hq']; auto.
          -- apply (inv_range st I) in Hq'. unfold n in Hq'. lia.
          -- subst u. apply (inv_range st I) in Hq. unfold n in Hq. lia.
          -- exact (inv_inj st I _ _ _ Hq Hq').
        * intros q u a Hq Ha. rewrite Ac, A in Ha. apply M in Hq. destruct Hq as [[-> ->]|Hq].
          -- exfalso. destruct (Nat.eqb_spec n s); [unfold n in *; lia|]. unfold arcs in Ha. rewrite nth_overflow in Ha by (unfold n; lia). destruct Ha.
          -- destruct (Nat.eqb_spec u s) as [->|]; [|exact (parc_mono _ _ _ _ Mono (inv_arcs st I _ _ _ Hq Ha))].
             apply in_app_iff in Ha. destruct Ha as [Ha|[<-|[]]]; [exact (parc_mono _ _ _ _ Mono (inv_arcs st I _ _ _ Hq Ha))|].
             rewrite (inv_inj st I _ _ _ Hq Hp). exists a1, a2. auto.
        * intros q u Hq. rewrite Fc. apply M in Hq. destruct Hq as [[-> ->]|Hq]; [rewrite Nat.eqb_refl; reflexivity|].
          pose proof (inv_range st I _ _ Hq). destruct (Nat.eqb_spec u n); [unfold n in *; lia|]. exact (inv_fin st I _ _ Hq).
        * intros u Hu. rewrite Lc in Hu. rewrite Fc. destruct (Nat.eqb_spec u n); [lia|]. apply (inv_fresh st I). unfold n in *. lia.
        * intros u Hu. apply (inv_agenda st I) in Hu. destruct Hu as [q Hq]. exists q. apply Mono. exact Hq.
        * apply I.
      + split; cbn [i_graph i_map i_agenda]; [exact Mono| |apply incl_refl]. intros u a Ha. rewrite Ac, A. destruct (u =? s); [apply in_app_iff|]; auto.
      + exists na. cbn [i_graph]. rewrite Ac, A, Nat.eqb_refl. split; [apply in_app_iff; right; left; reflexivity|auto].
      + intros q u Hq. cbn [i_map] in Hq. apply M in Hq. destruct Hq as [[_ ->]|Hq]; auto.
  Qed.

  (** All matches of the pair of state [s] are transitions of the result. *)
  Definition done (st : istate) (s : nat) : Prop :=
    forall p a1 a2, mget npcmp p (i_map st) = Some s -> In (a1, a2) (join num (arcs g1 (fst p)) (arcs g2 (snd p))) ->
      exists a, In a (arcs (i_graph st) s) /\ label a = label a1 /\ wt a = (wt a1 + wt a2)%Z /\
                mget npcmp (tgt a1, tgt a2) (i_map st) = Some (tgt a).
  Definition post (st : istate) (s : nat) (st' : istate) : Prop :=
    inv st' /\ grows st st' /\ In s (i_agenda st') /\
    (forall u, In u (i_agenda st') -> In u (i_agenda st) \/ done st' u) /\
    ((forall u, val st u -> u = s \/ In u (i_agenda st)) -> forall u, val st' u -> In u (i_agenda st')).
  Lemma done_mono st st' u : inv st' -> grows st st' -> val st u -> done st u -> done st' u.
  Proof.
    intros I G [q Hq] D p a1 a2 Hp Hj. assert (p = q) by (eapply inv_inj; [exact I|exact Hp|apply (gr_map _ _ G); exact Hq]). subst p.
    destruct (D q a1 a2 Hq Hj) as (a & A1 & A2 & A3 & A4). exists a. split; [apply (gr_arcs _ _ G); exact A1|]. split; [exact A2|]. split; [exact A3|].
    apply (gr_map _ _ G). exact A4.
  Qed.

  Lemma find_matches_spec fuel : forall p s st, inv st -> mget npcmp p (i_map st) = Some s -> ~ In s (i_agenda st) ->
    length (sts g1) * length (sts g2) - length (i_agenda st) < fuel ->
    exists st', find_matches num fuel g1 g2 (fst p) (snd p) s st = Ok st' /\ post st s st'.
  Proof.
    induction fuel as [|fuel IH]; intros p s st I Hp Hs Hf; [lia|]. cbn [find_matches].
    set (st0 := IState (i_graph st) (i_map st) (sadd Nat.compare s (i_agenda st))).
    destruct (NoDup_sadd Nat.compare Nat.compare_eq_iff s (i_agenda st) Hs (inv_nodup st I)) as [ND NL].
    assert (I0 : inv st0).
    { destruct I. split; cbn [st0 i_graph i_map i_agenda]; auto. intros u Hu. apply (In_sadd Nat.compare Nat.compare_eq_iff) in Hu.
      destruct Hu as [->|Hu]; [exists p; exact Hp|apply inv_agenda0; exact Hu]. }
    assert (Gr0 : grows st st0) by (split; cbn; auto; intros u Hu; apply (In_sadd Nat.compare Nat.compare_eq_iff); auto).
    (* loop invariant over the remaining matches *)
    assert (Loop : forall js dn cur, join num (arcs g1 (fst p)) (arcs g2 (snd p)) = dn ++ js -> inv cur -> grows st0 cur ->
      (forall u, In u (i_agenda cur) -> u = s \/ In u (i_agenda st) \/ done cur u) ->
      ((forall u, val st u -> u = s \/ In u (i_agenda st)) -> forall u, val cur u -> In u (i_agenda cur)) ->
      (forall a1 a2, In (a1, a2) dn -> exists a, In a (arcs (i_graph cur) s) /\ label a = label a1 /\ wt a = (wt a1 + wt a2)%Z /\
          mget npcmp (tgt a1, tgt a2) (i_map cur) = Some (tgt a)) ->
      exists st', fold_left (fun r '(a1, a2) => rbind r (fun st =>
            let '(st1, t) := handle_match g1 a1 g2 a2 s st in
            if smem Nat.compare t (i_agenda st1) then Ok st1
            else find_matches num fuel g1 g2 (tgt a1) (tgt a2) t st1)) js (Ok cur) = Ok st' /\ post st s st').
    { induction js as [|[a1 a2] js IHj]; intros dn cur Ej Ic Gc Dc Vc Mc.
      - exists cur. split; [reflexivity|]. split; [exact Ic|]. split; [eapply grows_trans; eassumption|].
        assert (Hin : In s (i_agenda cur)) by (apply (gr_agenda _ _ Gc); apply (In_sadd Nat.compare Nat.compare_eq_iff); auto).
        split; [exact Hin|]. split; [|exact Vc]. intros u Hu. destruct (Dc u Hu) as [->|[K|K]]; auto. right.
        intros q b1 b2 Hq Hb. assert (q = p) by (eapply inv_inj; [exact Ic|exact Hq|apply (gr_map _ _ Gc); exact Hp]). subst q.
        rewrite app_nil_r in Ej. rewrite Ej in Hb. exact (Mc b1 b2 Hb).
      - cbn [fold_left rbind]. destruct (handle_match g1 a1 g2 a2 s cur) as [st1 t] eqn:Eh.
        assert (Hpc : mget npcmp p (i_map cur) = Some s) by (apply (gr_map _ _ Gc); exact Hp).
        assert (Hj : In (a1, a2) (join num (arcs g1 (fst p)) (arcs g2 (snd p)))) by (rewrite Ej; apply in_app_iff; right; left; reflexivity).
        destruct (handle_match_spec p s a1 a2 cur st1 t Ic Hpc Hj Eh) as (I1 & Gr1 & Mt & (na & N1 & N2 & N3 & N4) & Ag & Vn).
        assert (Sin : In s (i_agenda cur)) by (apply (gr_agenda _ _ Gc); apply (In_sadd Nat.compare Nat.compare_eq_iff); auto).
        assert (D1 : forall u, In u (i_agenda st1) -> u = s \/ In u (i_agenda st) \/ done st1 u).
        { intros u Hu. rewrite Ag in Hu. destruct (Dc u Hu) as [K|[K|K]]; auto. right. right. exact (done_mono _ _ _ I1 Gr1 (inv_agenda _ Ic _ Hu) K). }
        assert (M1 : forall b1 b2, In (b1, b2) (dn ++ [(a1, a2)]) -> exists a, In a (arcs (i_graph st1) s) /\ label a = label b1 /\ wt a = (wt b1 + wt b2)%Z /\
          mget npcmp (tgt b1, tgt b2) (i_map st1) = Some (tgt a)).
        { intros b1 b2 Hb. apply in_app_iff in Hb. destruct Hb as [Hb|[Hb|[]]].
          - destruct (Mc b1 b2 Hb) as (a & A1 & A2 & A3 & A4). exists a. split; [apply (gr_arcs _ _ Gr1); exact A1|]. split; [exact A2|]. split; [exact A3|]. apply (gr_map _ _ Gr1). exact A4.
          - injection Hb as <- <-. exists na. rewrite N4. auto. }
        assert (Ej' : join num (arcs g1 (fst p)) (arcs g2 (snd p)) = (dn ++ [(a1, a2)]) ++ js) by (rewrite <- app_assoc; exact Ej).
        destruct (smem Nat.compare t (i_agenda st1)) eqn:Ea.
        + apply (smem_In Nat.compare Nat.compare_eq_iff) in Ea. apply (IHj _ _ Ej' I1); [eapply grows_trans; eassumption|exact D1| |exact M1].
          intros V u [q Hq]. destruct (Vn q u Hq) as [->|Hq']; [exact Ea|]. apply (gr_agenda _ _ Gr1). apply (Vc V). exists q. exact Hq'.
        + assert (Nt : ~ In t (i_agenda st1)) by (rewrite <- (smem_In Nat.compare Nat.compare_eq_iff), Ea; discriminate).
          destruct (IH (tgt a1, tgt a2) t st1 I1 Mt Nt) as (st2 & E2 & I2 & Gr2 & T2 & D2 & V2).
          { rewrite Ag. pose proof (agenda_bound _ I1) as AB. rewrite Ag in AB. pose proof (gr_agenda _ _ Gc) as Inc.
            assert (K : length (i_agenda st0) <= length (i_agenda cur)) by (apply NoDup_incl_length; [exact ND|exact Inc]).
            cbn [st0 i_agenda] in K. rewrite NL in K.
            pose proof (agenda_bound _ I0) as AB0. cbn [st0 i_agenda] in AB0. rewrite NL in AB0. lia. }
          cbn [fst snd] in E2. rewrite E2.
          apply (IHj _ st2 Ej' I2).
          * eapply grows_trans; [exact Gc|]. eapply grows_trans; eassumption.
          * intros u Hu. destruct (D2 u Hu) as [K|K]; [|auto]. destruct (D1 u K) as [Q|[Q|Q]]; auto. right. right. exact (done_mono _ _ _ I2 Gr2 (inv_agenda _ I1 _ K) Q).
          * intros V. apply V2. intros u [q Hq]. destruct (Vn q u Hq) as [->|Hq']; [auto|]. right. rewrite Ag. apply (Vc V). exists q. exact Hq'.
          * intros b1 b2 Hb. destruct (M1 b1 b2 Hb) as (a & A1 & A2 & A3 & A4). exists a. split; [apply (gr_arcs _ _ Gr2); exact A1|]. split; [exact A2|]. split; [exact A3|]. apply (gr_map _ _ Gr2). exact A4. }
    apply (Loop _ [] st0 eq_refl I0 (grows_refl _)).
    - intros u Hu. cbn [st0 i_agenda] in Hu. apply (In_sadd Nat.compare Nat.compare_eq_iff) in Hu. tauto.
    - intros V u [q Hq]. cbn [st0 i_agenda i_map] in *. apply (In_sadd Nat.compare Nat.compare_eq_iff). apply V. exists q. exact Hq.
    - intros a1 a2 [].
  Qed.
End P.
