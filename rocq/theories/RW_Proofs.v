(** Copying a transducer state by state. *)
From Verif Require Import Base BT_Model BT_Spec BT_Proofs RW_Spec RW_Model.

Lemma ncmp_eq x y : Nat.compare x y = Eq <-> x = y. Proof. apply Nat.compare_eq_iff. Qed.
Section Rebuild.
  Variable g : graph.
  Variable f : arc -> option Z.
  Variable ff : Z -> Z.
  Variable initial : bool.
  Hypothesis S : structure_ok g.
  Let n := length (sts g).
  Definition kept (l : list arc) : list arc := filter (fun a => match f a with Some _ => true | None => false end) l.
  Definition newfin (s : nat) : option Z := if (s =? 0) && negb initial then None else option_map ff (mget Nat.compare s (fin g)).
  Definition copied (c : copying) (a b : arc) : Prop := mget Nat.compare (tgt a) (c_known c) = Some (tgt b) /\ isy b = isy a /\ osy b = osy a /\ f a = Some (wt b).
  Record inv (c : copying) (done : nat -> list arc) : Prop := Inv {
    i_len : length (sts (c_rep c)) = c_count c;
    i_known : forall s k, mget Nat.compare s (c_known c) = Some k -> k < c_count c /\ s < n;
    i_inj : forall s s' k, mget Nat.compare s (c_known c) = Some k -> mget Nat.compare s' (c_known c) = Some k -> s = s';
    i_zero : mget Nat.compare 0 (c_known c) = Some 0;
    i_arcs : forall s k, mget Nat.compare s (c_known c) = Some k -> Forall2 (copied c) (done s) (arcs (c_rep c) k);
    i_fin : forall s k, mget Nat.compare s (c_known c) = Some k -> mget Nat.compare k (fin (c_rep c)) = newfin s;
    i_more : forall k, c_count c <= k -> mget Nat.compare k (fin (c_rep c)) = None;
    i_rest : forall s, mget Nat.compare s (c_known c) = None -> done s = [] }.
  Lemma inv_ext c d d' : inv c d -> (forall s, d s = d' s) -> inv c d'.
  Proof using. intros [A1 A2 A3 A4 A5 A6 A7 A8] E. constructor; auto; intros s; rewrite <- E; auto. Qed.
  Lemma start_inv : inv (Copying (if initial then match finw g 0 with Some w => set_final_weight empty_graph 0 (ff w) | None => empty_graph end else empty_graph) [(0, 0)] 1) (fun _ => []).
  Proof using S.
    assert (K : forall s k, mget Nat.compare s [(0, 0)] = Some k -> s = 0 /\ k = 0).
    { intros s k. cbn [mget]. destruct (Nat.compare s 0) eqn:E; [|discriminate|discriminate]. apply ncmp_eq in E. intros H. injection H as <-. auto. }
    set (r := if initial then _ else _). assert (R : sts r = [[]] /\ fin r = match newfin 0 with Some w => [(0, w)] | None => [] end).
    { unfold r, newfin, finw. cbn [Nat.eqb andb]. destruct initial; cbn [negb]; [|split; reflexivity]. destruct (mget Nat.compare 0 (fin g)); split; reflexivity. }
    destruct R as [R1 R2]. constructor; cbn [c_rep c_known c_count].
    - rewrite R1. reflexivity.
    - intros s k H. apply K in H. destruct H as [-> ->]. destruct S as (N & _). split; [lia|]. unfold n. destruct (sts g); [congruence|cbn; lia].
    - intros s s' k H H'. apply K in H, H'. lia.
    - reflexivity.
    - intros s k H. apply K in H. destruct H as [-> ->]. unfold arcs. rewrite R1. constructor.
    - intros s k H. apply K in H. destruct H as [-> ->]. rewrite R2. destruct (newfin 0); reflexivity.
    - intros k Hk. rewrite R2. destruct (newfin 0); [|reflexivity]. cbn [mget]. destruct (Nat.compare k 0) eqn:E; try reflexivity. apply ncmp_eq in E. lia.
    - reflexivity.
  Qed.
  Lemma ensure_inv s c d : s < n -> inv c d -> inv (ensure g ff s c) d /\ (exists k, mget Nat.compare s (c_known (ensure g ff s c)) = Some k) /\
    (forall t k, mget Nat.compare t (c_known c) = Some k -> mget Nat.compare t (c_known (ensure g ff s c)) = Some k).
  Proof using.
    intros Hs I. unfold ensure. destruct (mget Nat.compare s (c_known c)) as [k|] eqn:E; [split; [exact I|]; split; [exists k; exact E|auto]|].
    destruct I as [A1 A2 A3 A4 A5 A6 A7 A8]. set (r := add_state_n (c_rep c) (c_count c)).
    set (r' := match finw g s with Some w => set_final_weight r (c_count c) (ff w) | None => r end).
    assert (L : length (sts r) = Datatypes.S (c_count c)) by (unfold r; rewrite length_add_state_n; lia).
    assert (R : length (sts r') = Datatypes.S (c_count c) /\ (forall t, arcs r' t = arcs (c_rep c) t) /\
              fin r' = match finw g s with Some w => mset Nat.compare (c_count c) (ff w) (fin (c_rep c)) | None => fin (c_rep c) end).
    { unfold r'. destruct (finw g s) as [w|].
      - unfold set_final_weight. cbn [with_fin sts fin]. rewrite length_add_state_n. split; [lia|]. split; [|reflexivity]. intros t. unfold arcs. cbn [with_fin sts]. change (arcs (add_state_n r (c_count c)) t = arcs (c_rep c) t).
        rewrite arcs_add_state_n. apply arcs_add_state_n.
      - split; [exact L|]. split; [|reflexivity]. intros t. apply arcs_add_state_n. }
    destruct R as (R1 & R2 & R3). assert (Nz : s <> 0) by (intros ->; congruence).
    assert (G : forall t, mget Nat.compare t (mset Nat.compare s (c_count c) (c_known c)) = if t =? s then Some (c_count c) else mget Nat.compare t (c_known c)).
    { intros t. destruct (Nat.eqb_spec t s) as [->|Ne]; [apply (mget_mset_same Nat.compare ncmp_eq)|apply (mget_mset_other Nat.compare ncmp_eq); exact Ne]. }
    assert (Mo : forall t k, mget Nat.compare t (c_known c) = Some k -> mget Nat.compare t (mset Nat.compare s (c_count c) (c_known c)) = Some k).
    { intros t k H. rewrite G. destruct (Nat.eqb_spec t s) as [->|_]; [congruence|exact H]. }
    assert (Ge : arcs (c_rep c) (c_count c) = []) by (unfold arcs; apply nth_overflow; lia).
    split; [|split; [exists (c_count c); cbn [c_known]; rewrite G, Nat.eqb_refl; reflexivity|exact Mo]].
    constructor; cbn [c_rep c_known c_count].
    - exact R1.
    - intros t k. rewrite G. destruct (Nat.eqb_spec t s) as [->|_]; [intros H; injection H as <-; split; [lia|exact Hs]|]. intros H. destruct (A2 t k H). lia.
    - intros t t' k. rewrite !G. destruct (Nat.eqb_spec t s) as [->|_], (Nat.eqb_spec t' s) as [->|_]; intros H H'; try reflexivity.
      + injection H as <-. destruct (A2 _ _ H'). lia.
      + injection H' as <-. destruct (A2 _ _ H). lia.
      + exact (A3 _ _ _ H H').
    - apply Mo, A4.
    - intros t k H. rewrite R2. rewrite G in H. destruct (Nat.eqb_spec t s) as [->|_].
      + injection H as <-. rewrite Ge, (A8 s E). constructor.
      + specialize (A5 t k H). revert A5. clear - Mo. induction 1 as [|a b l l' (H1 & H2) F IH]; constructor; [split; [cbn [c_known]; apply Mo, H1|exact H2]|exact IH].
    - intros t k H. rewrite G in H. rewrite R3. destruct (Nat.eqb_spec t s) as [->|_].
      + injection H as <-. unfold newfin. destruct (Nat.eqb_spec s 0) as [Z|_]; [congruence|]. cbn [andb]. unfold finw. destruct (mget Nat.compare s (fin g)); cbn [option_map].
        * apply (mget_mset_same Nat.compare ncmp_eq).
        * apply A7. lia.
      + destruct (A2 t k H) as [Lt _]. rewrite <- (A6 t k H). destruct (finw g s); [|reflexivity]. apply (mget_mset_other Nat.compare ncmp_eq). lia.
    - intros k Hk. rewrite R3. destruct (finw g s); [rewrite (mget_mset_other Nat.compare ncmp_eq) by lia|]; apply A7; lia.
    - intros t. rewrite G. destruct (t =? s); [discriminate|apply A8].
  Qed.
  Lemma copied_mono c c' a b : (forall t k, mget Nat.compare t (c_known c) = Some k -> mget Nat.compare t (c_known c') = Some k) -> copied c a b -> copied c' a b.
  Proof using. intros M (H1 & H2). split; [apply M, H1|exact H2]. Qed.
  Definition with_done (d : nat -> list arc) (s : nat) (l : list arc) : nat -> list arc := fun t => if t =? s then d s ++ l else d t.
  Lemma copy_arc_inv s c d a : tgt a < n -> inv c d -> (exists k, mget Nat.compare s (c_known c) = Some k) ->
    inv (copy_arc g f ff s c a) (with_done d s (kept [a])) /\ (forall t k, mget Nat.compare t (c_known c) = Some k -> mget Nat.compare t (c_known (copy_arc g f ff s c a)) = Some k).
  Proof using.
    intros T I (k & K). unfold copy_arc, kept. cbn [filter]. destruct (f a) as [w|] eqn:Fa.
    2:{ split; [|auto]. apply (inv_ext c d); [exact I|]. intros t. unfold with_done. destruct (Nat.eqb_spec t s) as [->|_]; [rewrite app_nil_r|]; reflexivity. }
    destruct (ensure_inv (tgt a) c d T I) as (I' & (k' & K') & M). set (c' := ensure g ff (tgt a) c) in *. assert (Es : mget Nat.compare s (c_known c') = Some k) by (apply M, K).
    assert (R1 : rebuilt c' s = k) by (unfold rebuilt; rewrite Es; reflexivity). assert (R2 : rebuilt c' (tgt a) = k') by (unfold rebuilt; rewrite K'; reflexivity). rewrite R1, R2.
    destruct I' as [A1 A2 A3 A4 A5 A6 A7 A8]. split; [|exact M]. destruct (A2 _ _ Es) as [Lk _]. destruct (A2 _ _ K') as [Lk' _]. constructor; cbn [c_rep c_known c_count]; try assumption.
    - rewrite length_add_transition. cbn [tgt]. lia.
    - intros t j H. rewrite arcs_add_transition. unfold with_done. destruct (Nat.eqb_spec j k) as [->|Nj].
      + rewrite (A3 _ _ _ H Es), Nat.eqb_refl. apply Forall2_app; [|constructor; [|constructor]].
        * specialize (A5 s k Es). exact A5.
        * split; [exact K'|]. auto.
      + destruct (Nat.eqb_spec t s) as [->|_]; [congruence|]. exact (A5 t j H).
    - intros t H. unfold with_done. destruct (Nat.eqb_spec t s) as [->|_]; [congruence|apply A8, H].
  Qed.
  Lemma copy_arcs_inv s l : forall c d, Forall (fun a => tgt a < n) l -> inv c d -> (exists k, mget Nat.compare s (c_known c) = Some k) ->
    inv (fold_left (copy_arc g f ff s) l c) (with_done d s (kept l)) /\ (forall t k, mget Nat.compare t (c_known c) = Some k -> mget Nat.compare t (c_known (fold_left (copy_arc g f ff s) l c)) = Some k).
  Proof using.
    induction l as [|a l IH]; intros c d T I (k & K); cbn [fold_left].
    - split; [|auto]. apply (inv_ext c d); [exact I|]. intros t. unfold with_done, kept. cbn [filter]. destruct (Nat.eqb_spec t s) as [->|_]; [rewrite app_nil_r|]; reflexivity.
    - inversion T as [|? ? Ta Tl]; subst. destruct (copy_arc_inv s c d a Ta I (ex_intro _ k K)) as [I1 M1]. destruct (IH _ _ Tl I1 (ex_intro _ k (M1 s k K))) as [I2 M2].
      split; [|intros t j H; apply M2, M1, H]. apply (inv_ext _ _ _ I2). intros t. unfold with_done. destruct (Nat.eqb_spec t s) as [->|_]; [|reflexivity].
      rewrite Nat.eqb_refl, <- app_assoc. f_equal. unfold kept. rewrite <- filter_app. reflexivity.
  Qed.
  Lemma copy_states_inv ls : forall s c d, (forall i, nth i ls [] = arcs g (s + i)) -> s + length ls = n -> inv c d -> (forall t, s <= t -> d t = []) ->
    inv (copy_states g f ff s ls c) (fun t => if t <? s then d t else kept (arcs g t)) /\
    (forall t, s <= t < n -> exists k, mget Nat.compare t (c_known (copy_states g f ff s ls c)) = Some k) /\
    (forall t k, mget Nat.compare t (c_known c) = Some k -> mget Nat.compare t (c_known (copy_states g f ff s ls c)) = Some k).
  Proof using S.
    induction ls as [|l ls IH]; intros s c d N L I D; cbn [copy_states].
    - cbn [length] in L. split; [|split; [intros t Ht; lia|auto]]. apply (inv_ext c d); [exact I|]. intros t. destruct (Nat.ltb_spec t s) as [_|Ge]; [reflexivity|].
      rewrite (D t Ge). unfold kept, arcs. rewrite nth_overflow by (unfold n in L; lia). reflexivity.
    - cbn [length] in L. assert (Hs : s < n) by lia. assert (El : l = arcs g s) by (specialize (N 0); rewrite Nat.add_0_r in N; exact N).
      destruct (ensure_inv s c d Hs I) as (I1 & (k & K) & M1). assert (T : Forall (fun a => tgt a < n) l).
      { apply Forall_forall. intros a Ha. rewrite El in Ha. destruct S as (_ & H & _). exact (H s a Ha). }
      destruct (copy_arcs_inv s l _ d T I1 (ex_intro _ k K)) as [I2 M2].
      destruct (IH (Datatypes.S s) _ _ ltac:(intros i; specialize (N (Datatypes.S i)); cbn [nth] in N; rewrite N; f_equal; lia) ltac:(lia) I2) as (I3 & K3 & M3).
      { intros t Ht. unfold with_done. destruct (Nat.eqb_spec t s) as [->|_]; [lia|]. apply D. lia. }
      split; [|split].
      + apply (inv_ext _ _ _ I3). intros t. unfold with_done. destruct (Nat.ltb_spec t (Datatypes.S s)) as [Lt|Ge], (Nat.ltb_spec t s) as [Lt'|Ge']; try lia; try reflexivity.
        * destruct (Nat.eqb_spec t s) as [->|_]; [lia|reflexivity].
        * assert (t = s) by lia. subst t. rewrite Nat.eqb_refl, (D s (le_n s)), El. reflexivity.
      + intros t Ht. destruct (Nat.eq_dec t s) as [->|Ne]; [exists k; apply M3, M2, K|]. apply K3. lia.
      + intros t j H. apply M3, M2, M1, H.
  Qed.
  Lemma copied_in a l l' c : Forall2 (copied c) l l' -> In a l -> exists b, In b l' /\ copied c a b.
  Proof using. induction 1 as [|x y l l' H F IH]; intros []; [subst; exists y; split; [left; reflexivity|exact H]|]. destruct IH as (b & Hb & Cb); [assumption|]. exists b. split; [right; exact Hb|exact Cb]. Qed.
  Lemma copied_from b l l' c : Forall2 (copied c) l l' -> In b l' -> exists a, In a l /\ copied c a b.
  Proof using. induction 1 as [|x y l l' H F IH]; intros []; [subst; exists x; split; [left; reflexivity|exact H]|]. destruct IH as (a & Ha & Ca); [assumption|]. exists a. split; [right; exact Ha|exact Ca]. Qed.
  Theorem rebuild_accepts l w : accepts (rebuild g f ff initial) l w <->
    exists t v fw, changed_path g f 0 l v t /\ mget Nat.compare t (fin g) = Some fw /\ (initial = true \/ t <> 0) /\ w = (v + ff fw)%Z.
  Proof using S.
    unfold rebuild. destruct (copy_states_inv (sts g) 0 _ _ ltac:(reflexivity) ltac:(reflexivity) start_inv ltac:(reflexivity)) as (I & K & _). set (c := copy_states _ _ _ _ _ _) in *.
    destruct I as [A1 A2 A3 A4 A5 A6 A7 A8]. cbn [Nat.ltb Nat.leb] in A5.
    assert (Fw : forall s l v t, changed_path g f s l v t -> forall k, mget Nat.compare s (c_known c) = Some k -> exists j, run (c_rep c) k l v j /\ mget Nat.compare t (c_known c) = Some j).
    { induction 1 as [s|s a v l' w' t Ha Fa P IH]; intros k Hk; [exists k; split; [constructor|exact Hk]|].
      destruct (copied_in a _ _ c (A5 s k Hk)) as (b & Hb & (C1 & C2 & C3 & C4)); [apply filter_In; rewrite Fa; split; [exact Ha|reflexivity]|].
      destruct (IH _ C1) as (j & R & Ej). exists j. split; [|exact Ej]. rewrite <- C2, <- C3. assert (Ew : v = wt b) by congruence. rewrite Ew. constructor; [exact Hb|exact R]. }
    assert (Bw : forall k l v j, run (c_rep c) k l v j -> forall s, mget Nat.compare s (c_known c) = Some k -> exists t, changed_path g f s l v t /\ mget Nat.compare t (c_known c) = Some j).
    { induction 1 as [k|k b l' w' j Hb R IH]; intros s Hs; [exists s; split; [constructor|exact Hs]|].
      destruct (copied_from b _ _ c (A5 s k Hs) Hb) as (a & Ha & (C1 & C2 & C3 & C4)). destruct (IH _ C1) as (t & P & Et). exists t. split; [|exact Et]. rewrite C2, C3.
      apply filter_In in Ha. apply cp_cons; [exact (proj1 Ha)|exact C4|exact P]. }
    split.
    - intros (j & v & fw & R & F & E). destruct (Bw _ _ _ _ R 0 A4) as (t & P & Et). rewrite (A6 t j Et) in F. unfold newfin in F. destruct (Nat.eqb_spec t 0) as [Z0|N]; cbn [andb] in F.
      + rewrite Z0 in *. destruct initial; [|discriminate F]. cbn [negb] in F. destruct (mget Nat.compare 0 (fin g)) as [x|] eqn:Ex; [|discriminate F]. injection F as <-. exists 0, v, x. auto.
      + destruct (mget Nat.compare t (fin g)) as [x|] eqn:Ex; [|discriminate F]. injection F as <-. exists t, v, x. auto.
    - intros (t & v & fw & P & F & N & E). destruct (Fw _ _ _ _ P 0 A4) as (j & R & Ej). exists j, v, (ff fw). split; [exact R|]. split; [|exact E]. rewrite (A6 t j Ej). unfold newfin. rewrite F.
      destruct (Nat.eqb_spec t 0) as [->|Nt]; [|reflexivity]. destruct N as [->|N]; [reflexivity|congruence].
  Qed.
  (** Structure and alphabet of the copy. *)
  Lemma rebuild_structure : structure_ok (rebuild g f ff initial).
  Proof using.
    unfold rebuild.
    assert (Sj : structure_ok empty_graph). { split; [discriminate|]. split; [|discriminate]. intros [|[|s]] a []. }
    assert (Q : forall ls s c0, structure_ok (c_rep c0) -> structure_ok (c_rep (copy_states g f ff s ls c0))).
    { assert (Qe : forall s c0, structure_ok (c_rep c0) -> structure_ok (c_rep (ensure g ff s c0))).
      { intros s c0 H. unfold ensure. destruct (mget _ _ _); [exact H|]. cbn [c_rep]. destruct (finw g s); [apply structure_set_final|]; apply structure_add_state_n, H. }
      assert (Qa : forall s a c0, structure_ok (c_rep c0) -> structure_ok (c_rep (copy_arc g f ff s c0 a))).
      { intros s a c0 H. unfold copy_arc. destruct (f a); [|exact H]. cbn [c_rep]. apply structure_add_transition, Qe, H. }
      induction ls as [|l ls IH]; intros s c0 H; [exact H|]. cbn [copy_states]. apply IH. specialize (Qe s c0 H). revert Qe. generalize (ensure g ff s c0). clear - Qa.
      induction l as [|a l IHl]; intros c1 H; [exact H|]. cbn [fold_left]. apply IHl, Qa, H. }
    apply Q. cbn [c_rep]. destruct initial; [|exact Sj]. destruct (finw g 0); [apply structure_set_final|]; exact Sj.
  Qed.
  Lemma rebuild_alpha x : In x (alpha (rebuild g f ff initial)) <-> special x \/ exists s a, In a (nth s (sts g) []) /\ f a <> None /\ (x = isy a \/ x = osy a).
  Proof using.
    unfold rebuild. set (r := if initial then _ else _). assert (R : forall y, In y (alpha r) <-> special y).
    { intros y. assert (E : alpha r = alpha empty_graph) by (unfold r; destruct initial; [destruct (finw g 0)|]; reflexivity). rewrite E. unfold special. cbn [alpha empty_graph]. unfold initialize_alphabet. rewrite !(In_sadd bcmp bcmp_eq). cbn [In]. unfold EPS, UNK, IDN. tauto. }
    assert (Q : forall ls s c0, (forall y, In y (alpha (c_rep (copy_states g f ff s ls c0))) <-> In y (alpha (c_rep c0)) \/ exists l a, In l ls /\ In a l /\ f a <> None /\ (y = isy a \/ y = osy a))).
    { assert (Qe : forall s c0, alpha (c_rep (ensure g ff s c0)) = alpha (c_rep c0)).
      { intros s c0. unfold ensure. destruct (mget _ _ _); [reflexivity|]. cbn [c_rep]. destruct (finw g s); reflexivity. }
      assert (Qa : forall l s c0 y, In y (alpha (c_rep (fold_left (copy_arc g f ff s) l c0))) <-> In y (alpha (c_rep c0)) \/ exists a, In a l /\ f a <> None /\ (y = isy a \/ y = osy a)).
      { induction l as [|a l IH]; intros s c0 y; cbn [fold_left]; [split; [auto|intros [H|(a & [] & _)]; exact H]|]. rewrite IH.
        assert (Q1 : In y (alpha (c_rep (copy_arc g f ff s c0 a))) <-> In y (alpha (c_rep c0)) \/ f a <> None /\ (y = isy a \/ y = osy a)).
        { unfold copy_arc. destruct (f a) as [v|]; [|split; [auto|intros [H|[H _]]; [exact H|congruence]]]. cbn [c_rep]. rewrite In_alpha_add_transition, Qe. cbn [isy osy].
          assert (Nn : Some v <> None) by discriminate. tauto. }
        rewrite Q1. split.
        - intros [[H|H]|(b & Hb & H)]; [auto|right; exists a; split; [left; reflexivity|exact H]|right; exists b; split; [right; exact Hb|exact H]].
        - intros [H|(b & [<-|Hb] & H)]; [auto|auto|right; exists b; auto]. }
      induction ls as [|l ls IH]; intros s c0 y; cbn [copy_states]; [split; [auto|intros [H|(l & a & [] & _)]; exact H]|]. rewrite IH, Qa, Qe. split.
      - intros [[H|(a & Ha & H)]|(l' & a & Hl & H)]; [auto|right; exists l, a; split; [left; reflexivity|auto]|right; exists l', a; split; [right; exact Hl|exact H]].
      - intros [H|(l' & a & [<-|Hl] & Ha & H)]; [auto|left; right; exists a; auto|right; exists l', a; auto]. }
    rewrite Q. cbn [c_rep]. rewrite R. split; (intros [H|H]; [left; exact H|right]).
    - destruct H as (l & a & Hl & Ha & H). destruct (In_nth _ _ [] Hl) as (s & _ & E). exists s, a. rewrite E. auto.
    - destruct H as (s & a & Ha & H). exists (nth s (sts g) []), a. split; [|auto]. destruct (Nat.lt_ge_cases s (length (sts g))); [apply nth_In; assumption|]. rewrite nth_overflow in Ha by assumption. destruct Ha.
  Qed.
End Rebuild.
