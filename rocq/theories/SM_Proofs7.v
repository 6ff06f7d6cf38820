(** Emptiness, complement and difference. *)
From Verif Require Import Base SF_Spec SF_Model SF_Proofs SF_Proofs2 SF_Proofs3 SF_Proofs5 SF_Proofs6 SF_Proofs7 SF_Proofs8 SM_Model SM_Proofs5 SM_Proofs6.

(** The transducer the tests look at. *)
Lemma get_minimal hop t : trans_ok t -> exists r, (if mini t then Ok t else minimise hop t) = Ok r /\
  graph_ok (nodes r) /\ minimal (nodes r) /\ same_lang r t.
Proof.
  intros T. destruct (mini t) eqn:M.
  - exists t. split; [reflexivity|]. split; [exact (proj1 T)|]. split; [exact (proj1 (proj2 (proj2 T)) M)|]. intros w. reflexivity.
  - destruct (minimise_correct hop t T) as (r & E & R & Mr & _ & _ & L & _). exists r. split; [exact E|]. split; [exact (proj1 R)|].
    split; [exact (proj1 (proj2 (proj2 R)) Mr)|exact L].
Qed.
Lemma is_empty_correct hop t : trans_ok t -> exists b, is_empty hop t = Ok b /\ (b = true <-> forall w, ~ lang t w).
Proof.
  intros T. destruct (get_minimal hop t T) as (r & E & G & (D & M2 & M3) & L). unfold is_empty. rewrite E. cbn [rmap rbind]. eexists. split; [reflexivity|].
  pose proof (det_out (nodes r) 0 G D (reach_here _ 0)) as (Eo & _). split.
  - intros H w Hw. apply andb_true_iff in H. destruct H as [H1 H2]. apply L in Hw. unfold lang in Hw. destruct w as [|l w].
    + apply (det_reads_nil _ _ G D (reach_here _ 0)) in Hw. rewrite Hw in H1. discriminate.
    + apply (det_reads_cons _ _ _ _ G D (reach_here _ 0)) in Hw. destruct Hw as (t' & Hi & _). rewrite <- Eo in Hi.
      destruct (out (node_at (nodes r) 0)); [destruct Hi|discriminate].
  - intros H. apply andb_true_iff. split.
    + destruct (final (node_at (nodes r) 0)) eqn:F; [|reflexivity]. exfalso. apply (H []), L. apply (det_reads_nil _ _ G D (reach_here _ 0)), F.
    + destruct (out (node_at (nodes r) 0)) as [|[l t'] o] eqn:Eq; [reflexivity|]. exfalso.
      destruct (M3 0 l t' (reach_here _ 0)) as [w Hw]; [rewrite Eq; left; reflexivity|]. apply (H (l :: w)), L.
      apply (det_reads_cons _ _ _ _ G D (reach_here _ 0)). exists t'. split; [|exact Hw]. rewrite <- Eo. left. reflexivity.
Qed.
Lemma generates_empty_string_correct hop t : trans_ok t -> exists b, generates_empty_string hop t = Ok b /\ (b = true <-> lang t []).
Proof.
  intros T. destruct (get_minimal hop t T) as (r & E & G & (D & _ & _) & L). unfold generates_empty_string. rewrite E. cbn [rmap rbind]. eexists. split; [reflexivity|].
  rewrite <- (L []). unfold lang. rewrite (det_reads_nil _ _ G D (reach_here _ 0)). reflexivity.
Qed.

(** Adding the missing transitions of a node. *)
Definition complete (ls : list label) (acc : nat) (d : node) : node :=
  fold_left (fun d l => match target_node d l with Some _ => d | None => with_arc l acc d end) ls d.
Lemma target_none d l : target_node d l = None <-> forall t, ~ In (l, t) (arcs d).
Proof.
  unfold target_node. destruct (find _ (arcs d)) as [[l' y']|] eqn:E; cbn [option_map].
  - split; [discriminate|]. intros H. apply find_some in E. destruct E as [E1 E2]. cbn [fst] in E2. apply label_eqb_eq in E2. subst. destruct (H y' E1).
  - split; [|reflexivity]. intros _ t Hi. apply (find_none _ _ E) in Hi. cbn [fst] in Hi. rewrite (proj2 (label_eqb_eq l l) eq_refl) in Hi. discriminate.
Qed.
Lemma complete_cons l ls acc d : complete (l :: ls) acc d = complete ls acc (match target_node d l with Some _ => d | None => with_arc l acc d end).
Proof. reflexivity. Qed.
Lemma with_arc_plain l acc d : l <> (0, 0) -> with_arc l acc d = Node (eps d) ((l, acc) :: arcs d) (final d).
Proof. intros N. unfold with_arc. destruct (is_epsilon l) eqn:E; [apply is_epsilon_eq in E; contradiction|reflexivity]. Qed.
Lemma complete_spec acc ls : ~ In (0, 0) ls -> forall d,
  eps (complete ls acc d) = eps d /\ final (complete ls acc d) = final d /\
  forall l t, In (l, t) (arcs (complete ls acc d)) <-> In (l, t) (arcs d) \/ In l ls /\ t = acc /\ forall t', ~ In (l, t') (arcs d).
Proof.
  induction ls as [|x ls IH]; intros Ne d; [cbn; split; [reflexivity|split; [reflexivity|]]; intros l t; tauto|].
  rewrite complete_cons. assert (Nx : x <> (0, 0)) by (intros ->; apply Ne; left; reflexivity).
  destruct (IH (fun C => Ne (or_intror C)) (match target_node d x with Some _ => d | None => with_arc x acc d end)) as (I1 & I2 & I3).
  rewrite I1, I2. destruct (target_node d x) as [y|] eqn:Et.
  - split; [reflexivity|]. split; [reflexivity|]. intros l t. rewrite I3. cbn [In]. split; [intuition|]. intros [H|([->|H] & -> & Hn)]; [auto| |auto].
    apply target_node_In in Et. destruct (Hn y Et).
  - rewrite (with_arc_plain x acc d Nx) in *. cbn [eps arcs final] in *. split; [reflexivity|]. split; [reflexivity|]. intros l t. rewrite I3. cbn [In].
    pose proof (proj1 (target_none d x) Et) as Hn. split.
    + intros [[H|H]|(H1 & -> & H3)]; [|auto|].
      * injection H as <- <-. right. auto.
      * right. split; [auto|]. split; [reflexivity|]. intros t' C. exact (H3 t' (or_intror C)).
    + intros [H|([->|H] & -> & H3)]; [auto|left; left; reflexivity|].
      destruct (label_eqb l x) eqn:El; [apply label_eqb_eq in El; subst; left; left; reflexivity|].
      right. split; [exact H|]. split; [reflexivity|]. intros t' [C|C]; [|exact (H3 t' C)]. injection C as -> _. rewrite (proj2 (label_eqb_eq l l) eq_refl) in El. discriminate.
Qed.
Lemma negate_leave_cons l ls acc n h : negate_leave (l :: ls) acc n h =
  negate_leave ls acc n (match target_node (node_at h n) l with Some _ => h | None => add_arc n l acc h end).
Proof. reflexivity. Qed.
Lemma negate_leave_length ls acc n : forall h, length (negate_leave ls acc n h) = length h.
Proof.
  induction ls as [|l ls IH]; intros h; [reflexivity|]. rewrite negate_leave_cons, IH. destruct (target_node _ l); [reflexivity|apply add_arc_length].
Qed.
Lemma negate_leave_node ls acc n : forall h, n < length h -> forall m,
  node_at (negate_leave ls acc n h) m = if m =? n then complete ls acc (node_at h n) else node_at h m.
Proof.
  induction ls as [|l ls IH]; intros h Hn m; [cbn; destruct (Nat.eqb_spec m n) as [->|]; reflexivity|].
  rewrite negate_leave_cons, complete_cons, IH.
  - destruct (target_node (node_at h n) l); [reflexivity|]. rewrite !node_at_add_arc, Nat.eqb_refl by exact Hn. destruct (Nat.eqb_spec m n); reflexivity.
  - destruct (target_node (node_at h n) l); [exact Hn|]. rewrite add_arc_length. exact Hn.
Qed.
Lemma negate_enter_length n h : length (negate_enter n h) = length h.
Proof. apply set_final_length. Qed.
Definition flipped (d : node) : node := Node (eps d) (arcs d) (negb (final d)).
Lemma negate_enter_node n h m : n < length h -> node_at (negate_enter n h) m = if m =? n then flipped (node_at h n) else node_at h m.
Proof. intros H. unfold negate_enter. rewrite node_at_set_final by exact H. reflexivity. Qed.

Lemma update_over {A} n (f : A -> A) : forall h, length h <= n -> update n f h = h.
Proof.
  induction n as [|n IH]; intros [|x h] H; cbn in *; try reflexivity; try lia. f_equal. apply IH. lia.
Qed.
Lemma negate_enter_other n h m : m <> n -> node_at (negate_enter n h) m = node_at h m.
Proof.
  intros N. destruct (Nat.lt_ge_cases n (length h)) as [L|L].
  - rewrite negate_enter_node by exact L. rewrite (proj2 (Nat.eqb_neq m n) N). reflexivity.
  - unfold negate_enter, set_final. rewrite update_over by exact L. reflexivity.
Qed.
Lemma negate_leave_other ls acc n m : m <> n -> forall h, node_at (negate_leave ls acc n h) m = node_at h m.
Proof.
  intros N. induction ls as [|l ls IH]; intros h; [reflexivity|]. rewrite negate_leave_cons, IH.
  destruct (target_node (node_at h n) l); [reflexivity|]. destruct (Nat.lt_ge_cases n (length h)) as [L|L].
  - rewrite node_at_add_arc by exact L. rewrite (proj2 (Nat.eqb_neq m n) N). reflexivity.
  - unfold add_arc. rewrite update_over by exact L. reflexivity.
Qed.

Section Neg.
  Variables (h : list node) (ls : list label) (acc : nat).
  Hypothesis G : forall n l t, n < length h -> In (l, t) (out (node_at h n)) -> t < length h.
  Let sc (n : nat) := out (node_at h n).
  Let run := acts negate_enter (negate_leave ls acc) nothing3 nothing2.
  Lemma negate_events n : n < length h -> forall evs, legal sc [] evs ->
    let s := run evs h in
    length s = length h /\
    (~ entered n evs -> leaves Nat.eqb n evs = [] /\ node_at s n = node_at h n) /\
    (entered n evs -> leaves Nat.eqb n evs = [] -> node_at s n = flipped (node_at h n)) /\
    (entered n evs -> leaves Nat.eqb n evs = [tt] -> node_at s n = complete ls acc (flipped (node_at h n))).
  Proof.
    intros Hn evs. induction evs as [|e evs IH] using rev_ind; intros Lg.
    { cbn. split; [reflexivity|]. split; [auto|]. split; intros []. }
    apply legal_app in Lg. destruct Lg as [Lg [L1 _]]. specialize (IH Lg). cbn zeta in IH |- *. destruct IH as (I0 & I1 & I2 & I3).
    unfold run. rewrite acts_app, lea_app. change (acts negate_enter (negate_leave ls acc) nothing3 nothing2 evs h) with (run evs h). set (s := run evs h) in *.
    assert (Ent : entered n (evs ++ [e]) <-> entered n evs \/ e = Enter n).
    { rewrite entered_app. unfold entered at 2. cbn [In]. intuition. }
    rewrite Ent. destruct e as [k|k a b|k a|k]; cbn [leaves flat_map app acts fold_left act]; fold (leaves Nat.eqb n evs).
    - rewrite negate_enter_length, app_nil_r. split; [exact I0|]. cbn [legal1] in L1. destruct (Nat.eq_dec k n) as [->|Nk].
      + assert (Ne : ~ entered n evs) by (intros C; apply L1, grow_In; right; exact C). destruct (I1 Ne) as [J1 J2].
        split; [intros C; exfalso; apply C; right; reflexivity|]. split; [|intros _ C; rewrite J1 in C; discriminate].
        intros _ _. rewrite (negate_enter_node n s n) by lia. rewrite Nat.eqb_refl, J2. reflexivity.
      + rewrite (negate_enter_other k s n) by congruence. assert (Q : entered n evs \/ @Enter nat k = Enter n <-> entered n evs).
        { split; [|auto]. intros [C|C]; [exact C|]. injection C as C. contradiction. }
        rewrite Q. auto.
    - rewrite app_nil_r. unfold nothing3. assert (Q : entered n evs \/ Before k a b = Enter n <-> entered n evs) by (split; [intros [C|C]; [exact C|discriminate]|auto]).
      rewrite Q. auto.
    - rewrite app_nil_r. unfold nothing2. assert (Q : entered n evs \/ After k a = Enter n <-> entered n evs) by (split; [intros [C|C]; [exact C|discriminate]|auto]).
      rewrite Q. auto.
    - rewrite negate_leave_length. split; [exact I0|]. assert (Q : entered n evs \/ @Leave nat k = Enter n <-> entered n evs) by (split; [intros [C|C]; [exact C|discriminate]|auto]).
      rewrite Q. clear Q. cbn [legal1] in L1. destruct (Nat.eqb_spec n k) as [<-|Nk].
      + apply grow_In in L1. destruct L1 as [[]|L1]. split; [contradiction|]. split.
        * intros _ C. apply app_eq_nil in C. destruct C as [_ C]. discriminate.
        * intros _ C. rewrite (negate_leave_node ls acc n s) by lia. rewrite Nat.eqb_refl, I2; [reflexivity|exact L1|].
          destruct (leaves Nat.eqb n evs) as [|u [|v q]]; [reflexivity|discriminate|discriminate].
      + rewrite (negate_leave_other ls acc k n Nk), app_nil_r. auto.
  Qed.
  Lemma negate_result r : r < length h -> exists vis h',
    visit Nat.eqb out_now negate_enter (negate_leave ls acc) nothing3 nothing2 (S (length h)) r ([], h) = Ok (vis, h') /\ length h' = length h /\
    (forall n, reachable h r n -> node_at h' n = complete ls acc (flipped (node_at h n))) /\
    (forall n, ~ reachable h r n -> node_at h' n = node_at h n).
  Proof using G.
    intros Hr.
    set (P := fun (vis : list nat) (s : list node) => length s = length h /\ forall n, ~ In n vis -> node_at s n = node_at h n).
    destruct (visit_total Nat.eqb Nat.eqb_eq out_now negate_enter (negate_leave ls acc) nothing3 nothing2 sc P) with
      (U := seq 0 (length h)) (fuel := S (length h)) (k := r) (vis := @nil nat) (s := h) as (evs & E & HP & L).
    - intros k vis s [P1 P2] Hk. unfold out_now, sc. rewrite <- (P2 k Hk). split.
      + destruct (Nat.lt_ge_cases k (length s)) as [Lk|Lk].
        * rewrite (negate_enter_node k s k Lk), Nat.eqb_refl. reflexivity.
        * rewrite !node_at_over by (rewrite ?negate_enter_length; exact Lk). reflexivity.
      + split; [rewrite negate_enter_length; exact P1|]. intros n Hn. rewrite negate_enter_other by (intros ->; apply Hn; left; reflexivity).
        apply P2. intros C. apply Hn. right. exact C.
    - intros; assumption.
    - intros; assumption.
    - intros vis s k [P1 P2] Hk. split; [rewrite negate_leave_length; exact P1|]. intros n Hn. rewrite negate_leave_other by (intros ->; contradiction). apply P2, Hn.
    - intros k [l t]. rewrite !in_seq. cbn [snd]. intros Hk Ha. assert (k < length h) by lia. pose proof (G k l t H Ha). lia.
    - split; reflexivity.
    - apply in_seq. lia.
    - pose proof (cnt_le_U Nat.eqb (seq 0 (length h)) []) as H. rewrite seq_length in H. lia.
    - rewrite E. eexists. eexists. split; [reflexivity|]. destruct HP as [P1 P2]. split; [exact P1|].
      assert (Ent : forall n, entered n evs <-> reachable h r n).
      { intros n. rewrite (log_reach Nat.eqb Nat.eqb_eq sc r evs L). apply kreach_reachable. }
      split.
      + intros n Hn. destruct (vl_full _ _ _ _ _ L n) as (_ & _ & Hlv); [apply Ent, Hn|].
        assert (Ln : n < length h).
        { clear - Hn Hr G. induction Hn as [n|n l m k Hi R IH]; [exact Hr|]. apply IH. exact (G n l m Hr Hi). }
        destruct (negate_events n Ln evs (vl_legal _ _ _ _ _ L)) as (_ & _ & _ & N). apply N; [apply Ent, Hn|exact Hlv].
      + intros n Hn. apply P2. intros C. apply grow_In in C. destruct C as [[]|C]. apply Hn, Ent, C.
  Qed.
End Neg.

(** The complement. *)
Lemma plain_reads h n : (forall t, ~ In t (eps (node_at h n))) -> (forall t, ~ In ((0, 0), t) (arcs (node_at h n))) ->
  (reads h n [] <-> final (node_at h n) = true) /\
  forall l w, reads h n (l :: w) <-> exists t, In (l, t) (arcs (node_at h n)) /\ reads h t w.
Proof.
  intros E N. assert (Eo : out (node_at h n) = arcs (node_at h n)).
  { unfold out. destruct (eps (node_at h n)) as [|x r]; [reflexivity|]. destruct (E x). left. reflexivity. }
  assert (Em : forall l t w, In (l, t) (out (node_at h n)) -> emit l w = l :: w).
  { intros l t w Hi. rewrite emit_eq. destruct (is_epsilon l) eqn:El; [|reflexivity]. apply is_epsilon_eq in El. subst l. rewrite Eo in Hi. destruct (N _ Hi). }
  split.
  - split; [|intros F; constructor; exact F]. intros R. inversion R as [? F|? l t w Hi R' E1 E2]; [exact F|]. rewrite (Em l t w Hi) in E2. discriminate.
  - intros l w. split.
    + intros R. inversion R as [|? l' t w' Hi R' E1 E2]. rewrite (Em l' t w' Hi) in E2. injection E2 as -> ->. exists t. rewrite <- Eo. auto.
    + intros (t & Hi & R). rewrite <- Eo in Hi. rewrite <- (Em l t w Hi). econstructor; eauto.
Qed.
Lemma accept_node ls acc : ~ In (0, 0) ls -> forall h, acc < length h -> eps (node_at h acc) = [] ->
  let g := fold_left (fun h l => add_arc acc l acc h) ls h in
  length g = length h /\ eps (node_at g acc) = [] /\ final (node_at g acc) = final (node_at h acc) /\
  (forall l t, In (l, t) (arcs (node_at g acc)) <-> In (l, t) (arcs (node_at h acc)) \/ In l ls /\ t = acc) /\
  (forall n, n <> acc -> node_at g n = node_at h n).
Proof.
  induction ls as [|x ls IH]; intros Ne h Hh He; cbn zeta; cbn [fold_left].
  { split; [reflexivity|]. split; [exact He|]. split; [reflexivity|]. split; [|reflexivity]. intros l t. cbn [In]. tauto. }
  assert (Nx : x <> (0, 0)) by (intros ->; apply Ne; left; reflexivity).
  assert (Ea : node_at (add_arc acc x acc h) acc = Node (eps (node_at h acc)) ((x, acc) :: arcs (node_at h acc)) (final (node_at h acc))).
  { rewrite node_at_add_arc by exact Hh. rewrite Nat.eqb_refl. apply with_arc_plain, Nx. }
  destruct (IH (fun C => Ne (or_intror C)) (add_arc acc x acc h)) as (I0 & I1 & I2 & I3 & I4).
  { rewrite add_arc_length. exact Hh. }
  { rewrite Ea. exact He. }
  rewrite I0, I1, I2, add_arc_length, Ea. cbn [final]. split; [reflexivity|]. split; [reflexivity|]. split; [reflexivity|]. split.
  - intros l t. rewrite I3, Ea. cbn [arcs In]. split.
    + intros [[H|H]|[H ->]]; [injection H as <- <-; auto|auto|auto].
    + intros [H|[[<-|H] ->]]; auto.
  - intros n Hn. rewrite I4 by exact Hn. rewrite node_at_add_arc by exact Hh. rewrite (proj2 (Nat.eqb_neq n acc) Hn). reflexivity.
Qed.
Lemma negation_throws hop t : labels t = [] -> negation hop t = Throw.
Proof. intros E. unfold negation. rewrite E. reflexivity. Qed.
Lemma negation_correct hop t : trans_ok t -> labels t <> [] -> exists r, negation hop t = Ok r /\ trans_ok r /\
  det r = false /\ mini r = false /\
  (forall w, (forall l, In l w -> In l (labels t)) -> (lang r w <-> ~ lang t w)) /\
  ((forall l, label_used t l -> In l (labels t)) -> forall w, lang r w -> forall l, In l w -> In l (labels t)) /\
  (forall l, In l (labels r) <-> In l (labels t) \/ mini t = false /\ label_used t l).
Proof.
  intros T NE. unfold negation.
  assert (Ec : (if mini t then copy false t else minimise hop t) = minimise hop t).
  { unfold minimise, hopcroft_minimise, rev_det_minimise. destruct (mini t); destruct hop; reflexivity. }
  destruct (labels t) as [|l0 lr] eqn:El0; [congruence|]. rewrite <- El0 in *. clear NE.
  rewrite Ec. destruct (minimise_correct hop t T) as (na & E & Tn & Mn & _ & Acc & L & Lab1 & Lab2). rewrite E. cbn [rbind].
  set (ls := insert_labels (labels t) (labels na)). set (acc := length (nodes na)).
  assert (G : graph_ok (nodes na)) by exact (proj1 Tn).
  assert (M : minimal (nodes na)) by exact (proj1 (proj2 (proj2 Tn)) Mn).
  pose proof (proj1 M) as D.
  assert (Nt : ~ In (0, 0) (labels t)) by exact (proj2 (proj2 (proj2 T))).
  assert (Nl : ~ In (0, 0) ls) by (apply no_eps_insert; exact (proj2 (proj2 (proj2 Tn)))).
  assert (Sub : forall l, In l (labels t) -> In l ls).
  { intros l Hl. apply In_insert_labels. right. split; [exact Hl|]. intros ->. contradiction. }
  destruct (accept_node (labels t) acc Nt (nodes na ++ [Node [] [] true])) as (A0 & A1 & A2 & A3 & A4).
  { rewrite app_length. cbn [length]. lia. }
  { unfold acc. rewrite node_at_last. reflexivity. }
  set (h := fold_left (fun h l => add_arc acc l acc h) (labels t) (nodes na ++ [Node [] [] true])) in *.
  assert (Lh : length h = S acc) by (rewrite A0, app_length; cbn [length]; fold acc; lia).
  assert (Old : forall n, n < acc -> node_at h n = node_at (nodes na) n).
  { intros n Hn. rewrite A4 by lia. apply node_at_app. exact Hn. }
  unfold acc in A2, A3. rewrite node_at_last in A2, A3. fold acc in A2, A3. cbn [final arcs] in A2, A3.
  assert (A3' : forall l t', In (l, t') (arcs (node_at h acc)) <-> In l (labels t) /\ t' = acc) by (intros l t'; rewrite A3; cbn [In]; tauto).
  assert (Gh : forall n l t, n < length h -> In (l, t) (out (node_at h n)) -> t < length h).
  { intros n l t' Hn Hi. rewrite Lh in *. destruct (Nat.eq_dec n acc) as [->|Nn].
    - unfold out in Hi. rewrite A1 in Hi. apply A3' in Hi. destruct Hi as [_ ->]. lia.
    - rewrite Old in Hi by lia. assert (Hn' : n < length (nodes na)) by (fold acc; lia). pose proof (proj1 (proj2 G n Hn') l t' Hi). fold acc in H. lia. }
  destruct (negate_result h ls acc Gh 0) as (vis & g & Ev & Lg & N1 & N2); [lia|]. rewrite Ev. cbn [rmap rbind].
  eexists. split; [reflexivity|]. cbn [nodes det mini labels].
  assert (Rh : forall a n, reachable (nodes na) a n -> a < acc -> reachable h a n).
  { induction 1 as [a|a l m n Hi R IH]; intros Ha; [constructor|].
    assert (Ha' : a < length (nodes na)) by exact Ha. pose proof (proj1 (proj2 G a Ha') l m Hi) as Hm.
    econstructor; [rewrite Old by exact Ha; exact Hi|]. apply IH. exact Hm. }
  assert (Rh' : forall a n, reachable h a n -> a < acc -> n < acc).
  { induction 1 as [a|a l m n Hi R IH]; intros Ha; [exact Ha|]. rewrite Old in Hi by exact Ha.
    assert (Ha' : a < length (nodes na)) by exact Ha. apply IH. exact (proj1 (proj2 G a Ha') l m Hi). }
  assert (Acc0 : 0 < acc) by exact (graph_root _ G).
  assert (Gacc : node_at g acc = node_at h acc).
  { apply N2. intros C. apply Rh' in C; [lia|exact Acc0]. }
  assert (Gold : forall n, n < acc -> eps (node_at g n) = [] /\ final (node_at g n) = negb (final (node_at (nodes na) n)) /\
            (forall l t', In (l, t') (arcs (node_at g n)) <-> In (l, t') (arcs (node_at (nodes na) n)) \/ In l ls /\ t' = acc /\ forall y, ~ In (l, y) (arcs (node_at (nodes na) n))) /\
            (forall l t', In (l, t') (arcs (node_at (nodes na) n)) -> t' < acc /\ l <> (0, 0) /\ out (node_at (nodes na) n) = arcs (node_at (nodes na) n)) /\
            NoDup (map fst (arcs (node_at (nodes na) n)))).
  { intros n Hn. pose proof (Acc n Hn) as Rn. destruct (D n Rn) as [D1 D2]. destruct (det_out _ _ G D Rn) as (Eo & En & _).
    rewrite (N1 n (Rh 0 n Rn Acc0)), (Old n Hn). destruct (complete_spec acc ls Nl (flipped (node_at (nodes na) n))) as (C1 & C2 & C3). rewrite C1, C2. cbn [flipped eps final arcs] in *.
    split; [exact D1|]. split; [reflexivity|]. split; [exact C3|]. split; [|exact D2]. intros l t' Hi. split; [|split; [|exact Eo]].
    - apply (proj1 (proj2 G n Hn) l). rewrite Eo. exact Hi.
    - intros ->. exact (En _ Hi). }
  assert (Pl : forall n, n < acc -> (reads g n [] <-> final (node_at g n) = true) /\ forall l w, reads g n (l :: w) <-> exists t, In (l, t) (arcs (node_at g n)) /\ reads g t w).
  { intros n Hn. destruct (Gold n Hn) as (B1 & B2 & B3 & B4 & _). apply plain_reads; [intros t' C; rewrite B1 in C; destruct C|].
    intros t' C. apply B3 in C. destruct C as [C|[C _]]; [destruct (B4 _ _ C) as (_ & C' & _); congruence|contradiction]. }
  assert (Pa : (reads g acc [] <-> final (node_at g acc) = true) /\ forall l w, reads g acc (l :: w) <-> exists t, In (l, t) (arcs (node_at g acc)) /\ reads g t w).
  { apply plain_reads; rewrite Gacc; [rewrite A1; intros t' []|]. intros t' C. apply A3' in C. tauto. }
  assert (Racc : forall w, reads g acc w <-> forall l, In l w -> In l (labels t)).
  { induction w as [|l w IH].
    - rewrite (proj1 Pa), Gacc, A2. split; [intros _ l []|reflexivity].
    - rewrite (proj2 Pa l w). rewrite Gacc. split.
      + intros (t' & Hi & R). apply A3' in Hi. destruct Hi as [Hl ->]. intros l' [<-|H]; [exact Hl|]. exact (proj1 IH R l' H).
      + intros H. exists acc. split; [apply A3'; split; [apply H; left; reflexivity|reflexivity]|]. apply IH. intros l' Hl'. apply H. right. exact Hl'. }
  assert (Gg : graph_ok g).
  { split; [intros ->; cbn in Lg; lia|]. intros n Hn. rewrite Lg, Lh in *. destruct (Nat.eq_dec n acc) as [->|Nn].
    - rewrite Gacc. unfold out. rewrite A1. cbn [map app]. split.
      + intros l t' Hi. apply A3' in Hi. destruct Hi as [_ ->]. lia.
      + intros t' Hi. apply A3' in Hi. tauto.
    - assert (Ln : n < acc) by lia. destruct (Gold n Ln) as (B1 & B2 & B3 & B4 & _). unfold out. rewrite B1. cbn [map app]. split.
      + intros l t' Hi. apply B3 in Hi. destruct Hi as [Hi|(_ & -> & _)]; [destruct (B4 _ _ Hi); lia|lia].
      + intros t' C. apply B3 in C. destruct C as [C|[C _]]; [destruct (B4 _ _ C) as (_ & C' & _); congruence|contradiction]. }
  split; [split; [exact Gg|split; [discriminate|split; [discriminate|exact Nl]]]|]. split; [reflexivity|]. split; [reflexivity|]. split; [|split].
  - intros w Hw. rewrite <- (L w). unfold lang. cbn [nodes].
    assert (Gen : forall w, (forall l, In l w -> In l (labels t)) -> forall n, n < acc -> (reads g n w <-> ~ reads (nodes na) n w)).
    { clear w Hw. induction w as [|l w IH]; intros Hw n Hn; destruct (Gold n Hn) as (B1 & B2 & B3 & B4 & B5).
      - rewrite (proj1 (Pl n Hn)), B2, (det_reads_nil _ _ G D (Acc n Hn)). destruct (final (node_at (nodes na) n)); cbn [negb]; split; intros; congruence.
      - rewrite (proj2 (Pl n Hn) l w), (det_reads_cons _ _ _ _ G D (Acc n Hn)).
        assert (Hw' : forall l', In l' w -> In l' (labels t)) by (intros l' H; apply Hw; right; exact H).
        destruct (target_node (node_at (nodes na) n) l) as [y|] eqn:Et.
        + apply target_node_In in Et. destruct (B4 _ _ Et) as (Ly & _). split.
          * intros (t' & Hi & R) (t2 & Hi2 & R2). apply B3 in Hi. destruct Hi as [Hi|(_ & _ & Hi)]; [|exact (Hi _ Et)].
            apply (In_target_node _ _ _ B5) in Hi, Hi2, Et. rewrite Et in Hi, Hi2. injection Hi as <-. injection Hi2 as <-. exact (proj1 (IH Hw' y Ly) R R2).
          * intros Hn'. exists y. split; [apply B3; left; exact Et|]. apply (IH Hw' y Ly). intros R. apply Hn'. eauto.
        + pose proof (proj1 (target_none _ _) Et) as Hno. split.
          * intros _ (t2 & Hi2 & _). exact (Hno _ Hi2).
          * intros _. exists acc. split; [|apply Racc; exact Hw']. apply B3. right. split; [apply Sub, Hw; left; reflexivity|]. split; [reflexivity|exact Hno]. }
    exact (Gen w Hw 0 Acc0).
  - intros Us.
    assert (Ls : forall l, In l ls -> In l (labels t)).
    { intros l Hl. apply In_insert_labels in Hl. destruct Hl as [Hl|[Hl _]]; [|exact Hl]. destruct (mini t) eqn:Mt; [apply Lab1; [reflexivity|exact Hl]|]. apply Us, Lab2; [reflexivity|exact Hl]. }
    assert (Gen : forall w n, n < acc -> reads g n w -> forall l, In l w -> In l (labels t)).
    { induction w as [|x w IH]; intros n Hn R l Hl; [destruct Hl|]. apply (proj2 (Pl n Hn) x w) in R. destruct R as (t' & Hi & R).
      destruct (Gold n Hn) as (B1 & B2 & B3 & B4 & B5). apply B3 in Hi. destruct Hi as [Hi|(Hx & -> & _)].
      - destruct (B4 _ _ Hi) as (Lt & Nx & Eo). destruct Hl as [<-|Hl]; [|exact (IH t' Lt R l Hl)].
        apply Us. destruct (proj2 (used_labels (nodes na) G M x)) as (v & Rv & Hv).
        + split; [exact Nx|]. exists n, t'. split; [exact (Acc n Hn)|]. rewrite Eo. exact Hi.
        + exists v. split; [apply L; exact Rv|exact Hv].
      - destruct Hl as [<-|Hl]; [exact (Ls x Hx)|]. exact (proj1 (Racc w) R l Hl). }
    intros w Hw. exact (Gen w 0 Acc0 Hw).
  - intros l. unfold ls. rewrite In_insert_labels. destruct (mini t) eqn:Mt.
    + rewrite (proj2 (Lab1 eq_refl) l). split; [intros [H|[H _]]; auto|]. intros [H|[C _]]; [auto|discriminate].
    + rewrite (Lab2 eq_refl l). split; [intros [H|[H _]]; auto|]. intros [H|[_ H]]; [right; split; [exact H|intros ->; contradiction]|auto].
Qed.
Lemma subtract_correct hop t u : trans_ok t -> trans_ok u -> exists r, subtract hop t u = Ok r /\ trans_ok r /\ det r = true /\
  forall w, lang r w <-> lang t w /\ ~ lang u w.
Proof.
  intros T U. unfold subtract.
  set (l0 := match labels t with [] => insert_label (1, 1) [] | x :: y => x :: y end).
  assert (N0 : ~ In (0, 0) l0 /\ l0 <> []).
  { unfold l0. pose proof (proj2 (proj2 (proj2 T))) as Nt. destruct (labels t) as [|x y]; [|split; [exact Nt|discriminate]].
    split; [|discriminate]. intros C. apply In_insert_label in C. destruct C as [[]|[C _]]; discriminate. }
  destruct (arc_labels_result (nodes t) l0 (proj1 T)) as (ls & E & Ls).
  match goal with |- context [arc_labels ?a ?b] => assert (E2 : arc_labels a b = Ok ls) by (rewrite <- E; unfold l0; destruct (labels t); reflexivity) end.
  rewrite E2. cbn [rbind].
  assert (Nls : ~ In (0, 0) ls) by (intros C; apply Ls in C; destruct C as [C|[C _]]; [exact (proj1 N0 C)|congruence]).
  set (u' := Trans (nodes u) (det u) (mini u) (insert_labels ls (labels u))).
  assert (U' : trans_ok u').
  { destruct U as (U1 & U2 & U3 & U4). split; [exact U1|]. split; [exact U2|]. split; [exact U3|]. apply no_eps_insert, U4. }
  assert (NE : labels u' <> []).
  { destruct l0 as [|x y]; [destruct N0; congruence|]. intros C. assert (Hx : In x (labels u')).
    { cbn [labels u']. apply In_insert_labels. right. assert (In x ls) by (apply Ls; left; left; reflexivity). split; [assumption|intros ->; contradiction]. }
    rewrite C in Hx. destruct Hx. }
  destruct (negation_correct hop u' U' NE) as (c & Ec & Tc & _ & _ & Lc & _). rewrite Ec. cbn [rbind].
  set (t' := Trans (nodes t) (det t) (mini t) ls).
  assert (T' : trans_ok t').
  { destruct T as (T1 & T2 & T3 & T4). split; [exact T1|]. split; [exact T2|]. split; [exact T3|]. exact Nls. }
  destruct (conjunction_correct t' c T' Tc) as (r & Er & Tr & Dr & Lr & _). exists r. split; [exact Er|]. split; [exact Tr|]. split; [exact Dr|].
  intros w. rewrite Lr. change (lang t' w) with (lang t w).
  assert (Q : lang t w -> (lang c w <-> ~ lang u w)).
  { intros Hw. apply (Lc w). intros l Hl. apply In_insert_labels. right.
    assert (Nl : l <> (0, 0)) by (intros ->; exact (reads_no_eps _ _ _ Hw Hl)). split; [|exact Nl].
    apply Ls. right. split; [exact Nl|]. destruct (reads_labels _ _ _ Hw l Hl) as (x & t2 & Rx & Hx). eauto. }
  split; intros [H1 H2]; split; try exact H1; apply Q; assumption.
Qed.
