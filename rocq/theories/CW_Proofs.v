(** Proofs about compose_intersect: the parts around the composition. *)
From Verif Require Import Base Flags_Model BT_Model BT_Spec BT_Proofs BT_Proofs2 BT_Proofs3 BT_Proofs5 Harm_Model Harm_Spec Harm_Proofs
  CI_Model CI_Spec CI_Props CW_Model CW_Spec.

Lemma accepts_same g g' : sts g' = sts g -> fin g' = fin g -> forall l w, accepts g' l w <-> accepts g l w.
Proof.
  assert (R : forall g g', sts g' = sts g -> forall s l v t, run g' s l v t -> run g s l v t).
  { intros a b E s l v t H. induction H as [s|s x l v t Hx H IH]; [constructor|]. constructor; [rewrite <- E; exact Hx|exact IH]. }
  intros E F l w. unfold accepts. rewrite F. split; intros (t & v & f & H & K); exists t, v, f; (split; [|exact K]).
  - exact (R g g' E _ _ _ _ H).
  - exact (R g' g (eq_sym E) _ _ _ _ H).
Qed.

(** * Concatenation *)
Lemma leaving_length g n ls : forall s, length (leaving g n s ls) = length ls.
Proof. induction ls as [|l ls IH]; intros s; [reflexivity|]. cbn [leaving length]. rewrite IH. reflexivity. Qed.
Lemma leaving_nth g n ls : forall s k, k < length ls ->
  nth k (leaving g n s ls) [] = nth k ls [] ++ match finw g (s + k) with Some w => [Arc n EPS EPS w] | None => [] end.
Proof.
  induction ls as [|l ls IH]; intros s k H; [simpl in H; lia|]. destruct k as [|k]; cbn [leaving nth].
  - rewrite Nat.add_0_r. reflexivity.
  - rewrite IH by (simpl in H; lia). rewrite Nat.add_succ_r. reflexivity.
Qed.
Lemma mget_shift n (f : list (nat * Z)) t : mget Nat.compare (t + n) (map (fun e => (fst e + n, snd e)) f) = mget Nat.compare t f.
Proof.
  induction f as [|[k v] f IH]; [reflexivity|]. cbn [map mget fst snd].
  replace (Nat.compare (t + n) (k + n)) with (Nat.compare t k); [destruct (Nat.compare t k); auto|].
  destruct (Nat.compare_spec t k), (Nat.compare_spec (t + n) (k + n)); try reflexivity; lia.
Qed.
Lemma mget_shift_low n (f : list (nat * Z)) t : t < n -> mget Nat.compare t (map (fun e => (fst e + n, snd e)) f) = None.
Proof.
  intros H. induction f as [|[k v] f IH]; [reflexivity|]. cbn [map mget fst snd].
  destruct (Nat.compare_spec t (k + n)); [lia|exact IH|exact IH].
Qed.
Lemma mget_shift_none n (f : list (nat * Z)) t w : mget Nat.compare t (map (fun e => (fst e + n, snd e)) f) = Some w ->
  exists u, t = u + n /\ mget Nat.compare u f = Some w.
Proof.
  intros H. destruct (Nat.lt_ge_cases t n) as [L|L]; [rewrite mget_shift_low in H by exact L; discriminate|].
  exists (t - n). replace t with (t - n + n) in H at 1 by lia. rewrite mget_shift in H. split; [lia|exact H].
Qed.
Section Concat.
  Variables g h : graph.
  Hypothesis SG : structure_ok g.
  Let n := length (sts g).
  Let c := concatenate g h.
  Lemma c_first s : s < n -> nth s (sts c) [] = nth s (sts g) [] ++ match finw g s with Some w => [Arc n EPS EPS w] | None => [] end.
  Proof using. intros H. cbn [c concatenate sts]. rewrite app_nth1 by (rewrite leaving_length; exact H). rewrite leaving_nth by exact H. reflexivity. Qed.
  Lemma c_second s : nth (s + n) (sts c) [] = map (shift n) (nth s (sts h) []).
  Proof using.
    cbn [c concatenate sts]. rewrite app_nth2 by (rewrite leaving_length; fold n; lia). rewrite leaving_length. fold n.
    replace (s + n - n) with s by lia. apply nth_map_nil. reflexivity.
  Qed.
  Lemma c_run_first s l w t : run g s l w t -> s < n -> run c s l w t.
  Proof using SG.
    intros R. induction R as [s|s a l w t Ha R IH]; intros H; [constructor|]. constructor; [|apply IH; exact (proj1 (proj2 SG) s a Ha)].
    rewrite c_first by exact H. apply in_app_iff. left. exact Ha.
  Qed.
  Lemma c_run_second s l w t : run h s l w t -> run c (s + n) l w (t + n).
  Proof using.
    intros R. induction R as [s|s a l w t Ha R IH]; [constructor|]. apply (run_cons c (s + n) (shift n a)); [|exact IH].
    rewrite c_second. apply in_map. exact Ha.
  Qed.
  Lemma c_run_back s l w t : run c (s + n) l w t -> exists u, t = u + n /\ run h s l w u.
  Proof using.
    intros R. remember (s + n) as x eqn:E. revert s E. induction R as [x|x a l w t Ha R IH]; intros s ->; [exists s; split; [reflexivity|constructor]|].
    rewrite c_second in Ha. apply in_map_iff in Ha. destruct Ha as (b & <- & Hb). destruct (IH (tgt b) eq_refl) as (u & -> & R').
    exists u. split; [reflexivity|]. exact (run_cons h s b l w u Hb R').
  Qed.
  Lemma c_run s l w t : run c s l w t -> s < n -> run g s l w t /\ t < n \/
    exists l1 w1 u f l2 w2 t', run g s l1 w1 u /\ finw g u = Some f /\ run h 0 l2 w2 t' /\ t = t' + n /\
      l = l1 ++ (EPS, EPS) :: l2 /\ w = (w1 + (f + w2))%Z.
  Proof using SG.
    intros R. induction R as [s|s a l w t Ha R IH]; intros H; [left; split; [constructor|exact H]|].
    rewrite c_first in Ha by exact H. apply in_app_iff in Ha. destruct Ha as [Ha|Ha].
    - destruct (IH (proj1 (proj2 SG) s a Ha)) as [[R' L]|(l1 & w1 & u & f & l2 & w2 & t' & R1 & F & R2 & -> & -> & ->)].
      + left. split; [constructor; assumption|exact L].
      + right. exists ((isy a, osy a) :: l1), (wt a + w1)%Z, u, f, l2, w2, t'. split; [constructor; assumption|].
        split; [exact F|]. split; [exact R2|]. split; [reflexivity|]. split; [reflexivity|lia].
    - destruct (finw g s) as [f|] eqn:F; [|destruct Ha]. destruct Ha as [<-|[]]. cbn [tgt isy osy wt] in *.
      destruct (c_run_back 0 l w t R) as (u & -> & R'). right. exists [], 0%Z, s, f, l, w, u.
      split; [constructor|]. split; [exact F|]. split; [exact R'|]. split; [reflexivity|]. split; [reflexivity|lia].
  Qed.
  Lemma concatenate_accepts l w : accepts c l w <->
    exists l1 w1 l2 w2, accepts g l1 w1 /\ accepts h l2 w2 /\ l = l1 ++ (EPS, EPS) :: l2 /\ w = (w1 + w2)%Z.
  Proof using SG.
    assert (N : 0 < n) by (destruct SG as (N & _); unfold n; destruct (sts g); [congruence|simpl; lia]).
    split.
    - intros (t & v & f & R & F & ->). apply mget_shift_none in F. destruct F as (u & -> & F). fold n in R.
      destruct (c_run 0 l v (u + n) R N) as [[_ K]|(l1 & w1 & u' & f' & l2 & w2 & t' & R1 & F' & R2 & E & -> & ->)]; [lia|].
      assert (u = t') by lia. subst t'. exists l1, (w1 + f')%Z, l2, (w2 + f)%Z.
      split; [exists u', w1, f'; auto|]. split; [exists u, w2, f; auto|]. split; [reflexivity|lia].
    - intros (l1 & w1 & l2 & w2 & (t1 & v1 & f1 & R1 & F1 & ->) & (t2 & v2 & f2 & R2 & F2 & ->) & -> & ->).
      exists (t2 + n), (v1 + (f1 + v2))%Z, f2. split; [|split; [cbn [c concatenate fin]; fold n; rewrite mget_shift; exact F2|lia]].
      assert (L : t1 < n) by exact (proj2 (proj2 SG) t1 f1 F1).
      assert (A : run c t1 ((EPS, EPS) :: l2) (f1 + v2) (t2 + n)).
      { apply (run_cons c t1 (Arc n EPS EPS f1)); [|exact (c_run_second 0 l2 v2 t2 R2)].
        rewrite c_first by exact L. apply in_app_iff. right. unfold finw. rewrite F1. left. reflexivity. }
      assert (B : run c 0 l1 v1 t1) by exact (c_run_first 0 l1 v1 t1 R1 N).
      clear -A B. revert A. induction B as [s|s a l w t Ha B IH]; intros A; [exact A|].
      cbn [app]. replace (wt a + w + (f1 + v2))%Z with (wt a + (w + (f1 + v2)))%Z by lia. constructor; auto.
  Qed.
  Hypothesis SH : structure_ok h.
  Lemma concatenate_structure : structure_ok c.
  Proof using SG SH.
    assert (Lc : length (sts c) = n + length (sts h)) by (cbn [c concatenate sts]; rewrite app_length, leaving_length, map_length; reflexivity).
    split; [|split].
    - intros E. rewrite E in Lc. destruct SG as (N & _). unfold n in Lc. destruct (sts g); [congruence|simpl in Lc; lia].
    - intros s a Ha. rewrite Lc. assert (H0 : 0 < length (sts h)) by (destruct SH as (N & _); destruct (sts h); [congruence|simpl; lia]).
      destruct (Nat.lt_ge_cases s n) as [L|L].
      + rewrite c_first in Ha by exact L. apply in_app_iff in Ha. destruct Ha as [Ha|Ha].
        * assert (K := proj1 (proj2 SG) s a Ha). fold n in K. lia.
        * destruct (finw g s); [|destruct Ha]. destruct Ha as [<-|[]]. simpl. lia.
      + replace s with (s - n + n) in Ha by lia. rewrite c_second in Ha. apply in_map_iff in Ha. destruct Ha as (b & <- & Hb).
        assert (K := proj1 (proj2 SH) _ b Hb). simpl. lia.
    - intros s w H. apply mget_shift_none in H. destruct H as (u & -> & H). assert (K := proj2 (proj2 SH) u w H). fold n. lia.
  Qed.
  Lemma concatenate_alpha x : In x (alpha c) <-> In x (alpha g) \/ In x (alpha h).
  Proof using. cbn [c concatenate alpha]. rewrite BT_Proofs.add_symbols_alpha. tauto. Qed.
  Lemma concatenate_used x : used c x -> used g x \/ used h x \/ x = EPS.
  Proof using.
    intros (s & a & Ha & Hx). destruct (Nat.lt_ge_cases s n) as [L|L].
    - rewrite c_first in Ha by exact L. apply in_app_iff in Ha. destruct Ha as [Ha|Ha]; [left; exists s, a; auto|].
      right. right. destruct (finw g s); [|destruct Ha]. destruct Ha as [<-|[]]. simpl in Hx. tauto.
    - replace s with (s - n + n) in Ha by lia. rewrite c_second in Ha. apply in_map_iff in Ha. destruct Ha as (b & <- & Hb).
      right. left. exists (s - n), b. auto.
  Qed.
End Concat.

(** * Boundaries *)
Lemma in_alpha x g : smem bcmp x (alpha g) = true -> In x (alpha g).
Proof. apply (smem_In bcmp bcmp_eq). Qed.
Lemma used_label g s a : In a (nth s (sts g) []) -> used g (isy a) /\ used g (osy a).
Proof. intros H. split; exists s, a; auto. Qed.
Lemma symbols_of_used g : symbols_ok g <-> forall x, used g x -> In x (alpha g).
Proof.
  split.
  - intros S x (s & a & Ha & Hx). destruct (S s a Ha) as [A1 A2]. destruct Hx as [-> | ->]; assumption.
  - intros U s a Ha. destruct (used_label g s a Ha). split; apply U; assumption.
Qed.
Lemma boundary_structure : structure_ok boundary.
Proof.
  split; [discriminate|]. split.
  - intros [|[|[|s]]] a H; simpl in H; try destruct H as [<-|[]]; try destruct H; simpl; lia.
  - intros s w H. apply (mget_In _ Nat.compare_eq_iff) in H. destruct H as [H|[]]. injection H as <- <-. simpl. lia.
Qed.
Lemma boundary_accepts l w : accepts boundary l w <-> l = [(EPS, BND)] /\ w = 0%Z.
Proof.
  split.
  - intros (t & v & f & R & F & ->). inversion R as [|s a l' w' t' Ha R']; subst; [discriminate|].
    destruct Ha as [<-|[]]. cbn [tgt isy osy wt] in *. inversion R' as [|s a l2 w2 t2 Ha2 R2]; subst; [|destruct Ha2].
    injection F as <-. auto.
  - intros [-> ->]. exists 1, 0%Z, 0%Z. split; [|auto]. apply (run_cons boundary 0 (Arc 1 EPS BND 0) [] 0%Z 1); [left; reflexivity|constructor].
Qed.
Lemma boundary_used x : used boundary x -> x = EPS \/ x = BND.
Proof. intros ([|[|[|s]]] & a & H & Hx); simpl in H; try destruct H as [<-|[]]; try destruct H. exact Hx. Qed.
Lemma add_symbol_structure g x : structure_ok g -> structure_ok (add_symbol g x).
Proof. intros S. exact S. Qed.
Definition wrapped_word (l : list (bstr * bstr)) : list (bstr * bstr) := (EPS, BND) :: (EPS, EPS) :: l ++ [(EPS, EPS); (EPS, BND)].
Lemma with_boundaries_accepts g l w : structure_ok g -> accepts (with_boundaries g) l w <-> exists m, accepts g m w /\ l = wrapped_word m.
Proof.
  intros S. unfold with_boundaries. rewrite concatenate_accepts by (apply concatenate_structure; [exact boundary_structure|exact S]). split.
  - intros (l1 & w1 & l2 & w2 & A1 & A2 & -> & ->). apply (concatenate_accepts _ _ boundary_structure) in A1.
    destruct A1 as (l3 & w3 & l4 & w4 & A3 & A4 & -> & ->). apply boundary_accepts in A2, A3. destruct A2 as [-> ->], A3 as [-> ->].
    exists l4. split; [replace (0 + w4 + 0)%Z with w4 by lia; apply (accepts_same g (add_symbol g BND)); auto|]. unfold wrapped_word. rewrite <- app_assoc. reflexivity.
  - intros (m & A & ->). exists ((EPS, BND) :: (EPS, EPS) :: m), w, [(EPS, BND)], 0%Z.
    split; [|split; [apply boundary_accepts; auto|split; [reflexivity|lia]]].
    apply (concatenate_accepts _ _ boundary_structure). exists [(EPS, BND)], 0%Z, m, w.
    split; [apply boundary_accepts; auto|]. split; [apply (accepts_same g (add_symbol g BND)); auto|]. split; [reflexivity|lia].
Qed.
Lemma with_boundaries_used g x : used (with_boundaries g) x -> used g x \/ x = EPS \/ x = BND.
Proof.
  intros U. apply concatenate_used in U. destruct U as [U|[U|U]]; [|apply boundary_used in U; tauto|tauto].
  apply concatenate_used in U. destruct U as [U|[U|U]]; [apply boundary_used in U; tauto|left; exact U|tauto].
Qed.
Lemma with_boundaries_alpha g x : In x (alpha (with_boundaries g)) <-> In x (alpha boundary) \/ x = BND \/ In x (alpha g).
Proof.
  unfold with_boundaries. rewrite !concatenate_alpha. unfold add_symbol. cbn [alpha with_alpha]. rewrite (In_sadd bcmp bcmp_eq). tauto.
Qed.
Lemma boundary_alpha x : In x (alpha boundary) <-> special x \/ x = BND.
Proof.
  cbn [boundary alpha]. unfold initialize_alphabet. rewrite !(In_sadd bcmp bcmp_eq). unfold special, IDN, UNK, EPS. simpl In. intuition congruence.
Qed.
Lemma with_boundaries_wf g : well_formed g -> well_formed (with_boundaries g).
Proof.
  intros (S & Y & P). split; [|split].
  - apply concatenate_structure; [apply concatenate_structure; [exact boundary_structure|exact S]|exact boundary_structure].
  - apply symbols_of_used. intros x U. apply with_boundaries_alpha. rewrite boundary_alpha. apply with_boundaries_used in U.
    destruct U as [U|[->| ->]]; [right; right; apply (proj1 (symbols_of_used g) Y x U)|left; left; left; reflexivity|tauto].
  - repeat split; apply with_boundaries_alpha; left; apply boundary_alpha; unfold special; auto.
Qed.

(** * Harmonization of a closed lexicon *)
Lemma no_empty_of g : no_empty_symbol g <-> ~ In [] (alpha g) /\ ~ used g [].
Proof.
  split.
  - intros (A & H). split; [exact A|]. intros (s & a & Ha & Hx). destruct (H s a Ha). destruct Hx; congruence.
  - intros (A & U). split; [exact A|]. intros s a Ha. destruct (used_label g s a Ha). split; intros E; apply U; rewrite <- E; assumption.
Qed.
Lemma closed_paired g : closed g -> identities_paired g.
Proof. intros C s a Ha. destruct (used_label g s a Ha) as [U1 U2]. apply C in U1, U2. intuition congruence. Qed.
Lemma grown_none new m g : (forall s a, In a (nth s (sts g) []) -> new m a = []) -> sts (grown new m g) = sts g.
Proof.
  intros H. unfold grown. cbn [sts with_sts]. rewrite <- (map_id (sts g)) at 2. apply map_ext_in. intros l Hl.
  apply (In_nth _ _ []) in Hl. destruct Hl as (s & _ & <-).
  assert (E : flat_map (new m) (nth s (sts g) []) = []); [|rewrite E; apply app_nil_r].
  specialize (H s). induction (nth s (sts g) []) as [|a l IH]; [reflexivity|]. cbn [flat_map].
  rewrite H by (left; reflexivity). apply IH. intros b Hb. apply H. right. exact Hb.
Qed.
Lemma harmonize_closed r g : specials_ok r -> identities_paired r -> no_empty_symbol r -> specials_ok g -> closed g -> no_empty_symbol g ->
  exists h1 h2, harmonize r g = Ok (h1, h2) /\ sts h2 = sts g /\ fin h2 = fin g /\ forall x, In x (alpha h2) <-> In x (alpha r) \/ In x (alpha g).
Proof.
  intros S1 P1 N1 S2 C N2. destruct (harmonize_ok r g S1 S2 P1 (closed_paired g C) N1 N2) as (al1 & al2 & E & A1 & A2).
  eexists _, _. split; [exact E|]. split; [|split; [reflexivity|exact A2]]. cbn [harmonized sts with_alpha].
  assert (F : sts (grown id_new (t1_minus_t2 r g) g) = sts g).
  { apply grown_none. intros s a Ha. destruct (used_label g s a Ha) as [U1 U2]. apply C in U1. unfold id_new.
    destruct (bstr_eqb_spec (isy a) IDN); [destruct U1; contradiction|reflexivity]. }
  rewrite grown_none; [exact F|]. intros s a Ha. rewrite F in Ha. destruct (used_label g s a Ha) as [U1 U2]. apply C in U1, U2. unfold unk_new.
  destruct (bstr_eqb_spec (isy a) UNK); [destruct U1; contradiction|]. destruct (bstr_eqb_spec (osy a) UNK); [destruct U2; contradiction|]. reflexivity.
Qed.

(** * Symbols put in and out *)
Lemma map_map_id (f : arc -> arc) ls : (forall l a, In l ls -> In a l -> f a = a) -> map (map f) ls = ls.
Proof.
  intros H. rewrite <- (map_id ls) at 2. apply map_ext_in. intros l Hl. rewrite <- (map_id l) at 2. apply map_ext_in. intros a Ha. exact (H l a Hl Ha).
Qed.
Lemma substitute_unused old new g : old <> [] -> new <> [] -> ~ used g old ->
  exists g', substitute_symbol old new true true g = Ok g' /\ sts g' = sts g /\ fin g' = fin g
    /\ (forall x, In x (alpha g') -> In x (alpha g) \/ x = new) /\ (forall x, In x (alpha g) -> x <> old \/ special old -> In x (alpha g')).
Proof.
  intros N1 N2 U. unfold substitute_symbol. rewrite !valid_ne by assumption. cbn [negb orb].
  destruct (bstr_eqb_spec old new) as [->|Ne]; [exists g; repeat split; auto|].
  destruct (smem bcmp old (alpha g)) eqn:M; cbn [negb]; [|exists g; repeat split; auto].
  eexists. split; [reflexivity|]. cbn [andb].
  set (g1 := if negb (is_reserved old) then remove_symbol g old else g).
  assert (E1 : sts g1 = sts g /\ fin g1 = fin g) by (unfold g1; destruct (negb _); auto).
  assert (A1 : (forall x, In x (alpha g1) -> In x (alpha g)) /\ forall x, In x (alpha g) -> x <> old \/ special old -> In x (alpha g1)).
  { unfold g1. destruct (is_reserved old) eqn:R; cbn [negb]; [auto|]. unfold remove_symbol. cbn [alpha with_alpha].
    split; intros x; rewrite (In_sdel bcmp bcmp_eq); [tauto|]. intros Hx [K|K]; [tauto|exfalso].
    unfold is_reserved in R. apply orb_false_iff in R. destruct R as [R R3]. apply orb_false_iff in R. destruct R as [R1 R2].
    destruct (bstr_eqb_spec old EPS), (bstr_eqb_spec old UNK), (bstr_eqb_spec old IDN); try discriminate. destruct K as [K|[K|K]]; contradiction. }
  set (b := existsb _ _). clearbody b.
  assert (E3 : forall g3, g3 = (if b then add_symbol (add_symbol g1 new) new else add_symbol g1 new) ->
    sts g3 = sts g /\ fin g3 = fin g /\ (forall x, In x (alpha g3) <-> In x (alpha g1) \/ x = new)).
  { intros g3 ->. destruct b; unfold add_symbol; cbn [sts fin alpha with_alpha]; (split; [apply E1|]); (split; [apply E1|]);
      intros x; rewrite !(In_sadd bcmp bcmp_eq); tauto. }
  destruct (E3 _ eq_refl) as (Es & Ef & Ea). cbn [sts fin alpha with_sts]. rewrite Es, Ef. split; [|split; [reflexivity|]].
  - apply map_map_id. intros l a Hl Ha. apply (In_nth _ _ []) in Hl. destruct Hl as (s & _ & <-). destruct (used_label g s a Ha) as [U1 U2].
    unfold subst_symbol_arc. cbn [andb]. destruct (bstr_eqb_spec (isy a) old) as [e|_]; [rewrite e in U1; contradiction|].
    destruct (bstr_eqb_spec (osy a) old) as [e|_]; [rewrite e in U2; contradiction|]. destruct a; reflexivity.
  - split; intros x Hx; [apply Ea in Hx; destruct Hx as [Hx|Hx]; [left; apply A1; exact Hx|auto]|]. intros K. apply Ea. left. apply A1; assumption.
Qed.
Lemma used_same g g' : sts g' = sts g -> forall x, used g' x <-> used g x.
Proof. intros E x. unfold used. rewrite E. reflexivity. Qed.
Lemma structure_same g g' : sts g' = sts g -> fin g' = fin g -> structure_ok g -> structure_ok g'.
Proof. intros E F (S1 & S2 & S3). unfold structure_ok. rewrite E, F. auto. Qed.
Lemma hide_closed g : well_formed g -> closed g -> exists g', hide g = Ok g' /\ sts g' = sts g /\ fin g' = fin g /\ well_formed g'.
Proof.
  intros (S & Y & P) C. assert (U1 : ~ used g IDN) by (intros U; apply C in U; destruct U as [_ K]; apply K; reflexivity).
  assert (U2 : ~ used g UNK) by (intros U; apply C in U; destruct U as [K _]; apply K; reflexivity).
  destruct (substitute_unused IDN MIDN g) as (g1 & E1 & Es1 & Ef1 & _ & A1); [discriminate|discriminate|exact U1|].
  destruct (substitute_unused UNK MUNK g1) as (g2 & E2 & Es2 & Ef2 & _ & A2); [discriminate|discriminate|rewrite (used_same g g1 Es1); exact U2|].
  exists g2. unfold hide. rewrite E1. cbn [rbind]. split; [exact E2|]. split; [congruence|]. split; [congruence|].
  assert (A : forall x, In x (alpha g) -> In x (alpha g2)).
  { intros x Hx. apply A2; [apply A1; [exact Hx|]|]; right; unfold special; auto. }
  split; [|split].
  - apply (structure_same g); [congruence|congruence|exact S].
  - apply symbols_of_used. intros x U. apply A. apply (proj1 (symbols_of_used g) Y). apply (used_same g g2); [congruence|exact U].
  - destruct P as (P1 & P2 & P3). split; [|split]; apply A; assumption.
Qed.
(** A substitution whose symbol is on no accepted path changes no path. *)
Lemma substitute_absent old new g : old <> [] -> new <> [] -> (forall l w p, accepts g l w -> In p l -> fst p <> old /\ snd p <> old) ->
  exists g', substitute_symbol old new true true g = Ok g' /\ (structure_ok g -> structure_ok g') /\ forall l w, accepts g' l w <-> accepts g l w.
Proof.
  intros N1 N2 U. unfold substitute_symbol. rewrite !valid_ne by assumption. cbn [negb orb].
  destruct (bstr_eqb_spec old new) as [->|Ne]; [exists g; split; [reflexivity|]; split; [auto|]; reflexivity|].
  destruct (smem bcmp old (alpha g)) eqn:M; cbn [negb]; [|exists g; split; [reflexivity|]; split; [auto|]; reflexivity].
  eexists. split; [reflexivity|]. match goal with |- context [with_sts ?x _] => set (g3 := x) end.
  assert (E3 : sts g3 = sts g /\ fin g3 = fin g) by (unfold g3; destruct (existsb _ _), (true && _ && _); auto).
  destruct E3 as (Es & Ef). split.
  - intros (S1 & S2 & S3). unfold structure_ok. cbn [sts fin with_sts]. rewrite Es, Ef, map_length. split; [|split; [|exact S3]].
    + destruct (sts g); [congruence|discriminate].
    + intros s a Ha. rewrite nth_map_nil in Ha by reflexivity. apply in_map_iff in Ha. destruct Ha as (b & <- & Hb). exact (S2 s b Hb).
  - intros l w. rewrite (accepts_relabelled (replace_on_sides old new true true) g).
    + assert (I : forall m v, accepts g m v -> map (replace_on_sides old new true true) m = m).
      { intros m v A. apply map_id_in. intros [x y] Hp. destruct (U m v (x, y) A Hp) as [K1 K2]. simpl in K1, K2. unfold replace_on_sides. cbn [fst snd].
        destruct (bstr_eq_dec x old); [contradiction|]. destruct (bstr_eq_dec y old); [contradiction|]. reflexivity. }
      split; [intros (m & A & ->); rewrite (I m w A); exact A|]. intros A. exists l. rewrite (I l w A). auto.
    + exact Ef.
    + intros s. cbn [sts with_sts]. rewrite nth_map_nil by reflexivity. rewrite Es. apply map_ext. intros a.
      unfold subst_symbol_arc, relabel, replace_on_sides, label. cbn [fst snd]. rewrite !replace_side_eqb. reflexivity.
Qed.
Lemma unhide_absent g : (forall l w p, accepts g l w -> In p l -> forall x, reserved_name x -> fst p <> x /\ snd p <> x) ->
  exists g', unhide g = Ok g' /\ (structure_ok g -> structure_ok g') /\ forall l w, accepts g' l w <-> accepts g l w.
Proof.
  intros U. destruct (substitute_absent MIDN IDN g) as (g1 & E1 & S1 & A1); [discriminate|discriminate|intros l w p A Hp; apply (U l w p A Hp); left; reflexivity|].
  destruct (substitute_absent MUNK UNK g1) as (g2 & E2 & S2 & A2); [discriminate|discriminate|intros l w p A Hp; apply A1 in A; apply (U l w p A Hp); right; reflexivity|].
  exists g2. unfold unhide. rewrite E1. cbn [rbind]. split; [exact E2|]. split; [auto|]. intros l w. rewrite A2. apply A1.
Qed.
Lemma prune_same force g : sts (prune_alphabet force g) = sts g /\ fin (prune_alphabet force g) = fin g.
Proof. unfold prune_alphabet. destruct (_ && _); auto. Qed.

(** * Epsilon:epsilon steps in joined paths *)
Lemma bare_app l m : bare (l ++ m) = bare l ++ bare m.
Proof. apply filter_app. Qed.
Lemma silent_iff p : silent p = true <-> p = (EPS, EPS).
Proof.
  unfold silent. destruct p as [x y]. cbn [fst snd]. rewrite andb_true_iff, !bstr_eqb_eq. unfold epsilon, EPS. split; [intros [-> ->]; reflexivity|intros H; injection H; auto].
Qed.
Lemma unseen_epsilon T : unseen T EPS.
Proof. left. reflexivity. Qed.
Lemma joined_drop T pl pr k : joined T pl pr k -> exists k', joined T (bare pl) pr k' /\ bare k' = bare k.
Proof.
  intros J. induction J as [|i o pl pr l U J (k' & IH & E)|i x y pl pr l U J (k' & IH & E)|y pl pr l J (k' & IH & E)].
  - exists []. split; [constructor|reflexivity].
  - unfold bare. cbn [filter]. destruct (silent (i, o)) eqn:S; cbn [negb].
    + exists k'. auto.
    + exists ((i, o) :: k'). split; [apply joined_lexicon; assumption|]. cbn [filter]. rewrite S. cbn [negb]. f_equal. exact E.
  - unfold bare at 1. cbn [filter]. destruct (silent (i, x)) eqn:S; cbn [negb].
    + apply silent_iff in S. injection S as -> ->. destruct (U (unseen_epsilon T)).
    + exists ((i, y) :: k'). split; [apply joined_both; assumption|]. unfold bare. cbn [filter]. destruct (silent (i, y)); cbn [negb]; [exact E|f_equal; exact E].
  - exists ((B "@_EPSILON_SYMBOL_@", y) :: k'). split; [apply joined_rules; assumption|]. unfold bare. cbn [filter].
    destruct (silent _); cbn [negb]; [exact E|f_equal; exact E].
Qed.
Lemma joined_add T pl pr k : joined T (bare pl) pr k -> exists k', joined T pl pr k' /\ bare k' = bare k.
Proof.
  intros J. remember (bare pl) as b eqn:E. revert pl E.
  assert (Sil : forall pl p b', p :: b' = bare pl -> exists e pl', pl = e ++ p :: pl' /\ b' = bare pl' /\ Forall (fun p => p = (EPS, EPS)) e).
  { intros pl. induction pl as [|q pl IH]; intros p b' E; [discriminate|]. unfold bare in E. cbn [filter] in E. destruct (silent q) eqn:S; cbn [negb] in E.
    - destruct (IH p b' E) as (e & pl' & -> & E' & F). exists (q :: e), pl'. apply silent_iff in S. split; [reflexivity|]. split; [exact E'|constructor; assumption].
    - injection E as -> ->. exists [], pl. split; [reflexivity|]. split; [reflexivity|constructor]. }
  assert (Pad : forall e, Forall (fun p => p = (EPS, EPS)) e -> forall pl pr k, joined T pl pr k -> joined T (e ++ pl) pr (e ++ k) /\ bare (e ++ k) = bare k).
  { intros e F. induction F as [|p e -> F IH]; intros pl pr' k' J'; [split; [exact J'|reflexivity]|]. destruct (IH pl pr' k' J') as [J2 E2]. cbn [app].
    split; [apply joined_lexicon; [apply unseen_epsilon|exact J2]|]. unfold bare. cbn [filter]. exact E2. }
  induction J as [|i o pl0 pr l U J IH|i x y pl0 pr l U J IH|y pl0 pr l J IH]; intros pl E.
  - exists pl. assert (F : Forall (fun p => p = (EPS, EPS)) pl).
    { apply Forall_forall. intros p Hp. destruct (silent p) eqn:S; [apply silent_iff; exact S|exfalso].
      assert (K : In p (bare pl)) by (apply filter_In; rewrite S; auto). rewrite <- E in K. destruct K. }
    destruct (Pad pl F [] [] [] (joined_nil T)) as [J E2]. rewrite app_nil_r in J, E2. auto.
  - destruct (Sil pl _ _ E) as (e & pl' & -> & E' & F). destruct (IH pl' E') as (k' & J' & B').
    destruct (Pad e F ((i, o) :: pl') pr ((i, o) :: k') (joined_lexicon T i o pl' pr k' U J')) as [J2 E2]. eexists. split; [exact J2|].
    rewrite E2. unfold bare. cbn [filter]. destruct (silent (i, o)); cbn [negb]; [exact B'|f_equal; exact B'].
  - destruct (Sil pl _ _ E) as (e & pl' & -> & E' & F). destruct (IH pl' E') as (k' & J' & B').
    destruct (Pad e F ((i, x) :: pl') ((x, y) :: pr) ((i, y) :: k') (joined_both T i x y pl' pr k' U J')) as [J2 E2]. eexists. split; [exact J2|].
    rewrite E2. unfold bare. cbn [filter]. destruct (silent (i, y)); cbn [negb]; [exact B'|f_equal; exact B'].
  - destruct (IH pl E) as (k' & J' & B'). eexists. split; [apply joined_rules; exact J'|]. unfold bare. cbn [filter].
    destruct (silent _); cbn [negb]; [exact B'|f_equal; exact B'].
Qed.
Lemma joined_bare T pl pl' pr k : bare pl = bare pl' -> joined T pl pr k -> exists k', joined T pl' pr k' /\ bare k' = bare k.
Proof.
  intros E J. destruct (joined_drop T pl pr k J) as (k1 & J1 & B1). rewrite E in J1. destruct (joined_add T pl' pr k1 J1) as (k2 & J2 & B2).
  exists k2. split; [exact J2|congruence].
Qed.

(** * The symbols of joined paths *)
Lemma rules_known T : every (fun g => well_formed g /\ one_identity g) T -> forall l w, rules_accept T l w ->
  forall p, In p l -> fst p = snd p \/ knows T (snd p).
Proof.
  intros U l w (q & v & f & F & _) p Hp. clear f w. induction F as [q|q x y w q' l v u R F IH]; [destruct Hp|].
  destruct Hp as [<-|Hp]; [|exact (IH Hp)]. cbn [fst snd]. clear F IH.
  revert U. induction R as [g s a Ha _|g s a z Ha _ N|r1 r2 p1 p2 x y w1 w2 q1 q2 R1 IH1 R2 IH2]; intros U.
  - right. destruct U as ((_ & Y & _) & _). exact (proj2 (Y s a Ha)).
  - left. reflexivity.
  - destruct U as [U1 U2]. destruct (IH1 U1) as [E|K]; [left; exact E|right; left; exact K].
Qed.
Lemma joined_symbols T pl pr k : joined T pl pr k -> (forall p, In p pr -> fst p = snd p \/ knows T (snd p)) ->
  forall p, In p k -> (fst p = EPS \/ exists q, In q pl /\ fst p = fst q) /\ (snd p = EPS \/ knows T (snd p) \/ exists q, In q pl /\ snd p = snd q).
Proof.
  intros J. induction J as [|i o pl pr l U J IH|i x y pl pr l U J IH|y pl pr l J IH]; intros K p Hp.
  - destruct Hp.
  - destruct Hp as [<-|Hp]; cbn [fst snd]; [split; [right|right; right]; exists (i, o); (split; [left; reflexivity|reflexivity])|].
    destruct (IH K p Hp) as [[E|(q & Hq & E)] [E2|[E2|(q2 & Hq2 & E2)]]]; split; eauto 6 using in_cons.
  - assert (K' : forall p, In p pr -> fst p = snd p \/ knows T (snd p)) by (intros p' H'; apply K; right; exact H').
    destruct Hp as [<-|Hp]; cbn [fst snd].
    + split; [right; exists (i, x); split; [left; reflexivity|reflexivity]|]. destruct (K (x, y) (or_introl eq_refl)) as [E|E]; cbn [fst snd] in E; [|auto].
      right. right. exists (i, x). split; [left; reflexivity|symmetry; exact E].
    + destruct (IH K' p Hp) as [[E|(q & Hq & E)] [E2|[E2|(q2 & Hq2 & E2)]]]; split; eauto 6 using in_cons.
  - assert (K' : forall p, In p pr -> fst p = snd p \/ knows T (snd p)) by (intros p' H'; apply K; right; exact H').
    destruct Hp as [<-|Hp]; cbn [fst snd].
    + split; [left; reflexivity|]. destruct (K _ (or_introl eq_refl)) as [E|E]; cbn [fst snd] in E; [left; symmetry; exact E|auto].
    + exact (IH K' p Hp).
Qed.
