(** The operations of the back end exist: constructions that have their meaning. *)
From Verif Require Import Base Flags_Model BT_Model BT_Spec BT_Proofs BT_Proofs3 Harm_Spec Co_Spec Co_Model Co_Proofs PU_Spec PU_Model PU_Proofs.

(** * Transducers given by functions *)
Section Build.
  Variable n : nat.
  Variable A : nat -> list arc.
  Variable F : nat -> option Z.
  Variable al : list bstr.
  Hypothesis Hn : 0 < n.
  Hypothesis HA : forall s a, s < n -> In a (A s) -> tgt a < n.
  Definition built : graph := Graph (map A (seq 0 n)) (flat_map (fun k => match F k with Some f => [(k, f)] | None => [] end) (seq 0 n)) al.
  Lemma built_nth k : nth k (sts built) [] = if k <? n then A k else [].
  Proof.
    cbn [built sts]. destruct (k <? n) eqn:L; [apply Nat.ltb_lt in L|apply Nat.ltb_ge in L].
    - rewrite nth_indep with (d' := A 0) by (rewrite map_length, seq_length; exact L). rewrite map_nth, seq_nth by exact L. reflexivity.
    - apply nth_overflow. rewrite map_length, seq_length. exact L.
  Qed.
  Lemma built_arcs k : k < n -> nth k (sts built) [] = A k.
  Proof. intros L. rewrite built_nth, (proj2 (Nat.ltb_lt k n) L). reflexivity. Qed.
  Lemma mget_seq' k m j : mget Nat.compare k (flat_map (fun k => match F k with Some f => [(k, f)] | None => [] end) (seq m j)) = if (m <=? k) && (k <? m + j) then F k else None.
  Proof.
    revert m. induction j as [|j IH]; intros m; cbn [seq flat_map].
    - cbn [mget]. destruct (m <=? k) eqn:L1; [|reflexivity]. destruct (k <? m + 0) eqn:L2; [|reflexivity]. apply Nat.leb_le in L1. apply Nat.ltb_lt in L2. lia.
    - assert (E : mget Nat.compare k (match F m with Some f => [(m, f)] | None => [] end ++ flat_map (fun k => match F k with Some f => [(k, f)] | None => [] end) (seq (S m) j)) =
        if k =? m then F m else mget Nat.compare k (flat_map (fun k => match F k with Some f => [(k, f)] | None => [] end) (seq (S m) j))).
      { destruct (F m) as [f|] eqn:E; cbn [app mget].
        - destruct (k =? m) eqn:K; [apply Nat.eqb_eq in K; subst; rewrite Nat.compare_refl; reflexivity|]. apply Nat.eqb_neq in K.
          destruct (Nat.compare k m) eqn:C; [apply Nat.compare_eq in C; congruence|reflexivity..].
        - destruct (k =? m) eqn:K; [|reflexivity]. apply Nat.eqb_eq in K. subst k. rewrite IH. destruct (S m <=? m) eqn:L; [apply Nat.leb_le in L; lia|reflexivity]. }
      rewrite E, IH. destruct (Nat.eqb_spec k m) as [->|N].
      + rewrite Nat.leb_refl. rewrite (proj2 (Nat.ltb_lt m (m + S j))) by lia. reflexivity.
      + destruct (Nat.leb_spec (S m) k), (Nat.leb_spec m k); try lia; try reflexivity. cbn [andb]. replace (S m + j) with (m + S j) by lia. reflexivity.
  Qed.
  Lemma built_fin k : mget Nat.compare k (fin built) = if k <? n then F k else None.
  Proof. cbn [built fin]. rewrite mget_seq'. reflexivity. Qed.
  Lemma built_structure : structure_ok built.
  Proof using Hn HA.
    split; [cbn [built sts]; destruct n; [lia|discriminate]|]. assert (L : length (sts built) = n) by (cbn [built sts]; rewrite map_length; apply seq_length). rewrite L. split.
    - intros s a Ha. rewrite built_nth in Ha. destruct (s <? n) eqn:E; [|destruct Ha]. apply Nat.ltb_lt in E. exact (HA s a E Ha).
    - intros s w H. rewrite built_fin in H. destruct (s <? n) eqn:E; [apply Nat.ltb_lt, E|discriminate].
  Qed.
  Lemma built_accepts l w : accepts built l w <-> exists t v f, run built 0 l v t /\ t < n /\ F t = Some f /\ w = (v + f)%Z.
  Proof using Hn HA.
    unfold accepts. split; intros (t & v & f & R & H); exists t, v, f; (split; [exact R|]); rewrite built_fin in *.
    - destruct (t <? n) eqn:E; [apply Nat.ltb_lt in E|destruct H; discriminate]. tauto.
    - destruct H as (L & H & E). rewrite (proj2 (Nat.ltb_lt t n) L). auto.
  Qed.
End Build.

(** * Optimisation *)
Lemma optimised_exists g : structure_ok g -> optimised g g.
Proof.
  intros S. split; [split; [exact S|]|split; [reflexivity|split; [auto|]]].
  - intros s a Ha. right. exists g, s, a. split; [left; reflexivity|auto].
  - intros l w H. exists w. split; [exact H|lia].
Qed.

(** * All sequences *)
Lemma any_sequence_exists ps al : (forall p, In p ps -> p <> EE) -> exists m, any_sequence ps m /\ alpha m = al.
Proof.
  intros NE. set (A := fun _ : nat => map (fun p => Arc 0 (fst p) (snd p) 0) ps). set (F := fun _ : nat => Some 0%Z).
  assert (HA : forall s a, s < 1 -> In a (A s) -> tgt a < 1) by (intros s a _ Ha; apply in_map_iff in Ha; destruct Ha as (p & <- & _); cbn; lia).
  assert (H1 : 0 < 1) by lia. exists (built 1 A F al). split; [|reflexivity]. split; [exact (built_structure 1 A F al H1 HA)|]. split.
  - intros s a Ha. rewrite built_nth in Ha. destruct (s <? 1); [|destruct Ha]. apply in_map_iff in Ha. destruct Ha as ([x y] & <- & Hp). right. exact Hp.
  - assert (R : forall l w t, run (built 1 A F al) 0 l w t <-> Forall (fun p => In p ps) l /\ w = 0%Z /\ t = 0).
    { induction l as [|[x y] l IH]; intros w t.
      - split; [intros R; inversion R; subst; split; [constructor|auto]|]. intros (_ & -> & ->). constructor.
      - split.
        + intros R. inversion R as [|s a l' v u Ha R']; subst. rewrite built_arcs in Ha by lia. apply in_map_iff in Ha. destruct Ha as (p & <- & Hp). cbn [tgt isy osy wt] in *.
          apply IH in R'. destruct R' as (Fl & -> & ->). split; [constructor; [destruct p; exact Hp|exact Fl]|auto].
        + intros (Fl & -> & ->). inversion Fl as [|? ? Hp Fl']; subst. change 0%Z with (0 + 0)%Z. apply (run_cons _ 0 (Arc 0 x y 0)).
          * rewrite built_arcs by lia. apply in_map_iff. exists (x, y). auto.
          * cbn [tgt]. apply IH. auto. }
    intros l w. unfold label_string. split.
    + intros (c & Ac & ->). apply built_accepts in Ac; [|assumption..]. destruct Ac as (t & v & f & Rc & _ & Ef & ->). apply R in Rc. destruct Rc as (Fc & -> & ->). injection Ef as <-.
      split; [apply Forall_we, Fc|reflexivity].
    + intros [Fl ->]. exists l. split.
      * apply built_accepts; [assumption..|]. exists 0, 0%Z, 0%Z. split; [apply R; auto|]. split; [lia|auto].
      * symmetry. apply we_none. rewrite Forall_forall in Fl. auto.
Qed.

(** * Union *)
Section Union.
  Variables g1 g2 : graph.
  Hypothesis S1 : structure_ok g1.
  Hypothesis S2 : structure_ok g2.
  Let n1 := length (sts g1).
  Let n2 := length (sts g2).
  Definition shift (k : nat) (a : arc) : arc := Arc (k + tgt a) (isy a) (osy a) (wt a).
  Definition uarcs (s : nat) : list arc :=
    if s =? 0 then [Arc 1 EPS EPS 0; Arc (1 + n1) EPS EPS 0]
    else if s <? 1 + n1 then map (shift 1) (nth (s - 1) (sts g1) [])
    else map (shift (1 + n1)) (nth (s - (1 + n1)) (sts g2) []).
  Definition ufin (s : nat) : option Z :=
    if s =? 0 then None else if s <? 1 + n1 then mget Nat.compare (s - 1) (fin g1) else mget Nat.compare (s - (1 + n1)) (fin g2).
  Definition union_of : graph := built (1 + n1 + n2) uarcs ufin (alpha g1).
  Lemma upos : 0 < 1 + n1 + n2. Proof. lia. Qed.
  Lemma utgt s a : s < 1 + n1 + n2 -> In a (uarcs s) -> tgt a < 1 + n1 + n2.
  Proof using S1 S2.
    intros L Ha. pose proof (structure_zero g2 S2) as Z2. fold n2 in Z2. unfold uarcs in Ha. destruct (s =? 0); [destruct Ha as [<-|[<-|[]]]; cbn [tgt]; lia|]. destruct (s <? 1 + n1).
    - apply in_map_iff in Ha. destruct Ha as (b & <- & Hb). apply (proj1 (proj2 S1)) in Hb. fold n1 in Hb. cbn [shift tgt]. lia.
    - apply in_map_iff in Ha. destruct Ha as (b & <- & Hb). apply (proj1 (proj2 S2)) in Hb. fold n2 in Hb. cbn [shift tgt]. lia.
  Qed.
  Lemma uarcs1 s : s < n1 -> nth (1 + s) (sts union_of) [] = map (shift 1) (nth s (sts g1) []).
  Proof. intros L. unfold union_of. rewrite built_arcs by lia. unfold uarcs. cbn [Nat.eqb plus]. rewrite (proj2 (Nat.ltb_lt (S s) (S n1))) by lia. replace (S s - 1) with s by lia. reflexivity. Qed.
  Lemma uarcs2 s : s < n2 -> nth (1 + n1 + s) (sts union_of) [] = map (shift (1 + n1)) (nth s (sts g2) []).
  Proof.
    intros L. unfold union_of. rewrite built_arcs by lia. unfold uarcs. cbn [Nat.eqb plus]. rewrite (proj2 (Nat.ltb_ge (S (n1 + s)) (S n1))) by lia.
    replace (S (n1 + s) - S n1) with s by lia. reflexivity.
  Qed.
  Lemma urun1 s l w t : s < n1 -> run union_of (1 + s) l w t <-> exists u, run g1 s l w u /\ t = 1 + u.
  Proof using S1.
    intros L. split.
    - remember (1 + s) as q eqn:E. intros R. revert s L E. induction R as [q|q a l w t Ha R IH]; intros s L ->; [exists s; split; [constructor|reflexivity]|].
      rewrite uarcs1 in Ha by exact L. apply in_map_iff in Ha. destruct Ha as (b & <- & Hb). pose proof (proj1 (proj2 S1) _ _ Hb) as L'. fold n1 in L'.
      destruct (IH (tgt b) L' eq_refl) as (u & Ru & ->). exists u. split; [exact (run_cons g1 s b l w u Hb Ru)|reflexivity].
    - intros (u & R & ->). induction R as [s|s a l w t Ha R IH]; [constructor|]. pose proof (proj1 (proj2 S1) _ _ Ha) as L'. fold n1 in L'.
      apply (run_cons union_of (1 + s) (shift 1 a)); [rewrite uarcs1 by exact L; apply in_map, Ha|]. exact (IH L').
  Qed.
  Lemma urun2 s l w t : s < n2 -> run union_of (1 + n1 + s) l w t <-> exists u, run g2 s l w u /\ t = 1 + n1 + u.
  Proof using S2.
    intros L. split.
    - remember (1 + n1 + s) as q eqn:E. intros R. revert s L E. induction R as [q|q a l w t Ha R IH]; intros s L ->; [exists s; split; [constructor|reflexivity]|].
      rewrite uarcs2 in Ha by exact L. apply in_map_iff in Ha. destruct Ha as (b & <- & Hb). pose proof (proj1 (proj2 S2) _ _ Hb) as L'. fold n2 in L'.
      destruct (IH (tgt b) L' eq_refl) as (u & Ru & ->). exists u. split; [exact (run_cons g2 s b l w u Hb Ru)|reflexivity].
    - intros (u & R & ->). induction R as [s|s a l w t Ha R IH]; [constructor|]. pose proof (proj1 (proj2 S2) _ _ Ha) as L'. fold n2 in L'.
      apply (run_cons union_of (1 + n1 + s) (shift (1 + n1) a)); [rewrite uarcs2 by exact L; apply in_map, Ha|]. exact (IH L').
  Qed.
  Lemma ufin1 u : u < n1 -> ufin (1 + u) = mget Nat.compare u (fin g1).
  Proof. intros L. unfold ufin. cbn [Nat.eqb plus]. rewrite (proj2 (Nat.ltb_lt (S u) (S n1))) by lia. f_equal. lia. Qed.
  Lemma ufin2 u : ufin (1 + n1 + u) = mget Nat.compare u (fin g2).
  Proof. unfold ufin. cbn [Nat.eqb plus]. rewrite (proj2 (Nat.ltb_ge (S (n1 + u)) (S n1))) by lia. f_equal. lia. Qed.
  Lemma united_exists : united g1 g2 union_of.
  Proof using S1 S2.
    pose proof (structure_zero g1 S1) as Z1. pose proof (structure_zero g2 S2) as Z2. fold n1 in Z1. fold n2 in Z2.
    split; [split; [apply built_structure; [apply upos|apply utgt]|]|split; [reflexivity|]].
    - intros s a Ha. unfold union_of in Ha. rewrite built_nth in Ha. destruct (s <? 1 + n1 + n2); [|destruct Ha]. unfold uarcs in Ha. destruct (s =? 0); [destruct Ha as [<-|[<-|[]]]; auto|].
      right. destruct (s <? 1 + n1); apply in_map_iff in Ha; destruct Ha as (b & <- & Hb); [exists g1, (s - 1), b|exists g2, (s - (1 + n1)), b]; (split; [simpl; auto|auto]).
    - intros l w. unfold label_string. split.
      + intros (c & Ac & ->). apply built_accepts in Ac; [|apply upos|apply utgt]. destruct Ac as (t & v & f & R & L & Ef & ->). fold union_of in R.
        inversion R as [|s a l v' u Ha R']; subst; [discriminate Ef|]. unfold union_of in Ha. rewrite built_arcs in Ha by lia. cbn in Ha. destruct Ha as [<-|[<-|[]]]; cbn [tgt isy osy wt] in *; rewrite we_empty.
        * left. apply (urun1 0 l v' t Z1) in R'. destruct R' as (u & R' & ->). exists l. split; [|reflexivity]. exists u, v', f. split; [exact R'|]. rewrite ufin1 in Ef by (apply (run_bound _ _ _ _ _ S1 R' Z1)).
          split; [exact Ef|lia].
        * right. replace (S n1) with (1 + n1 + 0) in R' by lia. apply (urun2 0 l v' t Z2) in R'. destruct R' as (u & R' & ->). exists l. split; [|reflexivity]. exists u, v', f. split; [exact R'|]. rewrite ufin2 in Ef.
          split; [exact Ef|lia].
      + intros [(c & (t & v & f & R & Ef & ->) & ->)|(c & (t & v & f & R & Ef & ->) & ->)]; exists (EE :: c); (split; [|rewrite we_empty; reflexivity]); (apply built_accepts; [apply upos|apply utgt|]).
        * exists (1 + t), (0 + v)%Z, f. pose proof (run_bound _ _ _ _ _ S1 R Z1) as L. fold n1 in L. split; [|split; [lia|split; [rewrite ufin1 by exact L; exact Ef|lia]]].
          apply (run_cons union_of 0 (Arc 1 EPS EPS 0)); [unfold union_of; rewrite built_arcs by lia; left; reflexivity|]. apply (urun1 0 c v (1 + t) Z1). eauto.
        * exists (1 + n1 + t), (0 + v)%Z, f. pose proof (run_bound _ _ _ _ _ S2 R Z2) as L. fold n2 in L. split; [|split; [lia|split; [rewrite ufin2; exact Ef|lia]]].
          apply (run_cons union_of 0 (Arc (1 + n1) EPS EPS 0)); [unfold union_of; rewrite built_arcs by lia; right; left; reflexivity|]. cbn [tgt].
          replace (1 + n1) with (1 + n1 + 0) at 1 by lia. apply (urun2 0 c v (1 + n1 + t) Z2). eauto.
  Qed.
End Union.
