(** hfst-expand-equivalences: the expanded transducer. *)
From Verif Require Import Base Flags_Model BT_Model BT_Spec BT_Proofs BT_Proofs2 BT_Proofs3 BT_Proofs4 BT_Proofs5 BT_Props Harm_Model Harm_Spec Harm_Proofs Harm_Props Co_Spec Co_Model Co_Proofs Co_Proofs2 Co_Proofs3 Co_Proofs4 Co_Props PU_Spec PU_Model PU_Proofs PU_Proofs2 PU_Proofs3 PU_Proofs4 PU_Proofs5 PU_Proofs6 PU_Proofs7 EE_Spec EE_Model EE_Proofs.

Lemma variant_not_eps exts a b : all_usable exts -> variant exts a b -> a <> EPS /\ b <> EPS.
Proof.
  intros AU [[<- O]|H].
  - assert (a <> EPS) by (intros ->; apply (proj1 O); unfold special, EPS; auto). auto.
  - unfold all_usable in AU. rewrite Forall_forall in AU. destruct (AU _ H) as [U1 U2]. split; [apply (usable_ne a), U1|apply (usable_ne b), U2].
Qed.
Lemma no_epsilons_id l : Forall (fun x => x <> EPS) l -> no_epsilons l = l.
Proof.
  intros F. induction F as [|x l N F IH]; [reflexivity|]. unfold no_epsilons in *. cbn [filter].
  destruct (bstr_eq_dec x (B "@_EPSILON_SYMBOL_@")) as [E|_]; [contradiction|]. rewrite IH. reflexivity.
Qed.
Lemma star_related exts e y z w : all_usable exts -> star_ok exts e -> related e y z w <-> w = 0%Z /\ Forall2 (variant exts) y z.
Proof.
  intros AU [S I U T]. rewrite related_pairs. split.
  - intros (l & H & -> & ->). apply T in H. destruct H as [-> F]. split; [reflexivity|].
    rewrite !no_epsilons_id.
    + clear - F. induction F as [|p l V F IH]; constructor; assumption.
    + apply Forall_forall. intros x Hx. apply in_map_iff in Hx. destruct Hx as (p & <- & Hp). rewrite Forall_forall in F. apply (variant_not_eps exts _ _ AU (F p Hp)).
    + apply Forall_forall. intros x Hx. apply in_map_iff in Hx. destruct Hx as (p & <- & Hp). rewrite Forall_forall in F. apply (variant_not_eps exts _ _ AU (F p Hp)).
  - intros [-> F]. exists (combine y z).
    assert (E : map fst (combine y z) = y /\ map snd (combine y z) = z /\ Forall (fun p => variant exts (fst p) (snd p)) (combine y z)).
    { induction F as [|a b y z V F (E1 & E2 & E3)]; [repeat split; constructor|]. cbn. rewrite E1, E2. repeat split. constructor; assumption. }
    destruct E as (E1 & E2 & E3). rewrite E1, E2. split; [apply T; auto|].
    split; symmetry; apply no_epsilons_id; apply Forall_forall; intros x Hx.
    + apply In_nth_error in Hx. destruct Hx as (n & Hn). clear E1 E2 E3. revert n Hn. induction F as [|a b y z V F IH]; intros [|n] Hn; try discriminate.
      * injection Hn as <-. apply (variant_not_eps exts _ _ AU V).
      * exact (IH n Hn).
    + apply In_nth_error in Hx. destruct Hx as (n & Hn). clear E1 E2 E3. revert n Hn. induction F as [|a b y z V F IH]; intros [|n] Hn; try discriminate.
      * injection Hn as <-. apply (variant_not_eps exts _ _ AU V).
      * exact (IH n Hn).
Qed.

(** * invert *)
Definition swap (p : bstr * bstr) : bstr * bstr := (snd p, fst p).
Lemma invert_nth g s : nth s (sts (invert g)) [] = map (fun a => Arc (tgt a) (osy a) (isy a) (wt a)) (nth s (sts g) []).
Proof. unfold invert. cbn [with_sts sts]. exact (map_nth (map (fun a => Arc (tgt a) (osy a) (isy a) (wt a))) (sts g) [] s). Qed.
Lemma invert_arc g s a : In a (nth s (sts (invert g)) []) <-> In (Arc (tgt a) (osy a) (isy a) (wt a)) (nth s (sts g) []).
Proof.
  rewrite invert_nth, in_map_iff. split.
  - intros (b & <- & H). cbn. destruct b. exact H.
  - intros H. exists (Arc (tgt a) (osy a) (isy a) (wt a)). split; [destruct a; reflexivity|exact H].
Qed.
Lemma invert_run g s l w t : run (invert g) s l w t <-> run g s (map swap l) w t.
Proof.
  split.
  - intros R. induction R as [s|s a l w t Ha R IH]; [constructor|]. apply invert_arc in Ha. cbn [map swap fst snd].
    exact (run_cons g s (Arc (tgt a) (osy a) (isy a) (wt a)) _ _ _ Ha IH).
  - revert s w. induction l as [|[x y] l IH]; intros s w R; cbn [map swap fst snd] in R.
    + inversion R; subst. constructor.
    + inversion R as [|s' a l' v u Ha R']; subst.
      apply (run_cons (invert g) s (Arc (tgt a) (osy a) (isy a) (wt a))); [|apply IH, R']. apply invert_arc. cbn. destruct a. exact Ha.
Qed.
Lemma swap_swap l : map swap (map swap l) = l.
Proof. rewrite map_map. rewrite <- (map_id l) at 2. apply map_ext. intros []. reflexivity. Qed.
Lemma means_swap al p q : means al p q -> means al (swap p) (swap q).
Proof.
  intros M. destruct M; cbn [swap fst snd].
  - apply means_identity. assumption.
  - apply means_unknowns; auto.
  - apply means_unknown_out; assumption.
  - apply means_unknown_in; assumption.
  - apply means_itself; tauto.
Qed.
Lemma means_swap_all al k l : Forall2 (means al) k l -> Forall2 (means al) (map swap k) (map swap l).
Proof. intros F. induction F; cbn; constructor; [apply means_swap; assumption|assumption]. Qed.
Lemma swap_fst l : map fst (map swap l) = map snd l. Proof. rewrite map_map. reflexivity. Qed.
Lemma swap_snd l : map snd (map swap l) = map fst l. Proof. rewrite map_map. reflexivity. Qed.
Lemma invert_relation g l w : relation g l w -> relation (invert g) (map swap l) w.
Proof.
  intros (m & (t & v & f & R & F & ->) & M). exists (map swap m). split; [|apply means_swap_all, M].
  exists t, v, f. split; [apply invert_run; rewrite swap_swap; exact R|]. split; [exact F|reflexivity].
Qed.
Lemma invert_invert g : invert (invert g) = g.
Proof.
  unfold invert. destruct g as [s f al]. cbn. unfold with_sts. cbn. f_equal. rewrite map_map. rewrite <- (map_id s) at 2. apply map_ext.
  intros l. rewrite map_map. rewrite <- (map_id l) at 2. apply map_ext. intros []. reflexivity.
Qed.
Lemma invert_related g x y w : related (invert g) x y w <-> related g y x w.
Proof.
  assert (H : forall g x y, related g x y w -> related (invert g) y x w).
  { intros h u v (l & R & -> & ->). exists (map swap l). split; [apply invert_relation, R|]. rewrite swap_fst, swap_snd. auto. }
  split; [|apply H]. intros R. apply H in R. rewrite invert_invert in R. exact R.
Qed.
Lemma invert_sound g : sound g -> sound (invert g).
Proof.
  intros ((ST & Y & SP) & P & N & NE). split; [split; [|split]|split; [|split]].
  - destruct ST as (S1 & S2 & S3). split; [|split].
    + unfold invert. cbn. destruct (sts g); [contradiction|discriminate].
    + intros s a Ha. apply invert_arc in Ha. unfold invert. cbn [with_sts sts]. rewrite map_length. exact (S2 s _ Ha).
    + intros s w H. unfold invert. cbn [with_sts sts]. rewrite map_length. exact (S3 s w H).
  - intros s a Ha. apply invert_arc in Ha. destruct (Y s _ Ha). split; assumption.
  - exact SP.
  - intros s a Ha. apply invert_arc in Ha. pose proof (P s _ Ha) as Q. cbn in Q. tauto.
  - exact N.
  - intros s a Ha. apply invert_arc in Ha. destruct (NE s _ Ha). split; assumption.
Qed.

(** * The levels *)
(** Composition of sound transducers without symbols of the form @_..._@. *)
Lemma compose_fst_result g1 g2 r : sound g1 -> sound g2 -> no_internal_symbols g1 -> no_internal_symbols g2 -> compose_fst g1 g2 r ->
  exists h, r = Ok h /\ sound h /\ no_internal_symbols h /\
    (forall x z w, related h x z w -> exists y w1 w2, related g1 x y w1 /\ related g2 y z w2 /\ w = (w1 + w2)%Z) /\
    (forall x y z w1 w2, related g1 x y w1 -> related g2 y z w2 -> ~ unknown_input g1 \/ ~ unknown_output g2 ->
       exists w, related h x z w /\ (w <= w1 + w2)%Z).
Proof.
  intros S1 S2 I1 I2 [C ST]. pose proof S1 as (W1 & P1 & N1). pose proof S2 as (W2 & P2 & N2).
  destruct (C84_total_partial g1 g2 W1 W2 P1 P2 N1 N2) as [_ T]. destruct (T r C) as (h & ->). exists h. split; [reflexivity|].
  destruct (C84_compose_partial g1 g2 h g1 g2 W1 W2 P1 P2 N1 N2 (knows_self _ _ S1 I2) (knows_self _ _ S2 I1) C) as (A & H1 & H2).
  destruct (compose_sound g1 g2 h S1 S2 C) as (Y & SP & P & N). split; [split; [split; [exact ST|split; assumption]|split; assumption]|].
  split; [intros x X H; apply A in H; destruct H as [H|H]; [exact (I1 x X H)|exact (I2 x X H)]|].
  split; [exact H1|]. intros x y z w1 w2 R1 R2 U. apply (H2 x y z w1 w2 R1 R2). tauto.
Qed.
Lemma compose_fst_exists g1 g2 : sound g1 -> sound g2 -> exists h, compose_fst g1 g2 (Ok h).
Proof. intros S1 S2. destruct (compose_exists g1 g2 S1 S2) as (h & C & ST). exists h. split; assumption. Qed.

Lemma no_unknown_output g : no_unknown g -> ~ unknown_output g.
Proof. intros U (s & a & Ha & E). exact (proj2 (U s a Ha) E). Qed.
Lemma invert_unknown_input g : no_unknown g -> ~ unknown_input (invert g).
Proof. intros U (s & a & Ha & E). apply invert_arc in Ha. exact (proj2 (U s _ Ha) E). Qed.

Section Levels.
  Variables (exts : list (bstr * bstr)) (e trans : graph).
  Hypothesis AU : all_usable exts.
  Hypothesis X : star_ok exts e.
  Hypothesis S : sound trans.
  Hypothesis I : no_internal_symbols trans.
  Lemma second_result r : compose_fst trans e r -> exists h, r = Ok h /\ sound h /\ no_internal_symbols h /\
    (forall x z w, related h x z w -> exists y, related trans x y w /\ Forall2 (variant exts) y z) /\
    (forall x y z w, related trans x y w -> Forall2 (variant exts) y z -> exists w', related h x z w' /\ (w' <= w)%Z).
  Proof using AU X S I.
    intros C. destruct (compose_fst_result trans e r S (so_sound _ _ X) I (so_internal _ _ X) C) as (h & -> & Sh & Ih & H1 & H2).
    exists h. split; [reflexivity|]. split; [exact Sh|]. split; [exact Ih|]. split.
    - intros x z w R. destruct (H1 x z w R) as (y & w1 & w2 & R1 & R2 & ->). apply (star_related exts e y z w2 AU X) in R2. destruct R2 as [-> F].
      exists y. rewrite Z.add_0_r. auto.
    - intros x y z w R F. destruct (H2 x y z w 0%Z R (proj2 (star_related exts e y z 0%Z AU X) (conj eq_refl F)) (or_intror (no_unknown_output e (so_unknown _ _ X)))) as (w' & R' & L).
      exists w'. split; [exact R'|lia].
  Qed.
  Lemma first_result r : compose_fst (invert e) trans r -> exists h, r = Ok h /\ sound h /\ no_internal_symbols h /\
    (forall x z w, related h x z w -> exists y, related trans y z w /\ Forall2 (variant exts) y x) /\
    (forall x y z w, related trans y z w -> Forall2 (variant exts) y x -> exists w', related h x z w' /\ (w' <= w)%Z).
  Proof using AU X S I.
    intros C. destruct (compose_fst_result (invert e) trans r (invert_sound e (so_sound _ _ X)) S (so_internal _ _ X) I C) as (h & -> & Sh & Ih & H1 & H2).
    exists h. split; [reflexivity|]. split; [exact Sh|]. split; [exact Ih|]. split.
    - intros x z w R. destruct (H1 x z w R) as (y & w1 & w2 & R1 & R2 & ->). apply invert_related, (star_related exts e y x w1 AU X) in R1. destruct R1 as [-> F].
      exists y. auto.
    - intros x y z w R F. destruct (H2 x y z 0%Z w (proj2 (invert_related e x y 0%Z) (proj2 (star_related exts e y x 0%Z AU X) (conj eq_refl F))) R (or_introl (invert_unknown_input e (so_unknown _ _ X)))) as (w' & R' & L).
      exists w'. split; [exact R'|lia].
  Qed.
End Levels.
