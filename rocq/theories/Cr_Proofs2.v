(** Cross product: concatenation, the marked transducers and their composition. *)
From Verif Require Import Base Flags_Model BT_Model BT_Spec BT_Proofs BT_Proofs3 BT_Proofs4 BT_Proofs5 BT_Props Harm_Model Harm_Spec Harm_Proofs Harm_Props Co_Spec Co_Model Co_Proofs Co_Proofs2 Co_Proofs3 Co_Proofs4 Co_Props
  PU_Spec PU_Model PU_Proofs PU_Proofs2 PU_Proofs3 PU_Proofs4 Cr_Spec Cr_Model Cr_Proofs.

(** * Concatenation *)
Lemma concatenate_result g1 g2 t1 t2 r : sound g1 -> sound g2 -> knowing_internal_symbols_of g2 g1 t1 -> knowing_internal_symbols_of g1 g2 t2 -> concatenate g1 g2 r ->
  exists m, r = Ok m /\ sound m /\ (forall x, In x (alpha m) <-> In x (alpha g1) \/ In x (alpha g2)) /\
    forall x y w, related m x y w <-> exists x1 y1 w1 x2 y2 w2, related t1 x1 y1 w1 /\ related t2 x2 y2 w2 /\ x = x1 ++ x2 /\ y = y1 ++ y2 /\ w = (w1 + w2)%Z.
Proof.
  intros G1 G2 K1 K2 R. destruct (binary_result g1 g2 t1 t2 G1 G2 K1 K2 _ _ R) as (h1 & h2 & m & (L & Am & U) & -> & O1 & O2 & A1 & A2). exists m. split; [reflexivity|].
  pose proof (result_sound g1 g2 t1 t2 G1 G2 K1 K2 h1 h2 m O1 O2 A1 A2 L Am) as S. split; [exact S|]. split; [intros x; rewrite Am; apply A1|].
  assert (P : forall l w, pair_string m l w <-> exists l1 w1 l2 w2, pair_string t1 l1 w1 /\ pair_string t2 l2 w2 /\ l = l1 ++ l2 /\ w = (w1 + w2)%Z).
  { intros l w. rewrite (strings_m g1 g2 t1 t2 G1 G2 K1 K2 h1 h2 m O1 O2 A1 A2 L Am). split.
    - intros (k & Lk & F). apply U in Lk. destruct Lk as (k1 & w1 & k2 & w2 & L1 & L2 & -> & ->). apply Forall2_app_inv_l in F. destruct F as (l1 & l2 & F1 & F2 & ->).
      exists l1, w1, l2, w2. split; [apply (strings_1 g1 t1 h1 O1); eauto|]. split; [apply (strings_2 g1 g2 t2 h1 h2 O2 A1 A2); eauto|auto].
    - intros (l1 & w1 & l2 & w2 & H1 & H2 & -> & ->). apply (strings_1 g1 t1 h1 O1) in H1. apply (strings_2 g1 g2 t2 h1 h2 O2 A1 A2) in H2.
      destruct H1 as (k1 & L1 & F1), H2 as (k2 & L2 & F2). exists (k1 ++ k2). split; [apply U; exists k1, w1, k2, w2; auto|]. apply Forall2_app; assumption. }
  assert (NA : forall a b, no_epsilons (a ++ b) = no_epsilons a ++ no_epsilons b) by (intros a b; apply filter_app).
  intros x y w. rewrite related_pairs. split.
  - intros (l & H & -> & ->). apply P in H. destruct H as (l1 & w1 & l2 & w2 & H1 & H2 & -> & ->).
    exists (no_epsilons (map fst l1)), (no_epsilons (map snd l1)), w1, (no_epsilons (map fst l2)), (no_epsilons (map snd l2)), w2.
    rewrite !map_app, !NA. split; [apply related_pairs; eauto|]. split; [apply related_pairs; eauto|auto].
  - intros (x1 & y1 & w1 & x2 & y2 & w2 & H1 & H2 & -> & -> & ->). apply related_pairs in H1, H2. destruct H1 as (l1 & H1 & -> & ->). destruct H2 as (l2 & H2 & -> & ->).
    exists (l1 ++ l2). rewrite !map_app, !NA. split; [apply P; exists l1, w1, l2, w2; auto|auto].
Qed.

(** * Marks *)
Definition only_mark (g : graph) : Prop := forall x, internal_symbol x -> In x (alpha g) -> special x \/ x = MARK.
Definition has_mark (g : graph) : Prop := sound g /\ In MARK (alpha g).
Lemma marks_know o g : only_mark o -> has_mark g -> knowing_internal_symbols_of o g g.
Proof.
  intros N (((_ & _ & S1 & S2 & S3) & _) & M). apply self_knows. intros x I H. destruct (N x I H) as [[->|[->| ->]]| ->]; assumption.
Qed.
Lemma padding_mark i o m : pad_pair i o -> padding i o m -> has_mark m /\ only_mark m.
Proof.
  intros PP Pm. pose proof (padding_sound i o m PP Pm) as S. destruct Pm as (_ & A). split; [split; [exact S|apply A; tauto]|].
  intros x _ H. apply A in H. unfold special. tauto.
Qed.
Lemma compose_result g1 g2 r : sound g1 -> sound g2 -> knowing_internal_symbols_of g2 g1 g1 -> knowing_internal_symbols_of g1 g2 g2 ->
  andthen (compose g1 g2) optimize r -> exists h, r = Ok h /\ sound h /\ (forall x, In x (alpha h) <-> In x (alpha g1) \/ In x (alpha g2)) /\
    (forall x z w, related h x z w -> exists y w1 w2, related g1 x y w1 /\ related g2 y z w2 /\ w = (w1 + w2)%Z) /\
    (forall x y z w1 w2, related g1 x y w1 -> related g2 y z w2 ->
       ~ unknown_input g1 \/ ~ unknown_output g2 \/ (forall s, In s x -> In s z -> In s (alpha g1) \/ In s (alpha g2)) ->
       exists w, related h x z w /\ (w <= w1 + w2)%Z).
Proof.
  intros S1 S2 K1 K2 R. pose proof S1 as (W1 & P1 & N1). pose proof S2 as (W2 & P2 & N2).
  apply (andthen_Ok _ _ _ (fun co => compose g1 g2 (Ok co))) in R.
  2:{ intros x C. destruct (proj2 (C84_total_partial g1 g2 W1 W2 P1 P2 N1 N2) x C) as (co & ->). eauto. }
  destruct R as (co & C & O). destruct (compose_sound g1 g2 co S1 S2 C) as (Yo & SPo & Po & No).
  destruct (optimize_result co r Yo SPo Po No O) as (h & -> & Sh & Ah & _ & H1 & H2). destruct (optimised_related co h H1 H2) as [E1 E2].
  destruct (C84_compose_partial g1 g2 co g1 g2 W1 W2 P1 P2 N1 N2 K1 K2 C) as (A & D1 & D2). exists h. split; [reflexivity|]. split; [exact Sh|].
  split; [intros x; rewrite Ah; apply A|]. split; [intros x z w H; apply D1, E1, H|]. intros x y z w1 w2 R1 R2 Q.
  destruct (D2 x y z w1 w2 R1 R2 Q) as (w & H & L). destruct (E2 x z w H) as (w' & H' & L'). exists w'. split; [exact H'|lia].
Qed.
Lemma andthen_concat (a : res graph -> Prop) b c r : andthen a (fun x => andthen (b x) c) r -> andthen (andthen a b) c r.
Proof. apply andthen_assoc. Qed.
Lemma mark_repeat n x y : x ++ y = repeat MARK n -> x = repeat MARK (length x) /\ y = repeat MARK (length y).
Proof.
  intros E. assert (F : forall s, In s (x ++ y) -> s = MARK) by (intros s Hs; rewrite E in Hs; apply repeat_spec in Hs; exact Hs). clear E.
  assert (G : forall l, (forall s, In s l -> s = MARK) -> l = repeat MARK (length l)).
  { induction l as [|s l IH]; intros H; [reflexivity|]. cbn [length repeat]. rewrite (H s (or_introl eq_refl)) at 1. f_equal. apply IH. intros t Ht. apply H. right. exact Ht. }
  split; apply G; intros s Hs; apply F, in_app_iff; auto.
Qed.
Section Marked.
  Variable g : graph.
  Hypothesis Sg : sound g.
  Hypothesis Ng : no_internal_symbols g.
  Hypothesis Rg : recognizer g.
  Let g' := add_symbol g MARK.
  Lemma g'_alpha x : In x (alpha g') <-> x = MARK \/ In x (alpha g).
  Proof using. unfold g', add_symbol. cbn [with_alpha alpha]. apply (In_sadd bcmp bcmp_eq). Qed.
  Lemma g'_mark : has_mark g' /\ only_mark g'.
  Proof using Sg Ng.
    destruct Sg as ((ST & SY & S1 & S2 & S3) & P & NE & N). split; [split; [split; [split; [|split]|split; [|split]]|]|].
    - exact (structure_eq g g' ST (conj eq_refl eq_refl)).
    - intros s a Ha. rewrite !g'_alpha. destruct (SY s a Ha). auto.
    - unfold specials_ok. rewrite !g'_alpha. auto.
    - exact P.
    - rewrite g'_alpha. intros [K|K]; [discriminate|auto].
    - exact N.
    - apply g'_alpha. auto.
    - intros x I H. apply g'_alpha in H. destruct H as [H|H]; [auto|]. left. exact (Ng x I H).
  Qed.
  Lemma mark_unknown : ~ In MARK (alpha g).
  Proof using Ng. intros H. destruct (Ng MARK) as [K|[K|K]]; try discriminate; [exists (B "MARK"); reflexivity|exact H]. Qed.
  Lemma g'_related x y w : related g' x y w -> related g x y w.
  Proof using. apply related_alpha; try reflexivity. intros s _ [O N]. split; [exact O|]. intros H. apply N, g'_alpha. auto. Qed.
  Lemma g'_word x w : word g x w -> Forall plain x -> related g' x x w.
  Proof using.
    intros H F. apply (related_alpha g g'); try reflexivity; [|exact H]. rewrite Forall_forall in F. intros s Hs [O N]. split; [exact O|].
    intros K. apply g'_alpha in K. destruct K as [K|K]; [|auto]. subst s. apply (proj2 (F MARK ltac:(tauto))). reflexivity.
  Qed.
  (** The strings of [g], each with a mark for every symbol and more marks after that. *)
  Definition marked (h : graph) (side : list bstr -> list bstr -> Z -> Prop) : Prop :=
    has_mark h /\ only_mark h /\ (forall x, In x (alpha h) <-> x = MARK \/ In x (alpha g)) /\
    (forall x y w, side x y w -> word g x w /\ Forall plain x /\ exists n, y = repeat MARK (length x + n)) /\
    (forall x w n, word g x w -> Forall plain x -> exists w', side x (repeat MARK (length x + n)) w' /\ (w' <= w)%Z).
  Lemma special_alpha s : s = EPS \/ s = UNK \/ s = IDN -> In s (alpha g).
  Proof using Sg. destruct Sg as ((_ & _ & S1 & S2 & S3) & _). intros [->|[->| ->]]; assumption. Qed.
  Lemma marked_alpha h (m : graph) : (forall x, In x (alpha m) <-> x = EPS \/ x = UNK \/ x = IDN \/ x = MARK) ->
    (forall x, In x (alpha h) <-> In x (alpha m) \/ In x (alpha g')) -> forall x, In x (alpha h) <-> x = MARK \/ In x (alpha g).
  Proof using Sg.
    intros A H x. rewrite H, A, g'_alpha. split; [|tauto]. intros [[K|[K|[K|K]]]|K]; auto; right; apply special_alpha; auto.
  Qed.
  Lemma alpha_marks h : sound h -> (forall x, In x (alpha h) <-> x = MARK \/ In x (alpha g)) -> has_mark h /\ only_mark h.
  Proof using Sg Ng.
    intros Sh A. split; [split; [exact Sh|apply A; auto]|]. intros x I H. apply A in H. destruct H as [H|H]; [auto|]. left. exact (Ng x I H).
  Qed.
  Lemma to_marks_result um em r : padding UNK MARK um -> padding EPS MARK em -> to_marks g' um em r -> exists h, r = Ok h /\ marked h (related h).
  Proof using Sg Ng Rg.
    intros Pu Pe R. assert (PPu : pad_pair UNK MARK) by (left; reflexivity). assert (PPe : pad_pair EPS MARK) by (right; left; reflexivity).
    destruct g'_mark as [HM OM]. destruct (padding_mark _ _ _ PPu Pu) as [HMu OMu]. destruct (padding_mark _ _ _ PPe Pe) as [HMe OMe].
    unfold to_marks in R. apply andthen_concat in R.
    apply (andthen_Ok _ _ _ _ (fun x => compose_result g' um x (proj1 HM) (proj1 HMu) (marks_know _ _ OMu HM) (marks_know _ _ OM HMu))) in R.
    destruct R as (c & (Sc & Ac & C1 & C2) & R). assert (Ac' : forall x, In x (alpha c) <-> x = MARK \/ In x (alpha g)).
    { apply (marked_alpha c um (proj2 Pu)). intros x. rewrite Ac. tauto. }
    destruct (alpha_marks c Sc Ac') as [HMc OMc].
    apply (andthen_Ok _ _ _ _ (fun x => concatenate_result c em c em x Sc (proj1 HMe) (marks_know _ _ OMe HMc) (marks_know _ _ OMc HMe))) in R.
    destruct R as (d & (Sd & Ad & D) & R). destruct Sd as ((_ & Yd & SPd) & Pd & Nd).
    destruct (optimize_result d r Yd SPd Pd Nd R) as (h & -> & Sh & Ah & _ & O1 & O2). destruct (optimised_related d h O1 O2) as [E1 E2].
    assert (Ah' : forall x, In x (alpha h) <-> x = MARK \/ In x (alpha g)).
    { intros x. rewrite Ah, Ad, Ac', (proj2 Pe x). split; [|tauto]. intros [K|[K|[K|[K|K]]]]; auto; right; apply special_alpha; auto. }
    destruct (alpha_marks h Sh Ah') as [HMh OMh]. exists h. split; [reflexivity|]. split; [exact HMh|]. split; [exact OMh|]. split; [exact Ah'|]. split.
    - intros x y w H. apply E1, D in H. destruct H as (x1 & y1 & w1 & x2 & y2 & w2 & H1 & H2 & -> & -> & ->).
      apply (em_related em Pe) in H2. destruct H2 as (-> & -> & n & ->). apply C1 in H1. destruct H1 as (u & v1 & v2 & H1 & H2 & ->).
      apply (um_related um Pu) in H2. destruct H2 as (-> & F & ->). apply g'_related in H1. pose proof (recognizer_related g _ _ _ Rg H1). subst u.
      rewrite app_nil_r, !Z.add_0_r. split; [exact H1|]. split; [exact F|]. exists n. symmetry. apply repeat_app.
    - intros x w n H F. destruct (C2 x x (repeat MARK (length x)) w 0%Z) as (w1 & H1 & L1).
      + apply g'_word; assumption.
      + apply (um_related um Pu). auto.
      + right. left. intros (s & a & Ha & K). destruct Pu as ((_ & Q & _) & _). destruct (Q s a Ha) as [[_ K']|[K'|[]]]; [rewrite K in K'; discriminate K'|injection K' as _ K'; rewrite K in K'; discriminate K'].
      + destruct (E2 x (repeat MARK (length x + n)) w1) as (w2 & H2 & L2); [|exists w2; split; [exact H2|lia]].
        apply D. exists x, (repeat MARK (length x)), w1, [], (repeat MARK n), 0%Z. split; [exact H1|]. split; [apply (em_related em Pe); eauto|].
        rewrite app_nil_r, repeat_app, Z.add_0_r. auto.
  Qed.
  Lemma from_marks_result mu me r : padding MARK UNK mu -> padding MARK EPS me -> from_marks mu g' me r -> exists h, r = Ok h /\ marked h (fun x y => related h y x).
  Proof using Sg Ng Rg.
    intros Pu Pe R. assert (PPu : pad_pair MARK UNK) by (right; right; left; reflexivity). assert (PPe : pad_pair MARK EPS) by (right; right; right; reflexivity).
    destruct g'_mark as [HM OM]. destruct (padding_mark _ _ _ PPu Pu) as [HMu OMu]. destruct (padding_mark _ _ _ PPe Pe) as [HMe OMe].
    unfold from_marks in R. apply andthen_concat in R.
    apply (andthen_Ok _ _ _ _ (fun x => compose_result mu g' x (proj1 HMu) (proj1 HM) (marks_know _ _ OM HMu) (marks_know _ _ OMu HM))) in R.
    destruct R as (c & (Sc & Ac & C1 & C2) & R). assert (Ac' : forall x, In x (alpha c) <-> x = MARK \/ In x (alpha g)) by (apply (marked_alpha c mu (proj2 Pu)), Ac).
    destruct (alpha_marks c Sc Ac') as [HMc OMc].
    apply (andthen_Ok _ _ _ _ (fun x => concatenate_result c me c me x Sc (proj1 HMe) (marks_know _ _ OMe HMc) (marks_know _ _ OMc HMe))) in R.
    destruct R as (d & (Sd & Ad & D) & R). destruct Sd as ((_ & Yd & SPd) & Pd & Nd).
    destruct (optimize_result d r Yd SPd Pd Nd R) as (h & -> & Sh & Ah & _ & O1 & O2). destruct (optimised_related d h O1 O2) as [E1 E2].
    assert (Ah' : forall x, In x (alpha h) <-> x = MARK \/ In x (alpha g)).
    { intros x. rewrite Ah, Ad, Ac', (proj2 Pe x). split; [|tauto]. intros [K|[K|[K|[K|K]]]]; auto; right; apply special_alpha; auto. }
    destruct (alpha_marks h Sh Ah') as [HMh OMh]. exists h. split; [reflexivity|]. split; [exact HMh|]. split; [exact OMh|]. split; [exact Ah'|]. split.
    - intros x y w H. apply E1, D in H. destruct H as (y1 & x1 & w1 & y2 & x2 & w2 & H1 & H2 & -> & -> & ->).
      apply (me_related me Pe) in H2. destruct H2 as (-> & -> & n & ->). apply C1 in H1. destruct H1 as (u & v1 & v2 & H1 & H2 & ->).
      apply (mu_related mu Pu) in H1. destruct H1 as (-> & F & ->). apply g'_related in H2. pose proof (recognizer_related g _ _ _ Rg H2). subst u.
      rewrite app_nil_r, Z.add_0_r, Z.add_0_l. split; [exact H2|]. split; [exact F|]. exists n. symmetry. apply repeat_app.
    - intros x w n H F. destruct (C2 (repeat MARK (length x)) x x 0%Z w) as (w1 & H1 & L1).
      + apply (mu_related mu Pu). auto.
      + apply g'_word; assumption.
      + left. intros (s & a & Ha & K). destruct Pu as ((_ & Q & _) & _). destruct (Q s a Ha) as [[K' _]|[K'|[]]]; [rewrite K in K'; discriminate K'|injection K' as K' _; rewrite K in K'; discriminate K'].
      + destruct (E2 (repeat MARK (length x + n)) x w1) as (w2 & H2 & L2); [|exists w2; split; [exact H2|lia]].
        apply D. exists (repeat MARK (length x)), x, w1, (repeat MARK n), [], 0%Z. split; [exact H1|]. split; [apply (me_related me Pe); eauto|].
        rewrite app_nil_r, repeat_app, Z.add_0_r. auto.
  Qed.
End Marked.

(** * The composition of the marked transducers *)
Lemma marked_compose t1 t2 a1 b1 r : sound t1 -> sound t2 -> marked t1 a1 (related a1) -> marked t2 b1 (fun x y => related b1 y x) -> andthen (compose a1 b1) optimize r ->
  exists h, r = Ok h /\ sound h /\ (forall x, In x (alpha h) <-> x = MARK \/ In x (alpha t1) \/ In x (alpha t2)) /\
    (forall x z w, related h x z w -> exists w1 w2, word t1 x w1 /\ word t2 z w2 /\ Forall plain x /\ Forall plain z /\ w = (w1 + w2)%Z) /\
    (forall x z w1 w2, word t1 x w1 -> word t2 z w2 -> Forall plain x -> Forall plain z ->
       (forall s, In s x -> In s z -> In s (alpha t1) \/ In s (alpha t2)) -> exists w, related h x z w /\ (w <= w1 + w2)%Z).
Proof.
  intros S1 S2 (HM1 & OM1 & A1 & B1 & C1) (HM2 & OM2 & A2 & B2 & C2) R.
  destruct (compose_result a1 b1 r (proj1 HM1) (proj1 HM2) (marks_know _ _ OM2 HM1) (marks_know _ _ OM1 HM2) R) as (h & -> & Sh & Ah & D1 & D2).
  exists h. split; [reflexivity|]. split; [exact Sh|]. split; [intros x; rewrite Ah, A1, A2; tauto|]. split.
  - intros x z w H. destruct (D1 x z w H) as (y & w1 & w2 & H1 & H2 & ->). destruct (B1 _ _ _ H1) as (K1 & F1 & _). destruct (B2 _ _ _ H2) as (K2 & F2 & _). exists w1, w2. auto.
  - intros x z w1 w2 H1 H2 F1 F2 Q. destruct (C1 x w1 (length z) H1 F1) as (v1 & K1 & L1). destruct (C2 z w2 (length x) H2 F2) as (v2 & K2 & L2).
    rewrite Nat.add_comm in K2. destruct (D2 x _ z v1 v2 K1 K2) as (w & H & L); [|exists w; split; [exact H|lia]].
    right. right. intros s Hx Hz. rewrite A1, A2. destruct (Q s Hx Hz); auto.
Qed.
