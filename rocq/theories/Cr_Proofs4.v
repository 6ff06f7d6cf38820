(** Cross product: the test of the operands, the result, and its existence. *)
From Verif Require Import Base Flags_Model BT_Model BT_Spec BT_Proofs BT_Proofs2 BT_Proofs3 BT_Proofs4 BT_Proofs5 BT_Props Harm_Model Harm_Spec Harm_Proofs Harm_Props Co_Spec Co_Model Co_Proofs Co_Proofs2 Co_Proofs3 Co_Proofs4 Co_Props
  PU_Spec PU_Model PU_Proofs PU_Proofs2 PU_Proofs3 PU_Proofs4 PU_Proofs5 PU_Proofs7 Cr_Spec Cr_Model Cr_Proofs Cr_Proofs2 Cr_Proofs3.
From Verif Require CW_Model CW_Proofs.

(** * The test *)
Lemma mean_apart al p : paired p -> exists q, means al p q /\ (fst q = snd q -> fst p = snd p /\ fst p <> UNK).
Proof.
  destruct p as [a b]. intros P. pose proof P as P'. unfold paired in P'. cbn [fst snd] in *. destruct (bstr_eq_dec a IDN) as [Ea|Na].
  - rewrite (proj1 P' Ea), Ea. destruct (fresh al a a) as (y & O & _). exists (y, y). split; [apply means_identity, O|]. intros _. split; [reflexivity|discriminate].
  - assert (Nb : b <> IDN) by tauto. destruct (bstr_eq_dec a UNK) as [Ua|Ua]; destruct (bstr_eq_dec b UNK) as [Ub|Ub].
    + rewrite Ua, Ub. destruct (fresh al a a) as (x & Ox & _). destruct (fresh al x x) as (y & Oy & N & _). exists (x, y). split; [apply means_unknowns; auto|]. cbn [fst snd]. congruence.
    + rewrite Ua. destruct (fresh al b b) as (x & Ox & N & _). exists (x, b). split; [apply means_unknown_in; auto|]. cbn [fst snd]. congruence.
    + rewrite Ub. destruct (fresh al a a) as (x & Ox & N & _). exists (a, x). split; [apply means_unknown_out; auto|]. cbn [fst snd]. congruence.
    + exists (a, b). split; [apply means_itself; tauto|]. cbn [fst snd]. auto.
Qed.
Lemma labels_apart al k : Forall paired k -> exists l, Forall2 (means al) k l /\ ((forall q, In q l -> fst q = snd q) -> forall p, In p k -> fst p = snd p /\ fst p <> UNK).
Proof.
  intros F. induction F as [|p k P F IH]; [exists []; split; [constructor|intros _ p []]|]. destruct (mean_apart al p P) as (q & M & S). destruct IH as (l & Fl & S').
  exists (q :: l). split; [constructor; assumption|]. intros H r [<-|Hr]; [apply S, H; left; reflexivity|]. apply S'; [|exact Hr]. intros t Ht. apply H. right. exact Ht.
Qed.
Lemma equal_means al k l : Forall paired k -> (forall p, In p k -> fst p = snd p /\ fst p <> UNK) -> Forall2 (means al) k l -> forall q, In q l -> fst q = snd q.
Proof.
  intros P H F. induction F as [|p q k l M F IH]; [intros q []|]. inversion P; subst. intros r [<-|Hr].
  - destruct (H p (or_introl eq_refl)) as [E N]. destruct p as [a b]. cbn [fst snd] in *. subst b. inversion M; subst; try reflexivity; tauto.
  - apply IH; auto. intros t Ht. apply H. right. exact Ht.
Qed.
Lemma equal_twice l : (forall q, In q l -> fst q = snd q) -> l = twice (map fst l).
Proof.
  induction l as [|[a b] l IH]; intros H; [reflexivity|]. unfold twice in *. cbn [map fst]. rewrite (H (a, b) (or_introl eq_refl) : a = b). f_equal. apply IH. intros q Hq. apply H. right. exact Hq.
Qed.
Lemma recognizer_strings g x w : recognizer g -> (exists z, related g x z w) -> exists y, pair_string g (twice y) w /\ no_epsilons y = x.
Proof.
  intros R (z & H). apply related_pairs in H. destruct H as (l & Pl & -> & _). exists (map fst l). rewrite <- equal_twice; [auto|]. intros q Hq. exact (R l w q Pl Hq).
Qed.
Lemma pair_string_we g l w : pair_string g l w -> without_empty l = l.
Proof. intros (c & _ & ->). apply we_idem. Qed.
Lemma twice_of g y w : pair_string g (twice y) w -> no_epsilons y = y.
Proof. intros H. apply pair_string_we in H. rewrite twice_ne in H. apply (f_equal (map fst)) in H. rewrite !twice_fst in H. exact H. Qed.
Lemma test_result g : sound g -> exists h1 h2,
  harmonize (insert_missing_special_symbols (input_project g) g) (insert_missing_special_symbols g (insert_missing_special_symbols (input_project g) g)) = Ok (h1, h2) /\
  (equivalent h1 h2 <-> recognizer g).
Proof.
  intros Sg. destruct (project_sound g Sg) as [Sp Ap]. set (p := input_project g) in *.
  assert (K1 : knowing_internal_symbols_of g p p) by (apply self_knows; auto). assert (K2 : knowing_internal_symbols_of p g g) by (apply self_knows; auto).
  destruct (binary_operands p g p g Sp Sg K1 K2) as (h1 & h2 & E & O1 & O2 & A1 & A2). exists h1, h2. split; [exact E|]. clear E. pose proof (strings_1 p p h1 O1) as S1. pose proof (strings_2 p g g h1 h2 O2 A1 A2) as S2.
  pose proof (one_label p g p g h1 h2 O1 O2 A1 A2) as U. pose proof O1 as (_ & Y1 & P1 & _ & Au & _). specialize (Au Ap). pose proof O2 as (_ & Y2 & P2 & _).
  assert (L1 : forall k w, label_string h1 k w -> forall q, In q k -> fst q = snd q /\ fst q <> UNK).
  { intros k w (c & Ac & ->) q Hq. apply we_In in Hq. destruct (path_labels h1 c w Ac q (proj1 Hq)) as (s & a & Ha & ->). exact (Au s a Ha). }
  split.
  - intros [E _]. intros l w q Hl Hq. apply S2 in Hl. destruct Hl as (k & Lk & F). destruct (label_string_good h2 k w P2 Y2 Lk) as [Pk _].
    destruct (E k w Lk) as (w' & Lk1 & _). exact (equal_means _ k l Pk (L1 k w' Lk1) F q Hq).
  - intros R. split.
    + intros k w Lk. exists w. split; [|lia]. destruct (label_string_good h2 k w P2 Y2 Lk) as [Pk _]. destruct (labels_apart (alpha h1) k Pk) as (l & F & _).
      assert (Pl : pair_string g l w) by (apply S2; eauto). assert (El : l = twice (map fst l)) by (apply equal_twice; intros q Hq; exact (R l w q Pl Hq)).
      rewrite El in Pl. assert (Pp : pair_string p (twice (map fst l)) w).
      { apply project_strings; [exact Sg|]. exists (map fst l). apply related_pairs. exists (twice (map fst l)). rewrite twice_fst, twice_snd, (twice_of g _ w Pl). auto. }
      rewrite <- El in Pp. apply S1 in Pp. destruct Pp as (k' & Lk' & F'). rewrite <- (U k' w k w l Lk' Lk F' F). exact Lk'.
    + intros k w Lk. exists w. split; [|lia]. destruct (label_string_good h1 k w P1 Y1 Lk) as [Pk _]. destruct (labels_apart (alpha h1) k Pk) as (l & F & _).
      assert (El : l = twice (map fst l)) by (apply equal_twice; exact (equal_means _ k l Pk (L1 k w Lk) F)).
      assert (Pl : pair_string p l w) by (apply S1; eauto). rewrite El in Pl. pose proof (twice_of p _ w Pl) as N. apply (project_strings g _ w Sg) in Pl.
      destruct (recognizer_strings g _ w R Pl) as (y & Py & Ny). rewrite (twice_of g y w Py) in Ny. rewrite Ny, <- El in Py. apply S2 in Py. destruct Py as (k' & Lk' & F').
      rewrite (U k w k' w l Lk Lk' F F'). exact Lk'.
Qed.
Lemma compare_result g b : sound g -> compare (input_project g) g b -> exists v, b = Ok v /\ (v = true <-> recognizer g).
Proof. intros S C. destruct (test_result g S) as (h1 & h2 & E & T). unfold compare in C. rewrite E in C. destruct C as (v & -> & V). exists v. split; [reflexivity|]. tauto. Qed.
Lemma checked_result g next r : sound g -> checked g next r -> recognizer g /\ next r \/ ~ recognizer g /\ r = Throw.
Proof.
  intros S (b & C & H). destruct (compare_result g b S C) as ([] & -> & V); [left; split; [apply V; reflexivity|exact H]|right; split; [|exact H]]. intros R. apply V in R. discriminate.
Qed.
Lemma compare_exists g (v : bool) : sound g -> (v = true <-> recognizer g) -> compare (input_project g) g (Ok v).
Proof. intros S V. destruct (test_result g S) as (h1 & h2 & E & T). unfold compare. rewrite E. exists v. split; [reflexivity|]. tauto. Qed.

(** * The result *)
Lemma union_alpha A B s : In s (alpha A ++ alpha B) <-> In s (alpha A) \/ In s (alpha B).
Proof. apply in_app_iff. Qed.
Lemma cross_result A B r : sound A -> sound B -> no_internal_symbols A -> no_internal_symbols B -> cross_product A B r ->
  (recognizer A /\ recognizer B -> exists h, r = Ok h /\
     (forall s, ~ special s -> In s (alpha h) <-> In s (alpha A) \/ In s (alpha B)) /\
     (forall x z w, related h x z w -> Forall ordinary x /\ Forall ordinary z /\ exists w1 w2, word A x w1 /\ word B z w2 /\ w = (w1 + w2)%Z) /\
     (forall x z w1 w2, word A x w1 -> word B z w2 -> Forall ordinary x -> Forall ordinary z -> exists w, related h x z w /\ (w <= w1 + w2)%Z)) /\
  (~ (recognizer A /\ recognizer B) -> r = Throw).
Proof.
  intros SA SB NA NB C. apply (checked_result A _ r SA) in C. destruct C as [[RA C]|[RA ->]]; [|tauto].
  apply (checked_result B _ r SB) in C. destruct C as [[RB C]|[RB ->]]; [|tauto]. split; [|tauto]. intros _.
  destruct C as (um & em & mu & me & Pum & Pem & Pmu & Pme & C).
  apply (andthen_Ok _ _ _ _ (fun x => to_marks_result A SA NA RA um em x Pum Pem)) in C. destruct C as (a1 & Ma & C).
  apply (andthen_Ok _ _ _ _ (fun x => from_marks_result B SB NB RB mu me x Pmu Pme)) in C. destruct C as (b1 & Mb & C).
  apply andthen_concat in C. apply (andthen_Ok _ _ _ _ (fun x => marked_compose A B a1 b1 x SA SB Ma Mb)) in C. destruct C as (h0 & (S0 & A0 & D1 & D2) & ->).
  destruct (expand_result h0) as (h & -> & Eh & Ah). exists h. split; [reflexivity|].
  pose proof (mark_unknown A NA) as MA. pose proof (mark_unknown B NB) as MB. set (al := alpha A ++ alpha B).
  assert (NM : ~ In MARK al) by (unfold al; rewrite in_app_iff; tauto).
  assert (A0' : forall s, In s (alpha h0) <-> s = MARK \/ In s al) by (intros s; unfold al; rewrite A0, in_app_iff; reflexivity).
  assert (Ah' : forall s, ~ special s -> In s (alpha h) <-> In s al).
  { intros s Ns. rewrite (Ah s Ns), A0'. split; [intros [[K|K] N]; [destruct (N K)|exact K]|]. intros K. split; [auto|]. intros ->. auto. }
  assert (Oh : forall s, outside (alpha h) s <-> outside al s).
  { intros s. unfold outside. split; intros [O N]; (split; [exact O|]); intros K; apply N, (Ah' s (proj1 O)), K. }
  assert (IA : incl (alpha A) al) by (intros s; unfold al; rewrite in_app_iff; auto). assert (IB : incl (alpha B) al) by (intros s; unfold al; rewrite in_app_iff; auto).
  split; [intros s Ns; rewrite (Ah' s Ns); apply in_app_iff|]. split.
  - intros x z w H. destruct (expand_back al h0 h S0 A0' Oh Eh x z w H) as (x' & z' & H' & Q). destruct (D1 x' z' w H') as (w1 & w2 & W1 & W2 & F1 & F2 & ->).
    destruct (Q F1 F2) as [-> ->].
    assert (St : forall l, Forall plain l -> Forall ordinary (map (strip al) l)).
    { intros l F. rewrite Forall_forall in *. intros s Hs. apply in_map_iff in Hs. destruct Hs as (u & <- & Hu). destruct (outside_dec al u) as [O|O].
      - exact (proj1 (proj1 (strip_mover al) u O)).
      - rewrite (proj2 (strip_mover al) u O). apply F, Hu. }
    split; [exact (St _ F1)|]. split; [exact (St _ F2)|]. exists w1, w2. split; [apply (mover_word al); auto using strip_mover|]. split; [apply (mover_word al); auto using strip_mover|reflexivity].
  - intros x z w1 w2 W1 W2 O1 O2. rewrite Forall_forall in O1, O2.
    assert (F1 : Forall plain (map (push al "a") x)) by (apply Forall_forall; intros s Hs; apply in_map_iff in Hs; destruct Hs as (u & <- & Hu); apply push_plain; [exact NM|discriminate|auto]).
    assert (F2 : Forall plain (map (push al "b") z)) by (apply Forall_forall; intros s Hs; apply in_map_iff in Hs; destruct Hs as (u & <- & Hu); apply push_plain; [exact NM|discriminate|auto]).
    destruct (D2 (map (push al "a") x) (map (push al "b") z) w1 w2) as (w & H & L); auto.
    + apply (mover_word al); auto. apply push_mover. discriminate.
    + apply (mover_word al); auto. apply push_mover. discriminate.
    + intros s Hx Hz. apply in_map_iff in Hx, Hz. destruct Hx as (u & Eu & Hu), Hz as (v & Ev & Hv). rewrite <- Eu in Ev. apply union_alpha. rewrite <- Eu.
      apply (push_apart al "a" "b" u v); auto; discriminate.
    + exists w. split; [|exact L]. apply (expand_forth al h0 h S0 A0' Oh Eh) in H; [|exact F1|exact F2]. rewrite !map_map in H.
      rewrite (map_ext _ (fun s => s)), map_id in H by (intros s; apply strip_push; discriminate).
      rewrite (map_ext _ (fun s => s)), map_id in H by (intros s; apply strip_push; discriminate). exact H.
Qed.

(** * Existence *)
Lemma padding_exists i o : pad_pair i o -> exists m, padding i o m.
Proof.
  intros PP. destruct (any_sequence_exists [(i, o)] [EPS; UNK; IDN; MARK]) as (m & A & E).
  - intros p [<-|[]] K. destruct PP as [Q|[Q|[Q|Q]]]; rewrite K in Q; discriminate.
  - exists m. split; [exact A|]. intros x. rewrite E. cbn [In]. intuition congruence.
Qed.
Lemma concatenated_exists g1 g2 : structure_ok g1 -> structure_ok g2 -> exists m, concatenated g1 g2 m.
Proof.
  intros T1 T2. set (c := CW_Model.concatenate g1 g2). exists (with_alpha c (alpha g1)). split; [split|split; [reflexivity|]].
  - apply (structure_eq c); [apply CW_Proofs.concatenate_structure; assumption|split; reflexivity].
  - intros s a Ha. change (In a (nth s (sts c) [])) in Ha. destruct (Nat.lt_ge_cases s (length (sts g1))) as [L|L].
    + unfold c in Ha. rewrite CW_Proofs.c_first in Ha by exact L. apply in_app_iff in Ha. destruct Ha as [Ha|Ha]; [right; exists g1, s, a; split; [left; reflexivity|auto]|].
      destruct (finw g1 s); [|destruct Ha]. destruct Ha as [<-|[]]. left. auto.
    + replace s with ((s - length (sts g1)) + length (sts g1)) in Ha by lia. unfold c in Ha. rewrite CW_Proofs.c_second in Ha. apply in_map_iff in Ha. destruct Ha as (b & <- & Hb).
      right. exists g2, (s - length (sts g1)), b. split; [right; left; reflexivity|auto].
  - assert (S : forall l w, accepts (with_alpha c (alpha g1)) l w <-> accepts c l w) by (intros l w; split; apply accepts_same; reflexivity).
    assert (WA : forall a b, without_empty (a ++ b) = without_empty a ++ without_empty b) by (intros a b; apply filter_app).
    intros l w. split.
    + intros (k & Ak & ->). apply S in Ak. apply (CW_Proofs.concatenate_accepts g1 g2 T1) in Ak. destruct Ak as (l1 & w1 & l2 & w2 & A1 & A2 & -> & ->).
      exists (without_empty l1), w1, (without_empty l2), w2. split; [exists l1; auto|]. split; [exists l2; auto|]. rewrite WA. split; [f_equal; apply we_empty|reflexivity].
    + intros (l1 & w1 & l2 & w2 & (k1 & A1 & ->) & (k2 & A2 & ->) & -> & ->). exists (k1 ++ EE :: k2). split.
      * apply S, (CW_Proofs.concatenate_accepts g1 g2 T1). exists k1, w1, k2, w2. auto.
      * rewrite WA. reflexivity.
Qed.
Lemma concatenate_exists g1 g2 : sound g1 -> sound g2 -> exists m, concatenate g1 g2 (Ok m).
Proof.
  intros S1 S2. destruct (binary_exists concatenated g1 g2 S1 S2) as (r & R); [intros h1 h2; apply concatenated_exists|].
  destruct (concatenate_result g1 g2 _ _ r S1 S2 (t1_knows g1 g2) (t2_knows g1 g2) R) as (m & -> & _). eauto.
Qed.
Lemma optimise_self g : sound g -> optimize g (Ok g).
Proof. intros ((T & _) & _). exists g. split; [apply optimised_exists, T|reflexivity]. Qed.
Lemma composed_sound g1 g2 : sound g1 -> sound g2 -> exists h, compose g1 g2 (Ok h) /\ sound h.
Proof.
  intros S1 S2. destruct (compose_exists g1 g2 S1 S2) as (h & C & T). exists h. split; [exact C|]. destruct (compose_sound g1 g2 h S1 S2 C) as (Y & SP & P & N).
  split; [split; [exact T|split; assumption]|split; assumption].
Qed.
Lemma concatenated_sound g1 g2 : sound g1 -> sound g2 -> exists h, concatenate g1 g2 (Ok h) /\ sound h.
Proof.
  intros S1 S2. destruct (concatenate_exists g1 g2 S1 S2) as (m & C). exists m. split; [exact C|].
  destruct (concatenate_result g1 g2 _ _ _ S1 S2 (t1_knows g1 g2) (t2_knows g1 g2) C) as (m' & E & S & _). injection E as <-. exact S.
Qed.
Lemma side_exists g1 g2 g3 : sound g1 -> sound g2 -> sound g3 -> exists h, sound h /\
  andthen (compose g1 g2) (fun c => andthen (optimize c) (fun o => andthen (concatenate o g3) optimize)) (Ok h).
Proof.
  intros S1 S2 S3. destruct (composed_sound g1 g2 S1 S2) as (c & C & Sc). destruct (concatenated_sound c g3 Sc S3) as (d & D & Sd). exists d. split; [exact Sd|].
  eapply andthen_exists; [exact C|]. eapply andthen_exists; [apply optimise_self, Sc|]. eapply andthen_exists; [exact D|]. apply optimise_self, Sd.
Qed.
Lemma cross_exists A B : sound A -> sound B -> no_internal_symbols A -> no_internal_symbols B ->
  (recognizer A -> recognizer B -> exists r, cross_product A B r) /\
  (~ recognizer A -> cross_product A B Throw) /\ (recognizer A -> ~ recognizer B -> cross_product A B Throw).
Proof.
  intros SA SB NA NB.
  assert (CT : forall g, sound g -> recognizer g -> forall (next : res graph -> Prop) r, next r -> checked g next r).
  { intros g S R next r H. exists (Ok true). split; [apply compare_exists; [exact S|tauto]|exact H]. }
  assert (CF : forall g, sound g -> ~ recognizer g -> forall next, checked g next Throw).
  { intros g S R next. exists (Ok false). split; [apply compare_exists; [exact S|]|reflexivity]. split; [discriminate|tauto]. }
  split; [|split; [intros R; apply CF; assumption|intros RA RB; apply CT; auto]]. intros RA RB.
  assert (PP1 : pad_pair UNK MARK) by (left; reflexivity). assert (PP2 : pad_pair EPS MARK) by (right; left; reflexivity).
  assert (PP3 : pad_pair MARK UNK) by (right; right; left; reflexivity). assert (PP4 : pad_pair MARK EPS) by (right; right; right; reflexivity).
  destruct (padding_exists _ _ PP1) as (um & Pum), (padding_exists _ _ PP2) as (em & Pem), (padding_exists _ _ PP3) as (mu & Pmu), (padding_exists _ _ PP4) as (me & Pme).
  destruct (side_exists (add_symbol A MARK) um em) as (a1 & S1 & Ha); [apply (g'_mark A SA NA)|exact (padding_sound _ _ _ PP1 Pum)|exact (padding_sound _ _ _ PP2 Pem)|].
  destruct (side_exists mu (add_symbol B MARK) me) as (b1 & S2 & Hb); [exact (padding_sound _ _ _ PP3 Pmu)|apply (g'_mark B SB NB)|exact (padding_sound _ _ _ PP4 Pme)|].
  destruct (composed_sound a1 b1 S1 S2) as (c & C & Sc). exists (expand c). unfold cross_product. apply (CT A SA RA). apply (CT B SB RB). exists um, em, mu, me. do 4 (split; [assumption|]).
  eapply andthen_exists; [exact Ha|]. eapply andthen_exists; [exact Hb|]. eapply andthen_exists; [exact C|]. eapply andthen_exists; [apply optimise_self, Sc|]. reflexivity.
Qed.
