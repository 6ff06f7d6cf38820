(** Cross product: recognizers, renaming of unknown symbols, padding. *)
From Verif Require Import Base Flags_Model BT_Model BT_Spec BT_Proofs BT_Proofs3 BT_Proofs4 BT_Proofs5 BT_Props Harm_Model Harm_Spec Harm_Proofs Harm_Props Co_Spec Co_Model Co_Proofs Co_Proofs2 Co_Proofs3 Co_Proofs4 Co_Props
  PU_Spec PU_Model PU_Proofs PU_Proofs2 PU_Proofs3 PU_Proofs4 Cr_Spec Cr_Model.

(** * Alphabets *)
Lemma means_alpha al al' p q : (forall s, s = fst q \/ s = snd q -> outside al s -> outside al' s) -> means al p q -> means al' p q.
Proof. intros H M. inversion M; subst; cbn [fst snd] in H; constructor; auto. Qed.
Lemma Forall2_alpha al al' k c : (forall s, In s (map fst c) \/ In s (map snd c) -> outside al s -> outside al' s) ->
  Forall2 (means al) k c -> Forall2 (means al') k c.
Proof.
  intros H F. induction F as [|p q k c M F IH]; [constructor|]. constructor.
  - apply (means_alpha al); [|exact M]. intros s Hs. apply H. cbn [map In]. destruct Hs as [->| ->]; auto.
  - apply IH. intros s Hs. apply H. cbn [map In]. tauto.
Qed.
Lemma In_ne s l : In s (no_epsilons l) <-> In s l /\ s <> EPS.
Proof. unfold no_epsilons. rewrite filter_In. fold EPS. destruct (bstr_eq_dec s EPS); split; intros []; split; auto; congruence. Qed.
Lemma related_alpha g g' x y w : sts g' = sts g -> fin g' = fin g ->
  (forall s, In s x \/ In s y -> outside (alpha g) s -> outside (alpha g') s) -> related g x y w -> related g' x y w.
Proof.
  intros E F H (c & (k & A & M) & -> & ->). exists c. split; [|auto]. exists k. split; [exact (accepts_same g g' E F _ _ A)|].
  apply (Forall2_alpha (alpha g)); [|exact M]. intros s Hs O. apply H; [|exact O]. rewrite !In_ne. pose proof (proj1 (outside_ne _ _ O)). tauto.
Qed.
Lemma related_no_eps g x y w : related g x y w -> ~ In EPS x /\ ~ In EPS y.
Proof. intros (c & _ & -> & ->). rewrite !In_ne. tauto. Qed.

(** * Recognizers *)
Lemma recognizer_related g x y w : recognizer g -> related g x y w -> x = y.
Proof.
  intros R H. apply related_pairs in H. destruct H as (l & P & -> & ->). f_equal. apply map_ext_in. intros p Hp. exact (R l w p P Hp).
Qed.
Definition both (f : bstr -> bstr) (p : bstr * bstr) := (f (fst p), f (snd p)).
Lemma ne_map f l : (forall s, In s l -> (f s = EPS <-> s = EPS)) -> no_epsilons (map f l) = map f (no_epsilons l).
Proof.
  induction l as [|s l IH]; intros H; [reflexivity|]. cbn [map]. rewrite !ne_cons. assert (E : neps (f s) = neps s).
  { specialize (H s (or_introl eq_refl)). destruct (neps s) eqn:N.
    - apply neps_t. rewrite neps_t in N. tauto.
    - apply neps_f. rewrite neps_f in N. tauto. }
  rewrite E, IH by (intros t Ht; apply H; right; exact Ht). destruct (neps s); reflexivity.
Qed.
Lemma word_rename g f x w : symbols_ok g -> identities_paired g -> recognizer g ->
  (forall s, outside (alpha g) s -> outside (alpha g) (f s)) -> (forall s, ~ outside (alpha g) s -> f s = s) -> word g x w -> word g (map f x) w.
Proof.
  intros Y P R O N H. unfold word in *. apply related_pairs in H. destruct H as (l & Pl & E1 & E2).
  pose proof (proj1 (pair_string_labels g l w P) Pl) as (k & Lk & F).
  assert (NE : forall s, In s (map fst l) \/ In s (map snd l) -> (f s = EPS <-> s = EPS)).
  { intros s _. assert (D : outside (alpha g) s \/ ~ outside (alpha g) s).
    { destruct (bstr_eq_dec (f s) s) as [E|E]; [|destruct (in_dec bstr_eq_dec s (alpha g))]; [|right; intros [_ K]; auto|].
      - destruct (bstr_eq_dec s EPS) as [->|Ns]; [right; intros K; apply outside_ne in K; tauto|].
        destruct (bstr_eq_dec s UNK) as [->|Nu]; [right; intros K; apply outside_ne in K; tauto|].
        destruct (bstr_eq_dec s IDN) as [->|Ni]; [right; intros K; apply outside_ne in K; tauto|].
        destruct (is_diacritic s) eqn:D; [right; intros [(_ & K & _) _]; congruence|].
        destruct (is_pmatch_special s) eqn:M; [right; intros [(_ & _ & K) _]; apply K, pmatch_special_spec, M|].
        destruct (in_dec bstr_eq_dec s (alpha g)); [right; intros [_ K]; auto|left]. split; [|assumption]. split; [intros [K|[K|K]]; auto|].
        split; [exact D|]. intros K. apply pmatch_special_spec in K. congruence.
      - left. destruct (is_diacritic s) eqn:D; [exfalso; apply E, N; intros [(_ & K & _) _]; congruence|].
        destruct (is_pmatch_special s) eqn:M; [exfalso; apply E, N; intros [(_ & _ & K) _]; apply K, pmatch_special_spec, M|].
        split; [|assumption]. split; [|split; [exact D|intros K; apply pmatch_special_spec in K; congruence]].
        intros K. apply E, N. intros [(K' & _) _]. auto. }
    destruct D as [D|D]; [|rewrite (N s D); tauto]. pose proof (proj1 (outside_ne _ _ D)). pose proof (proj1 (outside_ne _ _ (O s D))). tauto. }
  apply related_pairs. exists (map (both f) l). split.
  - apply pair_string_labels; [exact P|]. exists k. split; [exact Lk|]. destruct (label_string_good g k w P Y Lk) as [Pk Kk].
    assert (Rl : forall p, In p l -> fst p = snd p) by (intros p Hp; exact (R l w p Pl Hp)). clear - F Pk Kk Rl O N.
    induction F as [|p q k l M F IH]; [constructor|]. inversion Pk; inversion Kk; subst. cbn [map]. constructor; [|apply IH; auto; intros; apply Rl; right; assumption].
    pose proof (Rl q (or_introl eq_refl)) as E. destruct p as [a b], q as [ca cb]. cbn [fst snd] in E. subst cb. unfold both. cbn [fst snd].
    apply means_iff in M; [|assumption]. apply means_iff; [assumption|].
    match goal with K : known _ (a, b) |- _ => destruct K as [Ka Kb]; cbn [fst snd] in Ka, Kb end.
    destruct M as [(-> & -> & _ & Oc)|(Na & Nb & Ma & Mb & Nn)]; [left; auto|]. right. split; [exact Na|]. split; [exact Nb|].
    destruct Ma as [[-> Oa]|(Ua & Ia & ->)]; destruct Mb as [[-> Ob]|(Ub & Ib & E)].
    + tauto.
    + exfalso. subst ca. tauto.
    + exfalso. tauto.
    + subst b. rewrite (N a Ka). split; [right; auto|]. split; [right; auto|]. intros (K & _). auto.
  - rewrite !map_map. cbn [both fst snd]. rewrite <- (map_map fst f), <- (map_map snd f). rewrite !ne_map by (intros s Hs; apply NE; auto). split; congruence.
Qed.

(** * Padding *)
Definition plain (s : bstr) : Prop := ordinary s /\ s <> MARK.
Lemma MARK_ordinary : ordinary MARK.
Proof. split; [intros [K|[K|K]]; discriminate|]. split; [reflexivity|]. intros K. apply pmatch_special_spec in K. discriminate. Qed.
Definition pad_pair (i o : bstr) : Prop := (i, o) = (UNK, MARK) \/ (i, o) = (EPS, MARK) \/ (i, o) = (MARK, UNK) \/ (i, o) = (MARK, EPS).
Lemma padding_sound i o m : pad_pair i o -> padding i o m -> sound m.
Proof.
  intros PP ((ST & L & _) & A). assert (Q : forall t a, In a (nth t (sts m) []) -> (isy a, osy a) = (EPS, EPS) \/ (isy a, osy a) = (i, o)).
  { intros t a Ha. destruct (L t a Ha) as [[-> ->]|[E|[]]]; [auto|right; symmetry; exact E]. }
  split; [split; [exact ST|split]|split; [|split]].
  - intros t a Ha. rewrite !A. destruct (Q t a Ha) as [E|E]; [injection E as -> ->; auto|]. destruct PP as [K|[K|[K|K]]]; rewrite K in E; injection E as -> ->; tauto.
  - unfold specials_ok. rewrite !A. tauto.
  - intros t a Ha. destruct (Q t a Ha) as [E|E]; [injection E as -> ->; split; discriminate|]. destruct PP as [K|[K|[K|K]]]; rewrite K in E; injection E as -> ->; split; discriminate.
  - rewrite A. intros [K|[K|[K|K]]]; discriminate.
  - intros t a Ha. destruct (Q t a Ha) as [E|E]; [injection E as -> ->; split; discriminate|]. destruct PP as [K|[K|[K|K]]]; rewrite K in E; injection E as -> ->; split; discriminate.
Qed.
Lemma padding_strings i o m l w : pad_pair i o -> padding i o m -> pair_string m l w <-> w = 0%Z /\ Forall (means (alpha m) (i, o)) l.
Proof.
  intros PP Pm. pose proof (padding_sound i o m PP Pm) as (_ & P & _). destruct Pm as ((_ & _ & S) & A). rewrite pair_string_labels by exact P. split.
  - intros (k & Lk & F). apply S in Lk. destruct Lk as [Lk ->]. split; [reflexivity|]. clear - Lk F. induction F as [|p q k l M F IH]; [constructor|].
    inversion Lk as [|? ? [E|[]] Lk']; subst. constructor; auto.
  - intros [-> F]. exists (map (fun _ => (i, o)) l). split; [apply S; split; [|reflexivity]; apply Forall_forall; intros p Hp; apply in_map_iff in Hp; destruct Hp as (q & <- & _); left; reflexivity|].
    induction F; constructor; auto.
Qed.
Lemma padding_outside m s : (forall x, In x (alpha m) <-> x = EPS \/ x = UNK \/ x = IDN \/ x = MARK) -> outside (alpha m) s <-> plain s.
Proof.
  intros A. unfold outside, plain. rewrite A. split; intros [O N]; (split; [exact O|]); [tauto|]. destruct O as (S & _).
  intros [->|[->|[->|K]]]; [apply S; left; reflexivity|apply S; right; left; reflexivity|apply S; right; right; reflexivity|tauto].
Qed.
Lemma plain_ne s : plain s -> s <> EPS /\ s <> UNK /\ s <> IDN.
Proof. intros [O _]. apply (outside_ne []). split; [exact O|auto]. Qed.
Lemma ne_none l : ~ In EPS l -> no_epsilons l = l.
Proof. induction l as [|s l IH]; intros H; [reflexivity|]. rewrite ne_keep by (intros ->; apply H; left; reflexivity). f_equal. apply IH. intros K. apply H. right. exact K. Qed.
Lemma plain_no_eps x : Forall plain x -> no_epsilons x = x.
Proof. intros F. apply ne_none. intros H. rewrite Forall_forall in F. apply F, plain_ne in H. tauto. Qed.
Lemma marks_no_eps n : no_epsilons (repeat MARK n) = repeat MARK n.
Proof. apply ne_none. intros H. apply repeat_spec in H. discriminate. Qed.
Lemma eps_no_eps n : no_epsilons (repeat EPS n) = [].
Proof. induction n; [reflexivity|]. cbn [repeat]. rewrite ne_eps. assumption. Qed.
Lemma map_const {A} (y : bstr) (l : list A) : map (fun _ => y) l = repeat y (length l).
Proof. induction l; cbn; congruence. Qed.
Lemma um_related m : padding UNK MARK m -> forall x y w, related m x y w <-> w = 0%Z /\ Forall plain x /\ y = repeat MARK (length x).
Proof.
  intros Pm x y w. assert (PP : pad_pair UNK MARK) by (left; reflexivity). pose proof (padding_outside m) as O. specialize (fun s => O s (proj2 Pm)).
  assert (M : forall p, means (alpha m) (UNK, MARK) p <-> plain (fst p) /\ snd p = MARK).
  { intros [a b]. rewrite means_iff by (apply pair_plain; discriminate). cbn [fst snd]. unfold mean1. rewrite <- O. split.
    - intros [(K & _)|(_ & _ & [[_ Ha]|(K & _)] & [[K' _]|(_ & _ & ->)] & _)]; try discriminate; try congruence; auto.
    - intros [Ha ->]. right. split; [discriminate|]. split; [discriminate|]. split; [left; auto|]. split; [right; repeat split; discriminate|]. intros (_ & K & _). discriminate. }
  rewrite related_pairs. split.
  - intros (l & H & -> & ->). apply (padding_strings _ _ _ _ _ PP Pm) in H. destruct H as [-> F]. split; [reflexivity|].
    assert (G : Forall plain (map fst l) /\ map snd l = repeat MARK (length l)).
    { induction F as [|p l Mp F IH]; [split; constructor|]. apply M in Mp. destruct Mp as [H1 H2]. cbn [map length repeat]. rewrite H2, (proj2 IH). split; [constructor; [exact H1|apply IH]|reflexivity]. }
    destruct G as [G1 G2]. rewrite (plain_no_eps _ G1), G2, marks_no_eps, map_length. auto.
  - intros (-> & F & ->). exists (map (fun s => (s, MARK)) x). split.
    + apply (padding_strings _ _ _ _ _ PP Pm). split; [reflexivity|]. apply Forall_forall. intros p Hp. apply in_map_iff in Hp. destruct Hp as (s & <- & Hs). apply M.
      rewrite Forall_forall in F. auto.
    + rewrite !map_map. cbn [fst snd]. rewrite map_id, map_const, marks_no_eps. rewrite plain_no_eps by exact F. auto.
Qed.
Lemma mu_related m : padding MARK UNK m -> forall x y w, related m x y w <-> w = 0%Z /\ Forall plain y /\ x = repeat MARK (length y).
Proof.
  intros Pm x y w. assert (PP : pad_pair MARK UNK) by (right; right; left; reflexivity). pose proof (padding_outside m) as O. specialize (fun s => O s (proj2 Pm)).
  assert (M : forall p, means (alpha m) (MARK, UNK) p <-> plain (snd p) /\ fst p = MARK).
  { intros [a b]. rewrite means_iff by (apply pair_plain; discriminate). cbn [fst snd]. unfold mean1. rewrite <- O. split.
    - intros [(K & _)|(_ & _ & [[K' _]|(_ & _ & ->)] & [[_ Ha]|(K & _)] & _)]; try discriminate; try congruence; auto.
    - intros [Ha ->]. right. split; [discriminate|]. split; [discriminate|]. split; [right; repeat split; discriminate|]. split; [left; auto|]. intros (K & _). discriminate. }
  rewrite related_pairs. split.
  - intros (l & H & -> & ->). apply (padding_strings _ _ _ _ _ PP Pm) in H. destruct H as [-> F]. split; [reflexivity|].
    assert (G : Forall plain (map snd l) /\ map fst l = repeat MARK (length l)).
    { induction F as [|p l Mp F IH]; [split; constructor|]. apply M in Mp. destruct Mp as [H1 H2]. cbn [map length repeat]. rewrite H2, (proj2 IH). split; [constructor; [exact H1|apply IH]|reflexivity]. }
    destruct G as [G1 G2]. rewrite (plain_no_eps _ G1), G2, marks_no_eps, map_length. auto.
  - intros (-> & F & ->). exists (map (fun s => (MARK, s)) y). split.
    + apply (padding_strings _ _ _ _ _ PP Pm). split; [reflexivity|]. apply Forall_forall. intros p Hp. apply in_map_iff in Hp. destruct Hp as (s & <- & Hs). apply M.
      rewrite Forall_forall in F. auto.
    + rewrite !map_map. cbn [fst snd]. rewrite map_id, map_const, marks_no_eps. rewrite plain_no_eps by exact F. auto.
Qed.
Lemma fixed_strings i o m l w : pad_pair i o -> i <> UNK -> o <> UNK -> padding i o m -> pair_string m l w <-> w = 0%Z /\ l = repeat (i, o) (length l).
Proof.
  intros PP Ni No Pm. rewrite (padding_strings i o m l w PP Pm). assert (I : i <> IDN /\ o <> IDN) by (destruct PP as [K|[K|[K|K]]]; injection K as -> ->; split; discriminate).
  assert (M : forall q, means (alpha m) (i, o) q <-> q = (i, o)) by (intros q; apply means_plain; tauto).
  split; intros [-> H]; (split; [reflexivity|]).
  - induction H as [|q l Hq H IH]; [reflexivity|]. cbn [length repeat]. apply M in Hq. congruence.
  - rewrite H. apply Forall_forall. intros q Hq. apply repeat_spec in Hq. apply M, Hq.
Qed.
Lemma map_repeat {A C} (f : A -> C) x n : map f (repeat x n) = repeat (f x) n.
Proof. induction n; cbn; congruence. Qed.
Lemma em_related m : padding EPS MARK m -> forall x y w, related m x y w <-> w = 0%Z /\ x = [] /\ exists n, y = repeat MARK n.
Proof.
  intros Pm x y w. assert (PP : pad_pair EPS MARK) by (right; left; reflexivity). assert (D1 : EPS <> UNK) by discriminate. assert (D2 : MARK <> UNK) by discriminate.
  rewrite related_pairs. split.
  - intros (l & H & -> & ->). apply (fixed_strings _ _ _ _ _ PP D1 D2 Pm) in H. destruct H as [-> ->]. split; [reflexivity|].
    rewrite !map_repeat. cbn [fst snd]. rewrite eps_no_eps, marks_no_eps. eauto.
  - intros (-> & -> & n & ->). exists (repeat (EPS, MARK) n). split; [apply (fixed_strings _ _ _ _ _ PP D1 D2 Pm); rewrite repeat_length; auto|].
    rewrite !map_repeat. cbn [fst snd]. rewrite eps_no_eps, marks_no_eps. auto.
Qed.
Lemma me_related m : padding MARK EPS m -> forall x y w, related m x y w <-> w = 0%Z /\ y = [] /\ exists n, x = repeat MARK n.
Proof.
  intros Pm x y w. assert (PP : pad_pair MARK EPS) by (right; right; right; reflexivity). assert (D1 : EPS <> UNK) by discriminate. assert (D2 : MARK <> UNK) by discriminate.
  rewrite related_pairs. split.
  - intros (l & H & -> & ->). apply (fixed_strings _ _ _ _ _ PP D2 D1 Pm) in H. destruct H as [-> ->]. split; [reflexivity|].
    rewrite !map_repeat. cbn [fst snd]. rewrite eps_no_eps, marks_no_eps. eauto.
  - intros (-> & -> & n & ->). exists (repeat (MARK, EPS) n). split; [apply (fixed_strings _ _ _ _ _ PP D2 D1 Pm); rewrite repeat_length; auto|].
    rewrite !map_repeat. cbn [fst snd]. rewrite eps_no_eps, marks_no_eps. auto.
Qed.
