(** Proofs: removing illegal paths of flags. *)
From Verif Require Import Base Flags_Model Flags_Spec Flags_Proofs BT_Model BT_Spec BT_Proofs BT_Proofs3 BT_Proofs4 BT_Proofs5 Harm_Model Harm_Spec Harm_Proofs Co_Spec Co_Model Co_Proofs Co_Proofs4 Co_Props PU_Spec PU_Model PU_Proofs PU_Proofs4 PU_Proofs7
  Cr_Proofs Cr_Proofs3 FH_Spec FH_Model FH_Proofs FH_Proofs2.

(** * Parts of flags *)
Lemma occurs_iff part s : occurs part s = true <-> contains part s.
Proof.
  unfold contains. induction s as [|c s IH]; cbn [occurs]; rewrite orb_true_iff, is_prefix_spec.
  - split; [intros [(r & E)|K]; [exists [], r; exact E|discriminate]|]. intros (a & b & E). destruct a; [|discriminate]. left. exists b. exact E.
  - split.
    + intros [(r & E)|K]; [exists [], r; exact E|]. apply IH in K. destruct K as (a & b & ->). exists (c :: a), b. reflexivity.
    + intros ([|d a] & b & E); [left; exists b; exact E|]. injection E as <- E. right. apply IH. exists a, b. exact E.
Qed.
Lemma flags_with_In part g s : In s (flags_with part g) <-> In s (alpha g) /\ is_flag s /\ contains part s.
Proof. unfold flags_with. rewrite filter_In, andb_true_iff, flag_iff, occurs_iff. tauto. Qed.
Lemma flag_shape s : is_diacritic s = true -> exists m, s = B "@" ++ m ++ B "@" /\ dollar s = B "$" ++ m ++ B "$".
Proof.
  intros D. assert (Q : exists m, s = B "@" ++ m ++ B "@").
  { apply is_diacritic_grammar in D. destruct D as [(o & f & _ & _ & _ & ->)|(o & f & v & _ & _ & ->)]; unfold form1, form2.
    - exists (B o ++ B "." ++ f). rewrite <- !app_assoc. reflexivity.
    - exists (B o ++ B "." ++ f ++ B "." ++ v). rewrite <- !app_assoc. reflexivity. }
  destruct Q as (m & ->). exists m. split; [reflexivity|]. unfold dollar. change (B "@" ++ m ++ B "@") with ("@"%char :: (m ++ B "@")). cbn [tl].
  change (B "@") with ["@"%char]. rewrite removelast_last. reflexivity.
Qed.
Lemma dollar_inj s s' : is_diacritic s = true -> is_diacritic s' = true -> dollar s = dollar s' -> s = s'.
Proof.
  intros D D' E. destruct (flag_shape s D) as (m & -> & Em). destruct (flag_shape s' D') as (m' & -> & Em'). rewrite Em, Em' in E. apply app_inv_head, app_inv_tail in E. subst. reflexivity.
Qed.
Lemma dollar_cons s : dollar s = "$"%char :: removelast (tl s) ++ B "$".
Proof. reflexivity. Qed.
Lemma dollar_ordinary s : ordinary (dollar s).
Proof. rewrite dollar_cons. apply letter_ordinary. discriminate. Qed.
Lemma dollar_is_form s : is_diacritic s = true -> dollar_form (dollar s).
Proof. intros D. destruct (flag_shape s D) as (m & E & ->). exists m. split; [reflexivity|]. rewrite <- E. apply flag_iff, D. Qed.
Lemma dollar_internal s : ~ internal_symbol (dollar s).
Proof. intros (m & E). rewrite dollar_cons in E. discriminate E. Qed.

Lemma mget_map {V} (f : bstr -> bstr) (v : bstr -> V) l x : (forall s s', In s l -> In s' l -> f s = f s' -> s = s') ->
  In x l -> mget bcmp (f x) (map (fun s => (f s, v s)) l) = Some (v x).
Proof.
  intros I H. destruct (mget bcmp (f x) (map (fun s => (f s, v s)) l)) as [u|] eqn:E.
  - apply (mget_In bcmp bcmp_eq) in E. apply in_map_iff in E. destruct E as (s & Es & Hs). injection Es as E1 <-. rewrite (I s x Hs H E1). reflexivity.
  - exfalso. apply (mget_None_notin bcmp bcmp_eq) with (v := v x) in E. apply E, in_map_iff. exists x. auto.
Qed.
Lemma mget_map_none {V} (f : bstr -> bstr) (v : bstr -> V) l y : (forall s, In s l -> f s <> y) -> mget bcmp y (map (fun s => (f s, v s)) l) = None.
Proof.
  intros N. destruct (mget bcmp y _) as [u|] eqn:E; [|reflexivity]. apply (mget_In bcmp bcmp_eq) in E. apply in_map_iff in E. destruct E as (s & Es & Hs). injection Es as E1 _. destruct (N s Hs E1).
Qed.

(** * Substitution of symbols *)
Lemma substitute_result (m : list (bstr * bstr)) g : Forall (fun p : bstr * bstr => fst p <> [] /\ snd p <> []) m -> exists g', substitute_symbols m g = Ok g' /\
  fin g' = fin g /\ (forall s, nth s (sts g') [] = map (fun a => relabel a (both (subst_map_symbol m) (label a))) (nth s (sts g) [])) /\
  (forall x, In x (alpha g') <-> In x (alpha g) \/ exists y, used g y /\ mget bcmp y m = Some x) /\ length (sts g') = length (sts g) /\
  (forall l w, accepts g' l w <-> exists k, accepts g k w /\ l = map (both (subst_map_symbol m)) k).
Proof.
  intros V. unfold substitute_symbols. replace (existsb _ m) with false.
  2:{ symmetry. apply existsb_false. intros [x y] H. rewrite Forall_forall in V. destruct (V _ H) as [V1 V2]. unfold valid_pair. cbn [fst snd] in *. destruct x, y; try congruence; reflexivity. }
  destruct (BT_Proofs.add_symbols_sts g (flat_map (added_by_map m) (concat (sts g)))) as [Es Ef]. cbv zeta.
  set (g1 := add_symbols g _) in *. set (g' := with_sts g1 _).
  assert (N : forall s, nth s (sts g') [] = map (fun a => relabel a (both (subst_map_symbol m) (label a))) (nth s (sts g) [])).
  { intros s. unfold g'. cbn [sts with_sts]. rewrite nth_map_nil by reflexivity. rewrite Es. reflexivity. }
  exists g'. split; [reflexivity|]. split; [exact Ef|]. split; [exact N|]. split; [|split].
  - intros x. unfold g'. cbn [with_sts alpha]. unfold g1. rewrite In_add_symbols, in_flat_map. split.
    + intros [(a & Ha & H)|H]; [right|auto]. apply arcs_concat in Ha. destruct Ha as (s & Ha). unfold added_by_map in H. apply in_app_or in H.
      destruct H as [H|H]; [exists (isy a)|exists (osy a)]; (split; [exists s, a; auto|]); revert H; (destruct (mget bcmp _ m); [intros [<-|[]]; reflexivity|intros []]).
    + intros [H|(y & (s & a & Ha & Ey) & M)]; [auto|]. left. exists a. split; [apply arcs_concat; exists s; exact Ha|]. unfold added_by_map. apply in_or_app.
      destruct Ey as [->| ->]; rewrite M; [left|right]; left; reflexivity.
  - unfold g'. cbn [with_sts sts]. rewrite map_length, Es. reflexivity.
  - apply (accepts_relabelled (both (subst_map_symbol m))); [exact Ef|exact N].
Qed.
Lemma substitute_sound (m : list (bstr * bstr)) g g' : keeps_special (subst_map_symbol m) -> Forall (fun p : bstr * bstr => fst p <> [] /\ snd p <> []) m -> sound g -> substitute_symbols m g = Ok g' -> sound g'.
Proof.
  intros K V (((S1 & S2 & S3) & Y & P) & I & N0 & N) E. destruct (substitute_result m g V) as (h & Eh & Ef & Ns & A & L & _). rewrite E in Eh. injection Eh as <-.
  assert (Q : forall s a, In a (nth s (sts g') []) -> exists b, In b (nth s (sts g) []) /\ tgt a = tgt b /\ isy a = subst_map_symbol m (isy b) /\ osy a = subst_map_symbol m (osy b)).
  { intros s a Ha. rewrite Ns in Ha. apply in_map_iff in Ha. destruct Ha as (b & <- & Hb). exists b. auto. }
  assert (M : forall y x, mget bcmp y m = Some x -> x <> []).
  { intros y x Ex. apply (mget_In bcmp bcmp_eq) in Ex. rewrite Forall_forall in V. apply V in Ex. apply Ex. }
  assert (T : forall s a y, In a (nth s (sts g) []) -> y = isy a \/ y = osy a -> In (subst_map_symbol m y) (alpha g') /\ (y <> [] -> subst_map_symbol m y <> [])).
  { intros s a y Ha Ey. assert (Hy : In y (alpha g)) by (destruct (Y s a Ha); destruct Ey as [->| ->]; assumption). unfold subst_map_symbol. rewrite A. destruct (mget bcmp y m) as [x|] eqn:Ex; [|auto].
    split; [right; exists y; split; [exists s, a; auto|exact Ex]|intros _; exact (M _ _ Ex)]. }
  split; [split; [|split]|split; [|split]].
  - split; [|split].
    + intros Z. apply S1. destruct (sts g); [reflexivity|]. rewrite Z in L. discriminate L.
    + intros s a Ha. rewrite L. destruct (Q s a Ha) as (b & Hb & -> & _). exact (S2 s b Hb).
    + intros s w. rewrite L, Ef. apply S3.
  - intros s a Ha. destruct (Q s a Ha) as (b & Hb & _ & -> & ->). split; apply (T s b); auto.
  - destruct P as (P1 & P2 & P3). split; [|split]; apply A; auto.
  - intros s a Ha. destruct (Q s a Ha) as (b & Hb & _ & -> & ->). fold IDN. rewrite !(proj2 (proj2 (K _))). exact (I s b Hb).
  - rewrite A. intros [H|(y & _ & H)]; [tauto|]. exact (M _ _ H eq_refl).
  - intros s a Ha. destruct (Q s a Ha) as (b & Hb & _ & -> & ->). destruct (N s b Hb) as [N1 N2]. split; apply (T s b); auto.
Qed.

(** * The restriction *)
Section Restriction.
  Variables f1 f2 : list bstr.
  Let r := get_flag_path_restriction f1 f2.
  Definition dollars (l : list bstr) (x : bstr) : Prop := exists s, In s l /\ x = dollar s.
  Lemma in_loops n l a : In a (loops_on n l) <-> exists s, In s l /\ a = Arc n (dollar s) (dollar s) 0.
  Proof using. unfold loops_on. rewrite in_map_iff. split; intros (s & H & K); exists s; auto. Qed.
  Lemma restriction_arcs s a : In a (nth s (sts r) []) <->
    s <= 1 /\ a = Arc 0 IDN IDN 0 \/ s = 0 /\ (exists x, dollars f1 x /\ a = Arc 0 x x 0) \/ s <= 1 /\ (exists x, dollars f2 x /\ a = Arc 1 x x 0).
  Proof using.
    assert (E : forall n l, In a (loops_on n l) <-> exists x, dollars l x /\ a = Arc n x x 0).
    { intros n l. rewrite in_loops. split; [intros (y & H & ->); exists (dollar y); split; [exists y; auto|reflexivity]|]. intros (x & (y & H & ->) & ->). exists y. auto. }
    unfold r, get_flag_path_restriction, copy_of. cbn [sts]. destruct s as [|[|s]]; cbn [nth].
    - cbn [In]. rewrite in_app_iff, !E. split.
      + intros [<-|[H|H]]; [left; auto|right; left; auto|right; right; auto].
      + intros [[_ ->]|[[_ H]|[_ H]]]; auto.
    - cbn [In]. rewrite !E. split.
      + intros [<-|H]; [left; auto|right; right; auto].
      + intros [[_ ->]|[[K _]|[_ H]]]; [auto|discriminate|auto].
    - split; [destruct s; intros []|]. intros [[K _]|[[K _]|[K _]]]; lia.
  Qed.
  Lemma restriction_alpha x : In x (alpha r) <-> x = EPS \/ x = UNK \/ x = IDN \/ dollars f1 x \/ dollars f2 x.
  Proof using.
    unfold r, get_flag_path_restriction. rewrite copy_alpha. pose proof restriction_arcs as RA. unfold r, get_flag_path_restriction, copy_of in RA. cbn [sts] in RA. split.
    - intros [K|[K|[K|(s & a & Ha & Ex)]]]; auto. apply RA in Ha. destruct Ha as [[_ ->]|[[_ (y & D & ->)]|[_ (y & D & ->)]]]; cbn [isy osy] in Ex; destruct Ex as [->| ->]; auto.
    - intros [K|[K|[K|[D|D]]]]; auto; right; right; right.
      + exists 0, (Arc 0 x x 0). split; [apply RA; right; left; split; [reflexivity|exists x; auto]|left; reflexivity].
      + exists 0, (Arc 1 x x 0). split; [apply RA; right; right; split; [lia|exists x; auto]|left; reflexivity].
  Qed.
  Lemma dollars_ordinary l x : dollars l x -> ordinary x.
  Proof using. intros (s & _ & ->). apply dollar_ordinary. Qed.
  Lemma ordinary_ne x : ordinary x -> x <> EPS /\ x <> UNK /\ x <> IDN.
  Proof using. intros O. apply (outside_ne []). split; [exact O|auto]. Qed.
  Lemma restriction_sound : sound r.
  Proof using.
    split; [split; [|split]|split; [|split]].
    - split; [discriminate|]. split.
      + intros s a Ha. change (length (sts r)) with 2. apply restriction_arcs in Ha. destruct Ha as [[_ ->]|[[_ (y & D & ->)]|[_ (y & D & ->)]]]; cbn [tgt]; lia.
      + intros [|[|s]] w M; change (length (sts r)) with 2; try lia. discriminate M.
    - intros s a Ha. rewrite !restriction_alpha. apply restriction_arcs in Ha. destruct Ha as [[_ ->]|[[_ (y & D & ->)]|[_ (y & D & ->)]]]; cbn [isy osy]; tauto.
    - split; [|split]; apply restriction_alpha; auto.
    - intros s a Ha. apply restriction_arcs in Ha. destruct Ha as [[_ ->]|[[_ (y & D & ->)]|[_ (y & D & ->)]]]; cbn [isy osy]; tauto.
    - rewrite restriction_alpha. intros [K|[K|[K|[(s & _ & K)|(s & _ & K)]]]]; discriminate K.
    - intros s a Ha. apply restriction_arcs in Ha. destruct Ha as [[_ ->]|[[_ (y & (u & _ & ->) & ->)]|[_ (y & (u & _ & ->) & ->)]]]; cbn [isy osy]; split; discriminate.
  Qed.
  Lemma restriction_unknown : ~ unknown_output r.
  Proof using.
    intros (s & a & Ha & E). apply restriction_arcs in Ha. destruct Ha as [[_ ->]|[[_ (y & (u & _ & ->) & ->)]|[_ (y & (u & _ & ->) & ->)]]]; cbn [osy] in E; discriminate E.
  Qed.
  Inductive walk : nat -> list bstr -> Prop :=
  | walk_nil s : walk s []
  | walk_other s x z : outside (alpha r) x -> walk 0 z -> walk s (x :: z)
  | walk_first x z : dollars f1 x -> walk 0 z -> walk 0 (x :: z)
  | walk_second s x z : dollars f2 x -> walk 1 z -> walk s (x :: z).
  Lemma dollar_means l x q : dollars l x -> means (alpha r) (x, x) q <-> q = (x, x).
  Proof using. intros D. apply dollars_ordinary, ordinary_ne in D. apply means_plain. tauto. Qed.
  Lemma identity_means q : means (alpha r) (IDN, IDN) q <-> exists x, outside (alpha r) x /\ q = (x, x).
  Proof using.
    split; [|intros (x & O & ->); apply means_identity, O]. intros M. remember (IDN, IDN) as p eqn:E. destruct M as [x O|x y _ _ _|x o _ _|i y _ _|i o _ _ H];
      pose proof (f_equal fst E) as E1; pose proof (f_equal snd E) as E2; cbn [fst snd] in E1, E2; try discriminate E1; try discriminate E2.
    - exists x. auto.
    - destruct H. auto.
  Qed.
  Lemma run_walk s k v t : run r s k v t -> forall l, Forall2 (means (alpha r)) k l -> v = 0%Z /\ map fst l = map snd l /\ walk s (map fst l) /\ ~ In EPS (map fst l).
  Proof using.
    induction 1 as [s|s a k w t Ha R IH]; intros l M; inversion M as [|? q ? l' Mq Ml]; subst.
    - split; [reflexivity|]. split; [reflexivity|]. split; [constructor|auto].
    - destruct (IH l' Ml) as (-> & E & W & N). apply restriction_arcs in Ha. cbn [map].
      destruct Ha as [[_ ->]|[[-> (y & D & ->)]|[_ (y & D & ->)]]]; cbn [isy osy tgt wt] in *.
      + apply identity_means in Mq. destruct Mq as (x & O & ->). cbn [fst snd In]. rewrite <- E. split; [reflexivity|]. split; [reflexivity|]. split; [apply walk_other; assumption|].
        intros [K|K]; [|auto]. apply outside_ne in O. tauto.
      + apply (dollar_means f1 y) in Mq; [|exact D]. subst q. cbn [fst snd In]. rewrite <- E. split; [reflexivity|]. split; [reflexivity|]. split; [apply walk_first; assumption|].
        intros [K|K]; [|auto]. apply dollars_ordinary, ordinary_ne in D. tauto.
      + apply (dollar_means f2 y) in Mq; [|exact D]. subst q. cbn [fst snd In]. rewrite <- E. split; [reflexivity|]. split; [reflexivity|]. split; [apply walk_second; assumption|].
        intros [K|K]; [|auto]. apply dollars_ordinary, ordinary_ne in D. tauto.
  Qed.
  Lemma walk_run s z : walk s z -> s <= 1 -> ~ In EPS z /\ exists k t, run r s k 0 t /\ t <= 1 /\ Forall2 (means (alpha r)) k (map (fun x => (x, x)) z).
  Proof using.
    induction 1 as [s|s x z O W IH|x z D W IH|s x z D W IH]; intros L.
    - split; [auto|]. exists [], s. split; [constructor|]. split; [exact L|constructor].
    - destruct IH as (N & k & t & R & Lt & M); [lia|]. split; [intros [K|K]; [apply outside_ne in O; tauto|auto]|]. exists ((IDN, IDN) :: k), t. split; [|split; [exact Lt|]].
      + apply (run_cons r s (Arc 0 IDN IDN 0) k 0 t); [apply restriction_arcs; auto|exact R].
      + cbn [map]. constructor; [apply means_identity, O|exact M].
    - destruct IH as (N & k & t & R & Lt & M); [lia|]. split; [intros [K|K]; [apply dollars_ordinary, ordinary_ne in D; tauto|auto]|]. exists ((x, x) :: k), t. split; [|split; [exact Lt|]].
      + apply (run_cons r 0 (Arc 0 x x 0) k 0 t); [apply restriction_arcs; right; left; split; [reflexivity|exists x; auto]|exact R].
      + cbn [map]. constructor; [apply (dollar_means f1 x); auto|exact M].
    - destruct IH as (N & k & t & R & Lt & M); [lia|]. split; [intros [K|K]; [apply dollars_ordinary, ordinary_ne in D; tauto|auto]|]. exists ((x, x) :: k), t. split; [|split; [exact Lt|]].
      + apply (run_cons r s (Arc 1 x x 0) k 0 t); [apply restriction_arcs; right; right; split; [exact L|exists x; auto]|exact R].
      + cbn [map]. constructor; [apply (dollar_means f2 x); auto|exact M].
  Qed.
  Lemma restriction_related y z w : related r y z w <-> w = 0%Z /\ y = z /\ walk 0 z.
  Proof using.
    split.
    - intros (l & (k & (t & v & f & R & Mf & ->) & M) & -> & ->). destruct (run_walk 0 k v t R l M) as (-> & E & W & N). rewrite <- E. rewrite (ne_none _ N).
      split; [|auto]. destruct t as [|[|t]]; cbn in Mf; [injection Mf as <-; reflexivity|injection Mf as <-; reflexivity|discriminate Mf].
    - intros (-> & -> & W). destruct (walk_run 0 z W) as (N & k & t & R & Lt & M); [lia|]. exists (map (fun x => (x, x)) z). split.
      + exists k. split; [|exact M]. exists t, 0%Z, 0%Z. split; [exact R|]. split; [|reflexivity]. destruct t as [|[|t]]; [reflexivity..|lia].
      + rewrite !map_map. cbn [fst snd]. rewrite map_id, (ne_none _ N). auto.
  Qed.
End Restriction.
