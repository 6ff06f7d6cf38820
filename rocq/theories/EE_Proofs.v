(** The extensions transducer of hfst-expand-equivalences. *)
From Verif Require Import Base Flags_Model BT_Model BT_Spec BT_Proofs BT_Proofs2 BT_Proofs3 BT_Proofs4 BT_Proofs5 BT_Props Harm_Model Harm_Spec Harm_Proofs Harm_Props Co_Spec Co_Model Co_Proofs Co_Proofs2 Co_Proofs3 Co_Proofs4 Co_Props PU_Spec PU_Model PU_Proofs PU_Proofs2 PU_Proofs3 PU_Proofs4 PU_Proofs5 PU_Proofs6 PU_Proofs7 EE_Spec EE_Model.

(** * No transition with unknown *)
Definition no_unknown (g : graph) : Prop := forall s a, In a (nth s (sts g) []) -> isy a <> UNK /\ osy a <> UNK.
Lemma grown_no_unknown m g al : no_unknown g -> (forall k, In k m -> k <> UNK) -> no_unknown (harmonized m g al).
Proof.
  intros A M s a Ha. change (In a (nth s (sts (grown unk_new m (grown id_new m g))) [])) in Ha.
  assert (G1 : forall b, In b (nth s (sts (grown id_new m g)) []) -> isy b <> UNK /\ osy b <> UNK).
  { intros b Hb. apply nth_grown in Hb. destruct Hb as [Hb|(c & Hc & Hb)]; [exact (A s b Hb)|]. apply id_new_In in Hb. destruct Hb as (_ & k & Hk & ->). cbn [isy osy]. auto. }
  apply nth_grown in Ha. destruct Ha as [Ha|(b & Hb & Ha)]; [auto|]. destruct (G1 b Hb) as [Ub Ob].
  apply unk_new_In in Ha. exfalso. destruct Ha as [(E & _)|[(E & _)|(E & _)]]; intuition congruence.
Qed.
Lemma from_no_unknown gs m : labels_from gs m -> (forall g, In g gs -> no_unknown g) -> no_unknown m.
Proof.
  intros [_ L] N s a Ha. destruct (L s a Ha) as [[-> ->]|(g & t & b & Hg & Hb & <- & <-)]; [split; discriminate|].
  exact (N g Hg t b Hb).
Qed.
Lemma disjunct_no_unknown g1 g2 m : sound g1 -> sound g2 -> no_unknown g1 -> no_unknown g2 -> disjunct g1 g2 (Ok m) -> no_unknown m.
Proof.
  intros (W1 & P1 & N1) (W2 & P2 & N2) U1 U2 D. unfold disjunct, apply_binary in D.
  pose proof (Co_Proofs4.t1_knows g1 g2) as Q1. pose proof (Co_Proofs4.t2_knows g1 g2) as Q2.
  set (u1 := insert_missing_special_symbols g1 g2) in *. set (u2 := insert_missing_special_symbols g2 u1) in *.
  pose proof (well_formed_knows _ _ _ Q1 W1) as (X1 & Y1 & S1). pose proof (well_formed_knows _ _ _ Q2 W2) as (X2 & Y2 & S2).
  pose proof (paired_knows _ _ _ Q1 P1) as P1'. pose proof (paired_knows _ _ _ Q2 P2) as P2'.
  pose proof (nonempty_knows _ _ _ Q1 N1) as N1'. pose proof (nonempty_knows _ _ _ Q2 N2) as N2'.
  destruct (harmonize_ok u1 u2 S1 S2 P1' P2' N1' N2') as (al1 & al2 & E & A1 & A2).
  pose proof (missing_21 u1 u2 al1 S1 A1) as M1. pose proof (missing_12 u1 u2 al2 S2 A2) as M2.
  rewrite E in D. destruct D as (m' & (L & _) & E'). injection E' as <-.
  assert (V1 : ~ In [] al1) by (rewrite A1; intros [K|K]; [exact (proj1 N1' K)|exact (proj1 N2' K)]).
  assert (V2 : ~ In [] al2) by (rewrite A2; intros [K|K]; [exact (proj1 N1' K)|exact (proj1 N2' K)]).
  apply (from_no_unknown _ _ L). intros g [<-|[<-|[]]].
  - apply grown_no_unknown; [|intros k Hk; exact (proj2 (proj2 (missing_good _ _ _ V1 M1 k Hk)))].
    intros s a Ha. rewrite (proj1 Q1) in Ha. exact (U1 s a Ha).
  - apply grown_no_unknown; [|intros k Hk; exact (proj2 (proj2 (missing_good _ _ _ V2 M2 k Hk)))].
    intros s a Ha. rewrite (proj1 Q2) in Ha. exact (U2 s a Ha).
Qed.

(** * Transducers of one pair *)
Lemma pair_alpha i o x : In x (alpha (pair_fst i o)) <-> x = i \/ x = o \/ special x.
Proof.
  cbn [pair_fst alpha]. unfold initialize_alphabet. rewrite !(In_sadd _ bcmp_eq). unfold special. cbn [In]. unfold EPS, UNK, IDN. intuition.
Qed.
Lemma pair_run i o l w t : run (pair_fst i o) 0 l w t <-> l = [] /\ w = 0%Z /\ t = 0 \/ l = [(i, o)] /\ w = 0%Z /\ t = 1.
Proof.
  split.
  - intros R. inversion R as [|s a l' v u Ha R']; subst; [auto|]. right. cbn in Ha. destruct Ha as [<-|[]]. cbn [tgt isy osy wt] in *.
    inversion R' as [|s a l2 v2 u Ha R2]; subst; [auto|]. cbn in Ha. destruct Ha.
  - intros [(-> & -> & ->)|(-> & -> & ->)]; [constructor|]. change 0%Z with (0 + 0)%Z. apply (run_cons _ 0 (Arc 1 i o 0)); [left; reflexivity|constructor].
Qed.
Lemma pair_accepts i o l w : accepts (pair_fst i o) l w <-> l = [(i, o)] /\ w = 0%Z.
Proof.
  split.
  - intros (t & v & f & R & F & ->). apply pair_run in R. destruct R as [(-> & -> & ->)|(-> & -> & ->)]; cbn in F; [discriminate|].
    injection F as <-. auto.
  - intros [-> ->]. exists 1, 0%Z, 0%Z. split; [apply pair_run; auto|]. split; reflexivity.
Qed.
Lemma pair_well_formed i o : well_formed (pair_fst i o).
Proof.
  assert (Ar : forall s a, In a (nth s (sts (pair_fst i o)) []) -> a = Arc 1 i o 0).
  { intros [|[|[|s]]] a Ha; cbn in Ha; try destruct Ha as [<-|[]]; try destruct Ha. reflexivity. }
  split; [|split].
  - split; [discriminate|]. split.
    + intros s a Ha. rewrite (Ar s a Ha). cbn. lia.
    + intros [|[|s]] w E; cbn in E; try discriminate. cbn. lia.
  - intros s a Ha. rewrite (Ar s a Ha). cbn [isy osy]. rewrite !pair_alpha. auto.
  - split; [|split]; apply pair_alpha; unfold special; auto.
Qed.
Lemma pair_sound i o : i <> [] -> o <> [] -> (i = IDN <-> o = IDN) -> sound (pair_fst i o).
Proof.
  intros Ni No P.
  assert (Ar : forall s a, In a (nth s (sts (pair_fst i o)) []) -> a = Arc 1 i o 0).
  { intros [|[|[|s]]] a Ha; cbn in Ha; try destruct Ha as [<-|[]]; try destruct Ha. reflexivity. }
  split; [apply pair_well_formed|]. split.
  - intros s a Ha. rewrite (Ar s a Ha). exact P.
  - split.
    + rewrite pair_alpha. intros [E|[E|E]]; [congruence|congruence|]. destruct E as [E|[E|E]]; discriminate E.
    + intros s a Ha. rewrite (Ar s a Ha). auto.
Qed.
Lemma pair_no_unknown i o : i <> UNK -> o <> UNK -> no_unknown (pair_fst i o).
Proof. intros Ni No [|[|[|s]]] a Ha; cbn in Ha; try destruct Ha as [<-|[]]; try destruct Ha. auto. Qed.

Lemma usable_special x : usable x -> ~ special x.
Proof. intros [_ N] S. apply N, reserved_internal, S. Qed.
Lemma usable_ne x : usable x -> x <> EPS /\ x <> UNK /\ x <> IDN.
Proof. intros U. apply usable_special in U. unfold special in U. repeat split; intros ->; apply U; unfold EPS, UNK, IDN; auto. Qed.

Lemma identity_strings l w : pair_string identity_fst l w <-> w = 0%Z /\ exists a, l = [(a, a)] /\ ordinary a.
Proof.
  assert (O : forall x, outside (alpha identity_fst) x <-> ordinary x).
  { intros x. unfold outside, identity_fst. rewrite pair_alpha. split; [intros [H _]; exact H|]. intros H. split; [exact H|].
    intros [->|[->|K]]; destruct H as [H _]; apply H; [unfold special, IDN; auto|unfold special, IDN; auto|exact K]. }
  split.
  - intros (c & (m & A & F) & ->). apply pair_accepts in A. destruct A as [-> ->]. split; [reflexivity|].
    inversion F as [|? q ? ? M F']; subst. inversion F'; subst. destruct q as [a b]. apply means_iff in M; [|unfold paired; cbn; tauto].
    destruct M as [(_ & _ & -> & M)|(K & _)]; [|congruence]. exists b. apply O in M. split; [|exact M].
    rewrite we_none; [reflexivity|]. intros p [<-|[]] E. injection E as ->. apply (proj1 M). unfold special, EPS. auto.
  - intros (-> & a & -> & Oa). exists [(a, a)]. split.
    + exists [(IDN, IDN)]. split; [apply pair_accepts; auto|]. constructor; [|constructor]. apply means_identity, O, Oa.
    + rewrite we_none; [reflexivity|]. intros p [<-|[]] E. injection E as ->. apply (proj1 Oa). unfold special, EPS. auto.
Qed.
Lemma pair_strings i o l w : usable i -> usable o -> pair_string (pair_fst i o) l w <-> w = 0%Z /\ l = [(i, o)].
Proof.
  intros Ui Uo. destruct (usable_ne i Ui) as (Ei & Ki & Di). destruct (usable_ne o Uo) as (Eo & Ko & Do).
  assert (W : without_empty [(i, o)] = [(i, o)]) by (apply we_none; intros p [<-|[]] E; injection E as ->; congruence).
  split.
  - intros (c & (m & A & F) & ->). apply pair_accepts in A. destruct A as [-> ->]. split; [reflexivity|].
    inversion F as [|? q ? ? M F']; subst. inversion F'; subst. apply means_plain in M; [|auto]. subst q. exact W.
  - intros (-> & ->). exists [(i, o)]. split; [|symmetry; exact W]. exists [(i, o)]. split; [apply pair_accepts; auto|].
    constructor; [|constructor]. apply means_plain; auto.
Qed.

(** * The extensions before the closure *)
Record ext_ok (exts : list (bstr * bstr)) (e : graph) : Prop := {
  xo_sound : sound e;
  xo_internal : no_internal_symbols e;
  xo_unknown : no_unknown e;
  xo_strings : forall l w, pair_string e l w <-> w = 0%Z /\ exists a b, l = [(a, b)] /\ variant exts a b }.
Lemma identity_ok : ext_ok [] identity_fst.
Proof.
  constructor.
  - apply pair_sound; [discriminate|discriminate|tauto].
  - intros x I H. apply pair_alpha in H. destruct H as [->|[->|H]]; [unfold special, IDN; auto|unfold special, IDN; auto|exact H].
  - apply pair_no_unknown; discriminate.
  - intros l w. rewrite identity_strings. split.
    + intros (-> & a & -> & O). split; [reflexivity|]. exists a, a. split; [reflexivity|]. left. auto.
    + intros (-> & a & b & -> & [[-> O]|[]]). split; [reflexivity|]. exists b. auto.
Qed.
Lemma pair_internal i o : usable i -> usable o -> no_internal_symbols (pair_fst i o).
Proof.
  intros Ui Uo x I H. apply pair_alpha in H. destruct H as [->|[->|H]]; [destruct Ui; contradiction|destruct Uo; contradiction|exact H].
Qed.
Lemma pair_usable_sound i o : usable i -> usable o -> sound (pair_fst i o).
Proof.
  intros Ui Uo. destruct (usable_ne i Ui) as (Ei & Ki & Di). destruct (usable_ne o Uo) as (Eo & Ko & Do).
  apply pair_sound; [apply Ui|apply Uo|tauto].
Qed.
Lemma extended_ok exts e i o r : ext_ok exts e -> usable i -> usable o -> disjunct e (pair_fst i o) r ->
  exists m, r = Ok m /\ ext_ok (exts ++ [(i, o)]) m.
Proof.
  intros [S I U T] Ui Uo D. pose proof (pair_usable_sound i o Ui Uo) as Sp. pose proof (pair_internal i o Ui Uo) as Ip.
  destruct (disjunct_result e (pair_fst i o) e (pair_fst i o) S Sp (knows_self _ _ S Ip) (knows_self _ _ Sp I) r D) as (m & -> & Sm & A & St).
  exists m. split; [reflexivity|]. destruct (usable_ne i Ui) as (_ & Ki & _). destruct (usable_ne o Uo) as (_ & Ko & _). constructor.
  - exact Sm.
  - intros x X H. apply A in H. destruct H as [H|H]; [exact (I x X H)|exact (Ip x X H)].
  - apply (disjunct_no_unknown e (pair_fst i o)); [exact S|exact Sp|exact U|apply pair_no_unknown; assumption|exact D].
  - intros l w. rewrite St, T, (pair_strings i o l w Ui Uo). unfold variant. split.
    + intros [(-> & a & b & -> & V)|(-> & ->)]; (split; [reflexivity|]).
      * exists a, b. split; [reflexivity|]. destruct V as [V|V]; [left; exact V|right; apply in_or_app; left; exact V].
      * exists i, o. split; [reflexivity|]. right. apply in_or_app. right. left. reflexivity.
    + intros (-> & a & b & -> & V). destruct V as [V|V]; [left; split; [reflexivity|]; exists a, b; auto|].
      apply in_app_or in V. destruct V as [V|[V|[]]]; [left; split; [reflexivity|]; exists a, b; auto|].
      injection V as -> ->. right. auto.
Qed.
Lemma add_extensions_ok l : forall exts e r, ext_ok exts e -> all_usable l -> add_extensions e l r ->
  exists m, r = Ok m /\ ext_ok (exts ++ l) m.
Proof.
  induction l as [|[i o] l IH]; intros exts e r X A D.
  - cbn in D. exists e. rewrite app_nil_r. auto.
  - inversion A as [|? ? [Ui Uo] A']; subst. cbn [add_extensions] in D.
    apply (andthen_Ok _ _ _ (ext_ok (exts ++ [(i, o)]))) in D.
    + destruct D as (m & Xm & D). destruct (IH _ m r Xm A' D) as (k & -> & Xk). exists k. rewrite <- app_assoc in Xk. auto.
    + intros x Dx. exact (extended_ok exts e i o x X Ui Uo Dx).
Qed.
Lemma add_extensions_exists l : forall exts e, ext_ok exts e -> all_usable l -> exists r, add_extensions e l r.
Proof.
  induction l as [|[i o] l IH]; intros exts e X A; [exists (Ok e); reflexivity|].
  inversion A as [|? ? [Ui Uo] A']; subst. cbn [add_extensions fst snd] in *.
  destruct (disjunct_exists e (pair_fst i o) (xo_sound _ _ X) (pair_usable_sound i o Ui Uo)) as (x & D).
  destruct (extended_ok exts e i o x X Ui Uo D) as (m & -> & Xm). destruct (IH _ m Xm A') as (r & R).
  exists r. eapply andthen_exists; eassumption.
Qed.
Lemma optimize_ext exts e r : ext_ok exts e -> optimize e r -> exists m, r = Ok m /\ ext_ok exts m.
Proof.
  intros [((ST & Y & SP) & P & N) I U T] O. destruct (optimize_result e r Y SP P N O) as (m & -> & Sm & A & _ & H1 & H2). exists m. split; [reflexivity|].
  constructor.
  - exact Sm.
  - intros x X H. rewrite A in H. exact (I x X H).
  - destruct O as (m' & (L & _) & E). injection E as <-. apply (from_no_unknown _ _ L). intros g [<-|[]]. exact U.
  - intros l w. rewrite <- T. split; [apply H1|]. intros H. destruct (H2 l w H) as (w' & H' & _). pose proof (H1 _ _ H') as H''.
    apply T in H, H''. destruct H as [-> _]. destruct H'' as [-> _]. exact H'.
Qed.

(** * The closure *)
Record star_ok (exts : list (bstr * bstr)) (e : graph) : Prop := {
  so_sound : sound e;
  so_internal : no_internal_symbols e;
  so_unknown : no_unknown e;
  so_strings : forall l w, pair_string e l w <-> w = 0%Z /\ Forall (fun p => variant exts (fst p) (snd p)) l }.
(** Every label stands for something. *)
Lemma means_something al p : paired p -> (fst p <> UNK /\ snd p <> UNK) -> exists q, means al p q.
Proof.
  destruct p as [a b]. cbn. intros P [A C]. destruct (bstr_eq_dec a IDN) as [->|N].
  - assert (b = IDN) by (apply P; reflexivity). subst b. destruct (fresh al [] []) as (y & O & _). exists (y, y). apply means_identity, O.
  - exists (a, b). apply means_itself; [exact A|exact C|]. intros [K _]. contradiction.
Qed.
Lemma label_single exts e k w : ext_ok exts e -> label_string e k w -> w = 0%Z /\ exists p, k = [p] /\ p <> EE.
Proof.
  intros [((ST & Y & SP) & P & N) I U T] L.
  assert (Q : exists l, Forall2 (means (alpha e)) k l).
  { destruct L as (c & A & ->). assert (F : Forall (fun p => exists q, means (alpha e) p q) c).
    - apply Forall_forall. intros p Hp. pose proof (path_paired e c w P A) as FP. rewrite Forall_forall in FP.
      destruct (path_labels e c w A p Hp) as (s & a & Ha & E). apply means_something; [apply FP, Hp|]. rewrite E. exact (U s a Ha).
    - apply Forall_we in F. induction F as [|p l (q & M) F (l' & IH)]; [exists []; constructor|]. exists (q :: l'). constructor; assumption. }
  destruct Q as (l & F). assert (H : pair_string e l w) by (apply pair_string_labels; eauto).
  apply T in H. destruct H as (-> & a & b & -> & _). split; [reflexivity|].
  inversion F as [|p q k' l' M F']; subst. inversion F'; subst. exists p. split; [reflexivity|].
  destruct L as (c & A & E). intros ->. assert (X : In EE (without_empty c)) by (rewrite <- E; left; reflexivity).
  apply we_In in X. destruct X as [_ X]. apply X. reflexivity.
Qed.
Lemma star_result exts e m : ext_ok exts e -> all_usable exts -> starred e m -> star_ok exts m.
Proof.
  intros X AU (L & A & St). pose proof X as [((ST & Y & SP) & P & N) I U T].
  assert (Sm : sound m).
  { apply (from_labels [e] m L); [unfold specials_ok; rewrite A; exact SP|rewrite A; apply N|].
    intros g [<-|[]]. rewrite A. split; [exact Y|]. split; [exact P|]. split; [exact N|]. intros x Hx. exact Hx. }
  constructor.
  - exact Sm.
  - intros x J H. rewrite A in H. exact (I x J H).
  - apply (from_no_unknown _ _ L). intros g [<-|[]]. exact U.
  - intros l w. rewrite (pair_string_labels m l w (proj1 (proj2 Sm))), A. split.
    + intros (k & Lk & F). apply St in Lk. destruct Lk as (parts & Fp & -> & ->).
      revert l F. induction Fp as [|[k v] parts Hp Fp IH]; intros l F.
      * cbn in F. inversion F; subst. split; [reflexivity|constructor].
      * cbn [map concat fst snd] in *. apply Forall2_app_inv_l in F. destruct F as (l1 & l2 & F1 & F2 & ->).
        assert (H : pair_string e l1 v) by (apply pair_string_labels; eauto). apply T in H. destruct H as (-> & a & b & -> & V).
        destruct (IH l2 F2) as [Z F3]. cbn [sum fold_right]. fold (sum (map snd parts)). rewrite Z. split; [reflexivity|]. constructor; assumption.
    + intros (-> & F).
      assert (Q : exists parts, Forall (fun p => label_string e (fst p) (snd p)) parts /\ Forall2 (means (alpha e)) (concat (map fst parts)) l /\ sum (map snd parts) = 0%Z).
      { induction F as [|[a b] l V F (parts & F1 & F2 & F3)]; [exists []; repeat split; constructor|].
        assert (H : pair_string e [(a, b)] 0) by (apply T; split; [reflexivity|]; exists a, b; auto).
        apply pair_string_labels in H; [|exact P]. destruct H as (k & Hk & M). exists ((k, 0%Z) :: parts). repeat split.
        - constructor; assumption.
        - cbn [map concat fst]. change ((a, b) :: l) with ([(a, b)] ++ l). apply Forall2_app; assumption.
        - cbn [map snd sum fold_right]. exact F3. }
      destruct Q as (parts & F1 & F2 & F3). exists (concat (map fst parts)). split; [|exact F2]. apply St. exists parts. auto.
Qed.
Lemma starred_exists exts e : ext_ok exts e -> exists m, starred e m.
Proof.
  intros X. pose proof X as [((ST & Y & SP) & P & N) I U T].
  set (ok := fun p : bstr * bstr => if pair_dec p EE then false else accepting e (nexts e (start e) [p])).
  set (ps := filter ok (map (fun a => (isy a, osy a)) (concat (sts e)))).
  assert (OK : forall p, In p ps <-> label_string e [p] 0).
  { intros p. unfold ps. rewrite filter_In. unfold ok. split.
    - intros [_ H]. destruct (pair_dec p EE) as [_|Ne]; [discriminate|]. apply accepting_spec in H; [|exact ST|constructor; [exact Ne|constructor]].
      destruct H as (w & H). destruct (label_single exts e [p] w X H) as [-> _]. exact H.
    - intros H. destruct (label_single exts e [p] 0 X H) as (_ & q & E & Ne). injection E as <-. split.
      + destruct H as (c & A & E). assert (K : In p c) by (apply (we_In p c); rewrite <- E; left; reflexivity).
        destruct (path_labels e c _ A p K) as (s & a & Ha & ->). apply in_map_iff. exists a. split; [reflexivity|].
        apply in_concat. exists (nth s (sts e) []). split; [|exact Ha]. destruct (nth_states (sts e) s) as [Q|Q]; [exact Q|rewrite Q in Ha; destruct Ha].
      + destruct (pair_dec p EE) as [K|_]; [contradiction|]. apply accepting_spec; [exact ST|constructor; [exact Ne|constructor]|eauto]. }
  destruct (any_sequence_exists ps (alpha e)) as (m & (Sm & Lm & Qm) & A).
  { intros p H E. apply OK in H. destruct (label_single exts e [p] 0 X H) as (_ & q & K & Ne). injection K as <-. contradiction. }
  exists m. split; [split; [exact Sm|]|split; [exact A|]].
  - intros s a Ha. destruct (Lm s a Ha) as [H|H]; [left; exact H|right]. apply OK in H. destruct H as (c & Ac & E).
    assert (K : In (isy a, osy a) c) by (apply (we_In _ c); rewrite <- E; left; reflexivity).
    destruct (path_labels e c _ Ac _ K) as (t & b & Hb & E2). injection E2 as E3 E4. exists e, t, b. repeat split; auto. left. reflexivity.
  - intros l w. rewrite Qm. split.
    + intros [F ->]. exists (map (fun p => ([p], 0%Z)) l). repeat split.
      * apply Forall_forall. intros q Hq. apply in_map_iff in Hq. destruct Hq as (p & <- & Hp). rewrite Forall_forall in F. apply OK, F, Hp.
      * clear F. induction l as [|p l IH]; [reflexivity|]. cbn. rewrite <- IH. reflexivity.
      * clear F. induction l as [|p l IH]; [reflexivity|]. cbn. exact IH.
    + intros (parts & F & -> & ->). induction F as [|[k v] parts H F (IH1 & IH2)]; [split; [constructor|reflexivity]|].
      cbn [map concat fst snd sum fold_right] in *. destruct (label_single exts e k v X H) as (-> & p & -> & Ne). split; [|change (0 + sum (map snd parts) = 0)%Z; rewrite IH2; reflexivity].
      apply Forall_app. split; [|exact IH1]. constructor; [|constructor]. apply OK, H.
Qed.
Lemma optimize_star exts e r : star_ok exts e -> optimize e r -> exists m, r = Ok m /\ star_ok exts m.
Proof.
  intros [((ST & Y & SP) & P & N) I U T] O. destruct (optimize_result e r Y SP P N O) as (m & -> & Sm & A & _ & H1 & H2). exists m. split; [reflexivity|].
  constructor.
  - exact Sm.
  - intros x X H. rewrite A in H. exact (I x X H).
  - destruct O as (m' & (L & _) & E). injection E as <-. apply (from_no_unknown _ _ L). intros g [<-|[]]. exact U.
  - intros l w. rewrite <- T. split; [apply H1|]. intros H. destruct (H2 l w H) as (w' & H' & _). pose proof (H1 _ _ H') as H''.
    apply T in H, H''. destruct H as [-> _]. destruct H'' as [-> _]. exact H'.
Qed.
Lemma extensions_ok exts r : all_usable exts -> extensions exts r -> exists m, r = Ok m /\ star_ok exts m.
Proof.
  intros AU R. unfold extensions in R.
  apply (andthen_Ok _ _ _ (ext_ok exts)) in R; [|intros x H; exact (add_extensions_ok exts [] _ x identity_ok AU H)].
  destruct R as (e & X & R). apply (andthen_Ok _ _ _ (ext_ok exts)) in R; [|intros x H; exact (optimize_ext exts e x X H)].
  destruct R as (e1 & X1 & R). apply (andthen_Ok _ _ _ (star_ok exts)) in R.
  - destruct R as (e2 & X2 & R). exact (optimize_star exts e2 r X2 R).
  - intros x (m & H & ->). exists m. split; [reflexivity|]. exact (star_result exts e1 m X1 AU H).
Qed.
Lemma extensions_exist exts : all_usable exts -> exists m, extensions exts (Ok m).
Proof.
  intros AU. destruct (add_extensions_exists exts [] identity_fst identity_ok AU) as (r & R).
  destruct (add_extensions_ok exts [] _ r identity_ok AU R) as (e & -> & X). cbn [app] in X.
  destruct (optimize_exists e (proj1 (proj1 (xo_sound _ _ X)))) as (r1 & R1). destruct (optimize_ext exts e r1 X R1) as (e1 & -> & X1).
  destruct (starred_exists exts e1 X1) as (e2 & S2). pose proof (star_result exts e1 e2 X1 AU S2) as X2.
  destruct (optimize_exists e2 (proj1 (proj1 (so_sound _ _ X2)))) as (r3 & R3). destruct (optimize_star exts e2 r3 X2 R3) as (e3 & -> & X3).
  exists e3. unfold extensions. eapply andthen_exists; [exact R|]. eapply andthen_exists; [exact R1|].
  eapply andthen_exists; [exists e2; split; [exact S2|reflexivity]|exact R3].
Qed.
