(** Shuffling: the words of the operands of the intersection, and the decoding of its result. *)
From Verif Require Import Base BT_Model BT_Spec BT_Proofs BT_Proofs3 BT_Proofs4 BT_Proofs5 BT_Props Harm_Model Harm_Spec Harm_Proofs Sh_Spec Sh_Model.

Definition neps (x : bstr) : bool := if bstr_eq_dec x (B "@_EPSILON_SYMBOL_@") then false else true.
Lemma neps_t x : neps x = true <-> x <> EPS.
Proof. unfold neps. change (B "@_EPSILON_SYMBOL_@") with EPS. destruct (bstr_eq_dec x EPS); split; congruence. Qed.
Lemma string_of_cons p l : string_of (p :: l) = if neps (fst p) then fst p :: string_of l else string_of l.
Proof. reflexivity. Qed.

Lemma failsE g : fails g = false <-> automaton g.
Proof.
  unfold fails, automaton. split.
  - intros E s a Ha. assert (Hs : In (nth s (sts g) []) (sts g)).
    { destruct (Nat.lt_ge_cases s (length (sts g))) as [L|L]; [apply nth_In; exact L|]. rewrite nth_overflow in Ha by exact L. destruct Ha. }
    rewrite existsb_false in E. specialize (E _ Hs). rewrite existsb_false in E. specialize (E _ Ha).
    apply negb_false_iff, bstr_eqb_eq in E. exact E.
  - intros A. apply existsb_false. intros l Hl. apply existsb_false. intros a Ha. apply negb_false_iff, bstr_eqb_eq.
    apply (In_nth _ _ []) in Hl. destruct Hl as (s & _ & <-). exact (A s a Ha).
Qed.

(** * Encoding *)
Lemma code_none c p : code_symbols_for_shuffle c p = None <-> fst p <> snd p \/ fst p = EPS \/ fst p = UNK.
Proof.
  unfold code_symbols_for_shuffle. destruct (bstr_eqb (fst p) (snd p)) eqn:E1; cbn [negb].
  - apply bstr_eqb_eq in E1. destruct (bstr_eqb (fst p) EPS) eqn:E2; cbn [orb]; [apply bstr_eqb_eq in E2; tauto|].
    apply bstr_eqb_neq in E2. destruct (bstr_eqb (fst p) UNK) eqn:E3; [apply bstr_eqb_eq in E3; tauto|].
    apply bstr_eqb_neq in E3. split; [discriminate|tauto].
  - apply bstr_eqb_neq in E1. tauto.
Qed.
Lemma code_some c p qs : code_symbols_for_shuffle c p = Some qs <->
  fst p = snd p /\ fst p <> EPS /\ fst p <> UNK /\ qs = [(recode c (fst p), recode c (fst p))].
Proof.
  unfold code_symbols_for_shuffle. destruct (bstr_eqb (fst p) (snd p)) eqn:E1; cbn [negb].
  - apply bstr_eqb_eq in E1. destruct (bstr_eqb (fst p) EPS) eqn:E2; cbn [orb]; [apply bstr_eqb_eq in E2; split; [discriminate|tauto]|].
    apply bstr_eqb_neq in E2. destruct (bstr_eqb (fst p) UNK) eqn:E3; [apply bstr_eqb_eq in E3; split; [discriminate|tauto]|].
    apply bstr_eqb_neq in E3. split; [intros [= <-]; auto|intros (_ & _ & _ & ->); reflexivity].
  - apply bstr_eqb_neq in E1. split; [discriminate|tauto].
Qed.

(** The substitution succeeds if no symbol becomes empty. *)
Lemma subst_func_ok f g : (forall s a qs, In a (nth s (sts g) []) -> f (label a) = Some qs ->
    qs <> [] /\ Forall (fun p => valid_pair p = true) qs) -> exists g', substitute_func f g = Ok g'.
Proof.
  intros H. unfold substitute_func. assert (S : exists r, subst_func_states f (sts g) = Ok r).
  { assert (K : forall ls, (forall l a qs, In l ls -> In a l -> f (label a) = Some qs -> qs <> [] /\ Forall (fun p => valid_pair p = true) qs) ->
      exists r, subst_func_states f ls = Ok r).
    { induction ls as [|l ls IH]; intros K; [simpl; eauto|]. cbn [subst_func_states].
      assert (L : exists r, subst_func_state f l = Ok r).
      { specialize (K l). assert (K' : forall a qs, In a l -> f (label a) = Some qs -> qs <> [] /\ Forall (fun p => valid_pair p = true) qs)
          by (intros a qs Ha; apply K; [left; reflexivity|exact Ha]). clear K IH. induction l as [|a l IH]; [simpl; eauto|].
        cbn [subst_func_state]. destruct IH as ([[l1 l2] l3] & IH); [intros b qs Hb; apply K'; right; exact Hb|]. rewrite IH.
        destruct (f (label a)) as [[|q qs]|] eqn:E.
        - destruct (K' a [] (or_introl eq_refl) E) as [N _]. congruence.
        - destruct (K' a (q :: qs) (or_introl eq_refl) E) as [_ V]. replace (existsb _ (q :: qs)) with false; [cbn [rbind rmap]; eauto|].
          symmetry. apply existsb_false. intros p Hp. rewrite Forall_forall in V. rewrite (V p Hp). reflexivity.
        - cbn [rbind rmap]. eauto. }
      destruct L as ([[l1 l2] l3] & L). rewrite L. cbn [rbind].
      destruct IH as ([l4 l5] & IH); [intros l' a qs Hl; apply K; right; exact Hl|]. rewrite IH. cbn [rmap]. eauto. }
    apply K. intros l a qs Hl Ha. apply (In_nth _ _ []) in Hl. destruct Hl as (s & _ & <-). apply (H s a qs Ha). }
  destruct S as ([ls ps] & ->). cbn [rmap]. eauto.
Qed.

Lemma encode_total c g : c <> DECODE -> exists h, encode c g = Ok h.
Proof.
  intros C. unfold encode. destruct (subst_func_ok (code_symbols_for_shuffle c) g) as (h & ->); [|cbn [rmap]; eauto].
  intros s a qs _ E. apply code_some in E. destruct E as (_ & _ & _ & ->). split; [discriminate|].
  constructor; [|constructor]. destruct c; [reflexivity|reflexivity|congruence].
Qed.

Section Encoded.
  Variables (c : coding_case) (g e : graph).
  Hypothesis Hc : c <> DECODE.
  Hypothesis Hg : automaton g.
  Hypothesis Hu : ~ used g UNK.
  Hypothesis He : encode c g = Ok e.

  Lemma enc_parts : exists h, substitute_func (code_symbols_for_shuffle c) g = Ok h /\ e = remove_symbols h (alpha g).
  Proof using He. unfold encode in He. destruct (substitute_func _ g) as [h| | |] eqn:E; try discriminate. cbn [rmap] in He. injection He as <-. eauto. Qed.
  Lemma accepts_enc l' w : accepts e l' w <-> exists l, accepts g l w /\
    Forall2 (fun p q => if neps (fst p) then q = (recode c (fst p), recode c (fst p)) else q = p) l l'.
  Proof using Hg Hu He.
    destruct enc_parts as (h & E & ->).
    assert (A : accepts (remove_symbols h (alpha g)) l' w <-> accepts h l' w).
    { destruct (remove_symbols_sts h (alpha g)) as [Es Ef]. unfold accepts. rewrite Ef.
      assert (R : forall k k', sts k = sts k' -> forall s l v t, run k s l v t -> run k' s l v t).
      { intros k k' K s l v t R. induction R; constructor; [rewrite <- K; assumption|assumption]. }
      split; intros (t & v & f & H & X); exists t, v, f; (split; [|exact X]); eapply R; [|exact H| |exact H]; [exact Es|symmetry; exact Es]. }
    rewrite A, (C21_function g _ h E). split.
    - intros (l & Hl & F). exists l. split; [exact Hl|].
      assert (S : Forall (fun p => fst p = snd p /\ fst p <> UNK) l).
      { destruct Hl as (t & v & f & R & _). clear -R Hg Hu. induction R; [constructor|]. constructor; [|assumption]. split; [apply (Hg s a H)|].
        intros K. apply Hu. exists s, a. split; [exact H|left; symmetry; exact K]. }
      clear Hl A. induction F as [|p q l l' Hpq F IH]; [constructor|]. constructor; [|apply IH; inversion S; assumption]. inversion S as [|? ? [S1 S2] S3]; subst.
      destruct (neps (fst p)) eqn:N.
      + apply neps_t in N. destruct Hpq as [(qs & K & Q)|[K Q]]; [apply code_some in K; destruct K as (_ & _ & _ & ->); destruct Q as [<-|[]]; reflexivity|].
        apply code_none in K. tauto.
      + destruct Hpq as [(qs & K & Q)|[K Q]]; [|exact Q]. apply code_some in K. destruct K as (_ & K & _). apply neps_t in K. congruence.
    - intros (l & Hl & F). exists l. split; [exact Hl|].
      assert (S : Forall (fun p => fst p = snd p /\ fst p <> UNK) l).
      { destruct Hl as (t & v & f & R & _). clear -R Hg Hu. induction R; [constructor|]. constructor; [|assumption]. split; [apply (Hg s a H)|].
        intros K. apply Hu. exists s, a. split; [exact H|left; symmetry; exact K]. }
      clear Hl A. induction F as [|p q l l' Hpq F IH]; [constructor|]. constructor; [|apply IH; inversion S; assumption]. inversion S as [|? ? [S1 S2] S3]; subst.
      destruct (neps (fst p)) eqn:N.
      + apply neps_t in N. left. eexists. split; [apply code_some; auto|]. left. symmetry. exact Hpq.
      + right. split; [|exact Hpq]. apply code_none. right. left. unfold neps in N. change (B "@_EPSILON_SYMBOL_@") with EPS in N.
        destruct (bstr_eq_dec (fst p) EPS); [assumption|discriminate].
  Qed.
  Lemma alpha_enc z : (forall x y, In x (alpha g) -> x <> recode c y) ->
    In z (alpha e) <-> exists y, used g y /\ y <> EPS /\ z = recode c y.
  Proof using Hg Hu He.
    intros N. destruct enc_parts as (h & E & ->). rewrite remove_symbols_alpha.
    unfold substitute_func in E. destruct (subst_func_states _ (sts g)) as [[ls ps]| | |] eqn:E1; try discriminate.
    cbn [rmap] in E. injection E as <-. destruct (subst_func_states_spec _ _ _ _ E1) as (L & A & P). rewrite add_pairs_alpha.
    cbn [alpha with_sts]. split.
    - intros [H1 [(q & Hq & K)|H2]]; [|tauto]. apply P in Hq. destruct Hq as (s & b & qs & Hb & Ef & Hq). apply code_some in Ef.
      destruct Ef as (F1 & F2 & F3 & ->). destruct Hq as [<-|[]]. cbn [fst snd label] in *. exists (isy b).
      split; [exists s, b; auto|]. split; [exact F2|]. destruct K; assumption.
    - intros (y & (s & a & Ha & K) & Ny & ->). assert (Ey : y = isy a) by (destruct K as [K|K]; [exact K|rewrite K; symmetry; apply (Hg s a Ha)]).
      split; [intros X; exact (N _ _ X eq_refl)|]. left. exists (recode c y, recode c y). split; [|left; reflexivity]. apply P.
      exists s, a. eexists. split; [exact Ha|]. split; [apply code_some; cbn [fst snd label]; repeat split; [apply (Hg s a Ha)|congruence| ]|].
      + intros X. apply Hu. exists s, a. split; [exact Ha|left; symmetry; exact X].
      + left. cbn [fst label]. rewrite Ey. reflexivity.
  Qed.
  Lemma structure_enc : structure_ok g -> structure_ok e.
  Proof using He.
    intros G. destruct enc_parts as (h & E & ->). eapply structure_eq; [|apply remove_symbols_sts].
    apply (structure_run_op g (OSubstFunc (code_symbols_for_shuffle c)) h G). exact E.
  Qed.
End Encoded.

(** * Words *)
Lemma recode_neps c x : c <> DECODE -> recode c x <> EPS.
Proof. intros C. destruct c; [discriminate|discriminate|congruence]. Qed.
Lemma recognizes_enc c g e : c <> DECODE -> automaton g -> ~ used g UNK -> encode c g = Ok e ->
  forall x w, recognizes e x w <-> exists y, recognizes g y w /\ x = map (recode c) y.
Proof.
  intros C G U E x w.
  assert (S : forall l l', Forall2 (fun p q => if neps (fst p) then q = (recode c (fst p), recode c (fst p)) else q = p) l l' ->
    string_of l' = map (recode c) (string_of l)).
  { intros l l' F. induction F as [|p q l l' H F IH]; [reflexivity|]. rewrite !string_of_cons. destruct (neps (fst p)) eqn:N; subst q.
    - cbn [fst]. rewrite (proj2 (neps_t _) (recode_neps c (fst p) C)), IH. reflexivity.
    - rewrite N. exact IH. }
  split.
  - intros (l' & H & ->). apply (accepts_enc c g e G U E) in H. destruct H as (l & H & F). exists (string_of l).
    split; [exists l; auto|]. apply S, F.
  - intros (y & (l & H & ->) & ->). assert (K : exists l', Forall2 (fun p q => if neps (fst p) then q = (recode c (fst p), recode c (fst p)) else q = p) l l').
    { clear. induction l as [|p l (l' & IH)]; [exists []; constructor|].
      exists ((if neps (fst p) then (recode c (fst p), recode c (fst p)) else p) :: l'). constructor; [destruct (neps (fst p)); reflexivity|exact IH]. }
    destruct K as (l' & F). exists l'. split; [apply (accepts_enc c g e G U E); eauto|]. symmetry. apply S, F.
Qed.

Inductive mix (al : list bstr) : list bstr -> list bstr -> Prop :=
| mix_nil : mix al [] []
| mix_keep a y x : mix al y x -> mix al (a :: y) (a :: x)
| mix_ins a y x : In a al -> mix al y x -> mix al y (a :: x).
Definition ins_pair (al : list bstr) (m : list (bstr * bstr)) (y : Z) := exists p, In p (pairset al) /\ m = [p] /\ y = 0%Z.
Lemma inserted_mix al l l' u : ~ In EPS al -> inserted_path (ins_pair al) l l' u -> u = 0%Z /\ mix al (string_of l) (string_of l').
Proof.
  intros N I. induction I as [|q l l' w I [-> IH]|m v l l' w Hm I [-> IH]].
  - split; [reflexivity|constructor].
  - split; [reflexivity|]. rewrite !string_of_cons. destruct (neps (fst q)); [constructor|]; exact IH.
  - destruct Hm as (p & Hp & -> & ->). split; [reflexivity|]. unfold pairset in Hp. apply in_map_iff in Hp. destruct Hp as (a & <- & Ha).
    cbn [app]. rewrite string_of_cons. cbn [fst]. rewrite (proj2 (neps_t a)) by (intros ->; tauto). constructor; assumption.
Qed.
Lemma mix_inserted al y x : mix al y x -> ~ In EPS al -> forall l, string_of l = y -> exists l', inserted_path (ins_pair al) l l' 0 /\ string_of l' = x.
Proof.
  intros M N. induction M as [|a y x M IH|a y x Ha M IH]; intros l E.
  - induction l as [|p l IHl]; [exists []; split; [constructor|reflexivity]|]. rewrite string_of_cons in E. destruct (neps (fst p)) eqn:K; [discriminate|].
    destruct (IHl E) as (l' & I & E'). exists (p :: l'). split; [constructor; exact I|]. rewrite string_of_cons, K. exact E'.
  - induction l as [|p l IHl]; [discriminate|]. rewrite string_of_cons in E. destruct (neps (fst p)) eqn:K.
    + injection E as E1 E2. destruct (IH l E2) as (l' & I & E'). exists (p :: l'). split; [constructor; exact I|]. rewrite string_of_cons, K, E'. congruence.
    + destruct (IHl E) as (l' & I & E'). exists (p :: l'). split; [constructor; exact I|]. rewrite string_of_cons, K. exact E'.
  - destruct (IH l E) as (l' & I & E'). exists ([(a, a)] ++ l'). split.
    + change 0%Z with (0 + 0)%Z. apply ins_more; [|exact I]. exists (a, a). split; [apply in_map_iff; eauto|auto].
    + cbn [app]. rewrite string_of_cons. cbn [fst]. rewrite (proj2 (neps_t a)) by (intros ->; tauto). rewrite E'. reflexivity.
Qed.
Lemma recognizes_ins al e p : structure_ok e -> ~ In EPS al -> insert_freely (pairset al) 0 e = Ok p ->
  forall x w, recognizes p x w <-> exists y, recognizes e y w /\ mix al y x.
Proof.
  intros G N E x w. split.
  - intros (l' & H & ->). apply (C23_insert_freely e _ _ p G E) in H. destruct H as (l & v & u & H & I & ->).
    apply (inserted_mix al l l' u N) in I. destruct I as [-> I]. exists (string_of l). split; [|exact I]. exists l. split; [|reflexivity].
    replace (v + 0)%Z with v by lia. exact H.
  - intros (y & (l & H & ->) & M). destruct (mix_inserted al _ _ M N l eq_refl) as (l' & I & <-). exists l'. split; [|reflexivity].
    apply (C23_insert_freely e _ _ p G E). exists l, w, 0%Z. split; [exact H|]. split; [exact I|lia].
Qed.

(** * Interleavings *)
Lemma mix_interleaving al1 al2 y1 y2 x :
  (forall z, In z al1 -> exists s, z = recode ENCODE_FIRST s) -> (forall z, In z al2 -> exists s, z = recode ENCODE_SECOND s) ->
  mix al2 (map (recode ENCODE_FIRST) y1) x -> mix al1 (map (recode ENCODE_SECOND) y2) x ->
  interleaving y1 y2 (map (recode DECODE) x).
Proof.
  intros A1 A2 M1 M2. remember (map (recode ENCODE_FIRST) y1) as u eqn:E1. revert y1 y2 E1 M2.
  induction M1 as [|a u x M1 IH|a u x Ha M1 IH]; intros y1 y2 E1 M2.
  - destruct y1; [|discriminate]. inversion M2 as [K| |]. destruct y2; [constructor|discriminate].
  - destruct y1 as [|b y1]; [discriminate|]. injection E1 as -> E1. inversion M2 as [|c u2 x2 M2' K1 K2|c u2 x2 Hc M2' K1 K2]; subst.
    + destruct y2 as [|d y2]; discriminate.
    + cbn [map]. change (recode DECODE (recode ENCODE_FIRST b)) with b. constructor. apply IH; [reflexivity|exact M2'].
  - destruct (A2 a Ha) as (s & ->). inversion M2 as [|c u2 x2 M2' K1 K2|c u2 x2 Hc M2' K1 K2]; subst.
    + destruct y2 as [|d y2]; [discriminate|]. injection K1 as -> ->. cbn [map]. change (recode DECODE (recode ENCODE_SECOND d)) with d.
      constructor. apply IH; [reflexivity|exact M2'].
    + destruct (A1 _ Hc) as (t & K). discriminate.
Qed.
Lemma interleaving_mix al1 al2 y1 y2 z : interleaving y1 y2 z ->
  (forall s, In s y1 -> In (recode ENCODE_FIRST s) al1) -> (forall s, In s y2 -> In (recode ENCODE_SECOND s) al2) ->
  exists x, mix al2 (map (recode ENCODE_FIRST) y1) x /\ mix al1 (map (recode ENCODE_SECOND) y2) x /\ z = map (recode DECODE) x.
Proof.
  intros I. induction I as [|a y1 y2 z I IH|a y1 y2 z I IH]; intros A1 A2.
  - exists []. repeat constructor.
  - destruct IH as (x & M1 & M2 & ->); [intros s Hs; apply A1; right; exact Hs|exact A2|].
    exists (recode ENCODE_FIRST a :: x). split; [constructor; exact M1|]. split; [constructor; [apply A1; left; reflexivity|exact M2]|reflexivity].
  - destruct IH as (x & M1 & M2 & ->); [exact A1|intros s Hs; apply A2; right; exact Hs|].
    exists (recode ENCODE_SECOND a :: x). split; [constructor; [apply A2; left; reflexivity|exact M1]|]. split; [constructor; exact M2|reflexivity].
Qed.

(** * Decoding *)
Lemma recognizes_used g x w : recognizes g x w -> forall s, In s x -> used g s /\ s <> EPS.
Proof.
  intros (l & (t & v & f & R & _) & ->) s Hs. unfold string_of in Hs. apply filter_In in Hs. destruct Hs as [Hs N].
  change (neps s = true) in N. apply neps_t in N. split; [|exact N]. clear N. induction R as [|s0 a l w0 t Ha R IH]; [destruct Hs|].
  destruct Hs as [<-|Hs]; [|apply IH; exact Hs]. exists s0, a. split; [exact Ha|left; reflexivity].
Qed.
Definition coded_by (g1 g2 : graph) (z : bstr) : Prop :=
  exists y, y <> EPS /\ (used g1 y /\ z = recode ENCODE_FIRST y \/ used g2 y /\ z = recode ENCODE_SECOND y).
Lemma coded_decoded g1 g2 z : coded_by g1 g2 z -> z <> EPS /\ z <> UNK /\ recode DECODE z <> EPS.
Proof.
  intros (y & N & [[_ ->]|[_ ->]]); (split; [discriminate|split; [discriminate|exact N]]).
Qed.
Section Decoded.
  Variables (al1 al2 : list bstr) (m : graph).
  Variables (g1 g2 : graph).
  Hypothesis Hm : forall s a, In a (nth s (sts m) []) -> isy a = osy a /\ (isy a = EPS \/ coded_by g1 g2 (isy a)).
  Hypothesis Hv : forall y, used g1 y \/ used g2 y -> y <> [].

  Lemma result_total : exists h, shuffle_result al1 al2 m = Ok h.
  Proof using Hm Hv.
    unfold shuffle_result. destruct (subst_func_ok (code_symbols_for_shuffle DECODE) m) as (h & ->); [|cbn [rmap]; eauto].
    intros s a qs Ha E. apply code_some in E. destruct E as (_ & N & _ & ->). split; [discriminate|]. constructor; [|constructor].
    destruct (Hm s a Ha) as [_ [K|(y & _ & K)]]; [cbn [fst label] in N; congruence|].
    assert (V : y <> [] /\ recode DECODE (isy a) = y) by (destruct K as [[U ->]|[U ->]]; (split; [apply Hv; tauto|reflexivity])).
    destruct V as [V E]. cbn [fst label]. rewrite E. destruct y; [congruence|reflexivity].
  Qed.
  Lemma recognizes_result h : shuffle_result al1 al2 m = Ok h ->
    forall z w, recognizes h z w <-> exists x, recognizes m x w /\ z = map (recode DECODE) x.
  Proof using Hm.
    intros E. unfold shuffle_result in E. destruct (substitute_func _ m) as [k| | |] eqn:Ek; try discriminate. cbn [rmap] in E. injection E as <-.
    intros z w.
    assert (A : forall l, accepts (remove_symbols (remove_symbols k al1) al2) l w <-> accepts k l w).
    { intros l. destruct (remove_symbols_sts (remove_symbols k al1) al2) as [Es Ef]. destruct (remove_symbols_sts k al1) as [Es' Ef'].
      rewrite Es' in Es. rewrite Ef' in Ef. unfold accepts. rewrite Ef.
      assert (R : forall k k', sts k = sts k' -> forall s l v t, run k s l v t -> run k' s l v t).
      { intros k1 k2 K s l0 v t R. induction R; constructor; [rewrite <- K; assumption|assumption]. }
      split; intros (t & v & f & H & X); exists t, v, f; (split; [|exact X]); eapply R; [|exact H| |exact H]; [exact Es|symmetry; exact Es]. }
    assert (S : forall l, accepts m l w -> Forall (fun p => fst p = snd p /\ (fst p = EPS \/ coded_by g1 g2 (fst p))) l).
    { intros l (t & v & f & R & _). clear -R Hm. induction R; [constructor|]. constructor; [|assumption]. exact (Hm s a H). }
    assert (F : forall l l', Forall (fun p => fst p = snd p /\ (fst p = EPS \/ coded_by g1 g2 (fst p))) l ->
      Forall2 (fun p q => (exists qs, code_symbols_for_shuffle DECODE p = Some qs /\ In q qs) \/ code_symbols_for_shuffle DECODE p = None /\ q = p) l l' ->
      string_of l' = map (recode DECODE) (string_of l)).
    { intros l l' K F. induction F as [|p q l l' H F IH]; [reflexivity|]. inversion K as [|? ? [K1 K2] K3]; subst. rewrite !string_of_cons.
      destruct K2 as [K2|K2].
      - destruct H as [(qs & H & _)|[H ->]]; [apply code_some in H; tauto|]. rewrite K2. change (neps EPS) with false. cbn iota. apply IH, K3.
      - destruct (coded_decoded _ _ _ K2) as (N1 & N2 & N3). destruct H as [(qs & H & Q)|[H _]]; [|apply code_none in H; tauto].
        apply code_some in H. destruct H as (_ & _ & _ & ->). destruct Q as [<-|[]]. cbn [fst].
        rewrite (proj2 (neps_t _) N1), (proj2 (neps_t _) N3). cbn [map]. f_equal. apply IH, K3. }
    split.
    - intros (l' & H & ->). apply A in H. apply (C21_function m _ k Ek) in H. destruct H as (l & H & G). exists (string_of l).
      split; [exists l; auto|]. apply F; [apply S; exact H|exact G].
    - intros (x & (l & H & ->) & ->).
      assert (X : exists l', Forall2 (fun p q => (exists qs, code_symbols_for_shuffle DECODE p = Some qs /\ In q qs) \/ code_symbols_for_shuffle DECODE p = None /\ q = p) l l').
      { clear. induction l as [|p l (l' & IH)]; [exists []; constructor|]. destruct (code_symbols_for_shuffle DECODE p) as [qs|] eqn:E.
        - assert (Q := proj1 (code_some _ _ _) E). destruct Q as (_ & _ & _ & ->). eexists (_ :: l'). constructor; [left; eexists; split; [exact E|left; reflexivity]|exact IH].
        - exists (p :: l'). constructor; [right; auto|exact IH]. }
      destruct X as (l' & G). exists l'. split; [apply A, (C21_function m _ k Ek); eauto|]. symmetry. apply F; [apply S; exact H|exact G].
  Qed.
End Decoded.
