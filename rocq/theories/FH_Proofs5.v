(** Proofs: removing illegal paths of flags, continued. *)
From Verif Require Import Base Flags_Model Flags_Spec Flags_Proofs BT_Model BT_Spec BT_Proofs BT_Proofs3 BT_Proofs4 BT_Proofs5 Harm_Model Harm_Spec Harm_Proofs Co_Spec Co_Model Co_Proofs Co_Proofs4 Co_Props PU_Spec PU_Model PU_Proofs PU_Proofs4 PU_Proofs7
  Cr_Proofs Cr_Proofs3 FH_Spec FH_Model FH_Proofs FH_Proofs2 FH_Proofs4.

Lemma legal_cons x z : legal (x :: z) <-> legal z /\ (forall t b, z = t :: b -> second_flag x -> first_flag t -> False).
Proof.
  split.
  - intros L. split; [intros a s t b ->; exact (L (x :: a) s t b eq_refl)|]. intros t b ->. exact (L [] x t b eq_refl).
  - intros [L H] [|y a] s t b E; [injection E as <- ->; exact (H t b eq_refl)|]. injection E as <- ->. exact (L a s t b eq_refl).
Qed.
Lemma legal_nil : legal [].
Proof. intros [|x a] s t b E; discriminate E. Qed.
Lemma ordinary_not_flag x : ordinary x -> ~ is_flag x.
Proof. intros (_ & D & _). apply not_flag_iff, D. Qed.

Lemma related_to {A B} (R : A -> B -> Prop) l r y : Forall2 R l r -> In y r -> exists x, In x l /\ R x y.
Proof. induction 1 as [|a b l r H F IH]; intros []; [subst; exists a; split; [left; reflexivity|exact H]|]. destruct IH as (x & I & J); [assumption|]. exists x. split; [right; exact I|exact J]. Qed.
Section Illegal.
  Variable g : graph.
  Hypothesis S : sound g.
  Hypothesis NI : no_internal_symbols g.
  Let f1 := flags_with (B "_1.") g.
  Let f2 := flags_with (B "_2.") g.
  Hypothesis HF : forall s, In s (alpha g) -> is_flag s -> used g s /\ (contains (B "_1.") s \/ contains (B "_2.") s) /\ ~ (contains (B "_1.") s /\ contains (B "_2.") s).
  Hypothesis HD : forall s, In s (alpha g) -> ~ dollar_form s.
  Let D := f1 ++ f2.
  Let m := map (fun s => (s, dollar s)) D.
  Let m' := map (fun s => (dollar s, s)) D.
  Let rho := subst_map_symbol m.
  Let rho' := subst_map_symbol m'.
  Lemma D_iff s : In s D <-> In s (alpha g) /\ is_flag s.
  Proof using HF.
    unfold D, f1, f2. rewrite in_app_iff, !flags_with_In. split; [tauto|]. intros [A F]. destruct (HF s A F) as (_ & K & _). tauto.
  Qed.
  Lemma D_diacritic s : In s D -> is_diacritic s = true.
  Proof using. unfold D, f1, f2. rewrite in_app_iff, !flags_with_In, flag_iff. tauto. Qed.
  Lemma f1_iff s : In s f1 <-> In s D /\ contains (B "_1.") s.
  Proof using HF. unfold f1. rewrite flags_with_In, D_iff. tauto. Qed.
  Lemma f2_iff s : In s f2 <-> In s D /\ contains (B "_2.") s.
  Proof using HF. unfold f2. rewrite flags_with_In, D_iff. tauto. Qed.
  Lemma D_ordinary s : ordinary s -> ~ In s D.
  Proof using. intros O H. apply D_diacritic, flag_iff in H. exact (ordinary_not_flag s O H). Qed.
  Lemma rho_in s : In s D -> rho s = dollar s.
  Proof using.
    intros H. unfold rho, subst_map_symbol, m. pose proof (mget_map (fun s => s) dollar D s) as E. cbv beta in E. rewrite E; [reflexivity|auto|exact H].
  Qed.
  Lemma rho_out s : ~ In s D -> rho s = s.
  Proof using.
    intros H. unfold rho, subst_map_symbol, m. pose proof (mget_map_none (fun s => s) dollar D s) as E. cbv beta in E. rewrite E; [reflexivity|]. intros u Hu ->. exact (H Hu).
  Qed.
  Lemma rho'_in s : In s D -> rho' (dollar s) = s.
  Proof using.
    intros H. unfold rho', subst_map_symbol, m'. rewrite (mget_map dollar (fun s => s) D s); [reflexivity| |exact H]. intros a b Ha Hb. apply dollar_inj; apply D_diacritic; assumption.
  Qed.
  Lemma rho'_out s : ~ dollars D s -> rho' s = s.
  Proof using.
    intros H. unfold rho', subst_map_symbol, m'. rewrite (mget_map_none dollar (fun s => s) D s); [reflexivity|]. intros u Hu <-. apply H. exists u. auto.
  Qed.
  Lemma dollars_D s : dollars D s -> dollar_form s /\ ordinary s.
  Proof using. intros (u & Hu & ->). split; [apply dollar_is_form, D_diacritic, Hu|apply dollar_ordinary]. Qed.
  Lemma rho'_rho s : ~ dollars D s -> rho' (rho s) = s.
  Proof using.
    intros N. destruct (in_dec bstr_eq_dec s D) as [H|H]; [rewrite rho_in, rho'_in by exact H; reflexivity|]. rewrite rho_out by exact H. apply rho'_out, N.
  Qed.
  Lemma not_special_D s : special s -> ~ In s D.
  Proof using. intros [->|[->| ->]] H; apply D_diacritic in H; discriminate H. Qed.
  Lemma not_special_dollar s : ~ special (dollar s).
  Proof using. intros [K|[K|K]]; discriminate K. Qed.
  Lemma rho_special : keeps_special rho.
  Proof using.
    assert (Q : forall s c, special c -> (rho s = c <-> s = c)).
    { intros s c C. split; [|intros ->; apply rho_out, not_special_D, C]. destruct (in_dec bstr_eq_dec s D) as [H|H]; [rewrite rho_in by exact H; intros <-; destruct (not_special_dollar s C)|].
      rewrite rho_out by exact H. auto. }
    intros s. split; [|split]; apply Q; [left|right; left|right; right]; reflexivity.
  Qed.
  Lemma special_not_dollars s : special s -> ~ dollars D s.
  Proof using. intros C (u & _ & ->). exact (not_special_dollar u C). Qed.
  Lemma dollars_dec s : {dollars D s} + {~ dollars D s}.
  Proof using.
    destruct (in_dec bstr_eq_dec s (map dollar D)) as [H|H]; [left|right].
    - apply in_map_iff in H. destruct H as (u & E & Hu). exists u. auto.
    - intros (u & Hu & ->). apply H, in_map, Hu.
  Qed.
  Lemma rho'_special : keeps_special rho'.
  Proof using.
    assert (Q : forall s c, special c -> (rho' s = c <-> s = c)).
    { intros s c C. split; [|intros ->; apply rho'_out, special_not_dollars, C]. destruct (dollars_dec s) as [(u & Hu & ->)|H].
      - rewrite rho'_in by exact Hu. intros ->. destruct (not_special_D c C Hu).
      - rewrite rho'_out by exact H. auto. }
    intros s. split; [|split]; apply Q; [left|right; left|right; right]; reflexivity.
  Qed.
  Lemma m_valid : Forall (fun p : bstr * bstr => fst p <> [] /\ snd p <> []) m.
  Proof using.
    apply Forall_forall. intros p Hp. apply in_map_iff in Hp. destruct Hp as (s & <- & Hs). cbn [fst snd]. split; [apply flag_nonempty, D_diacritic, Hs|discriminate].
  Qed.
  Lemma m'_valid : Forall (fun p : bstr * bstr => fst p <> [] /\ snd p <> []) m'.
  Proof using.
    apply Forall_forall. intros p Hp. apply in_map_iff in Hp. destruct Hp as (s & <- & Hs). cbn [fst snd]. split; [discriminate|apply flag_nonempty, D_diacritic, Hs].
  Qed.
  (** The transducer with dollars. *)
  Lemma first_step : exists g1, substitute_symbols m g = Ok g1 /\ sound g1 /\ (forall x, In x (alpha g1) <-> In x (alpha g) \/ dollars D x) /\
    (forall l w, accepts g1 l w <-> exists k, accepts g k w /\ l = map (both rho) k) /\
    (forall k w, accepts g k w <-> exists l, accepts g1 l w /\ k = map (both rho') l).
  Proof using HF S HD.
    destruct (substitute_result m g m_valid) as (g1 & E & _ & _ & A & _ & Ac). exists g1. split; [exact E|]. split; [exact (substitute_sound m g g1 rho_special m_valid S E)|]. split; [|split; [exact Ac|]].
    - intros x. rewrite A. split; (intros [H|H]; [left; exact H|right]).
      + destruct H as (y & _ & M). apply (mget_In bcmp bcmp_eq) in M. apply in_map_iff in M. destruct M as (s & Es & Hs). injection Es as <- <-. exists s. auto.
      + destruct H as (u & Hu & ->). exists u. split; [apply D_iff in Hu; apply HF; tauto|]. unfold m. pose proof (mget_map (fun s => s) dollar D u) as Em. cbv beta in Em. apply Em; auto.
    - assert (Id : forall k w, accepts g k w -> map (both rho') (map (both rho) k) = k).
      { intros k w K. destruct S as ((_ & Y & _) & _). rewrite map_map. rewrite <- (map_id k) at 2. apply map_ext_in. intros [x y] H.
        destruct (accepts_used g k w _ K H) as [(t1 & a1 & Ha1 & E1) (t2 & a2 & Ha2 & E2)]. cbn [fst snd] in E1, E2.
        assert (F1 : In x (alpha g)) by (destruct (Y t1 a1 Ha1); destruct E1 as [->| ->]; assumption). assert (F2 : In y (alpha g)) by (destruct (Y t2 a2 Ha2); destruct E2 as [->| ->]; assumption). unfold both. cbn [fst snd]. rewrite !rho'_rho; [reflexivity| |];
          intros X; apply dollars_D in X; first [exact (HD _ F2 (proj1 X))|exact (HD _ F1 (proj1 X))]. }
      intros k w. split.
      + intros K. exists (map (both rho) k). split; [apply Ac; exists k; auto|]. symmetry. exact (Id k w K).
      + intros (l & L & ->). apply Ac in L. destruct L as (k & K & ->). fold rho. rewrite (Id k w K). exact K.
  Qed.
  (** Walks through the restriction. *)
  Lemma outside_r x : outside (alpha (get_flag_path_restriction f1 f2)) x <-> ordinary x /\ ~ dollars D x.
  Proof using.
    unfold outside. rewrite restriction_alpha. split.
    - intros (O & N). split; [exact O|]. intros (u & Hu & ->). apply N. apply in_app_or in Hu. destruct Hu as [Hu|Hu]; [right; right; right; left|right; right; right; right]; exists u; auto.
    - intros (O & N). split; [exact O|]. pose proof (ordinary_ne x O) as (N1 & N2 & N3). intros [K|[K|[K|[(u & Hu & ->)|(u & Hu & ->)]]]]; try tauto; apply N; exists u; (split; [apply in_or_app|]; auto).
  Qed.
  Lemma walk_legal s z : walk f1 f2 s z -> legal (map rho' z) /\ (s = 1 -> forall t b, map rho' z = t :: b -> ~ first_flag t) /\ Forall (fun x => ordinary x \/ is_flag x /\ In x (alpha g)) (map rho' z).
  Proof using HF.
    induction 1 as [s|s x z O W (L & H & F)|x z (u & Hu & ->) W (L & H & F)|s x z (u & Hu & ->) W (L & H & F)]; cbn [map].
    - split; [apply legal_nil|]. split; [intros _ t b E; discriminate E|constructor].
    - apply outside_r in O. destruct O as [O N]. rewrite rho'_out by exact N. pose proof (ordinary_not_flag x O) as NF. split; [|split].
      + apply legal_cons. split; [exact L|]. intros t b _ [K _]. tauto.
      + intros _ t b E [K _]. injection E as <- _. tauto.
      + constructor; auto.
    - apply f1_iff in Hu. destruct Hu as [Hu C]. rewrite rho'_in by exact Hu. pose proof (proj1 (D_iff u) Hu) as [A Fu]. split; [|split].
      + apply legal_cons. split; [exact L|]. intros t b _ [_ K] _. destruct (HF u A Fu) as (_ & _ & X). tauto.
      + discriminate.
      + constructor; auto.
    - apply f2_iff in Hu. destruct Hu as [Hu C]. rewrite rho'_in by exact Hu. pose proof (proj1 (D_iff u) Hu) as [A Fu]. split; [|split].
      + apply legal_cons. split; [exact L|]. intros t b E _ K. exact (H eq_refl t b E K).
      + intros _ t b E [_ K]. injection E as <- _. destruct (HF u A Fu) as (_ & _ & X). tauto.
      + constructor; auto.
  Qed.
  Lemma legal_walk z : Forall (fun x => ordinary x \/ is_flag x /\ In x (alpha g)) z -> (forall x, In x z -> ~ dollar_form x) -> legal z ->
    forall s, (s = 1 -> forall t b, z = t :: b -> ~ first_flag t) -> s <= 1 -> walk f1 f2 s (map rho z).
  Proof using HF.
    induction z as [|x z IH]; intros F N L s H Ls; [constructor|]. inversion F as [|? ? Fx Fz]; subst. apply legal_cons in L. destruct L as [L LH].
    assert (Nz : forall y, In y z -> ~ dollar_form y) by (intros y Hy; apply N; right; exact Hy). cbn [map]. destruct Fx as [O|[Fl A]].
    - rewrite rho_out by (apply D_ordinary, O). apply walk_other.
      + apply outside_r. split; [exact O|]. intros X. apply dollars_D in X. exact (N x (or_introl eq_refl) (proj1 X)).
      + apply IH; auto. discriminate.
    - assert (Dx : In x D) by (apply D_iff; auto). rewrite rho_in by exact Dx. destruct (HF x A Fl) as (_ & [C|C] & X).
      + assert (s = 0) as ->. { destruct s as [|[|s]]; [reflexivity| |lia]. exfalso. exact (H eq_refl x z eq_refl (conj Fl C)). }
        apply walk_first; [exists x; split; [apply f1_iff; auto|reflexivity]|]. apply IH; auto. discriminate.
      + apply walk_second; [exists x; split; [apply f2_iff; auto|reflexivity]|]. apply IH; auto. intros _ t b E K. exact (LH t b E (conj Fl C) K).
  Qed.
  (** Without conditions on the flags: no other flag than those of the two kinds is left. *)
  Lemma illegal_kinds : f1 <> [] -> f2 <> [] -> forall h, remove_illegal_flag_paths g (Ok h) -> forall x z w, related h x z w -> Forall (fun s => ordinary s \/ In s D) z.
  Proof using S NI.
    intros N1 N2 h Hr x z w H. set (R := get_flag_path_restriction f1 f2). pose proof (restriction_sound f1 f2) as SR. fold R in SR.
    destruct (substitute_result m g m_valid) as (g1 & E1 & _ & _ & A1 & _). pose proof (substitute_sound m g g1 rho_special m_valid S E1) as S1.
    assert (Ga : forall y, In y (alpha g1) -> In y (alpha g) \/ dollars D y).
    { intros y Hy. apply A1 in Hy. destruct Hy as [Hy|(u & _ & M)]; [left; exact Hy|right]. apply (mget_In bcmp bcmp_eq) in M. apply in_map_iff in M. destruct M as (s & Es & Hs). injection Es as <- <-. exists s. auto. }
    assert (Hc : exists c, compose g1 R (Ok c) /\ Ok h = substitute_symbols m' c).
    { revert Hr. unfold remove_illegal_flag_paths. fold f1 f2 D. fold m m'. rewrite E1. fold R. clear - N1 N2. destruct f1; [congruence|]. destruct f2; [congruence|].
      intros (c & C & E). destruct c as [c| | |]; try discriminate E. exists c. split; assumption. }
    destruct Hc as (c & C & Eh). destruct (substitute_result m' c m'_valid) as (h' & Eh' & _ & _ & Ah & _ & Ach). rewrite Eh' in Eh. injection Eh as <-. clear Hr Eh'.
    pose proof (proj2 (proj2 (proj1 S))) as Sp. pose proof S1 as (W1 & P1 & O1). pose proof SR as (W2 & P2 & O2).
    assert (K1 : knowing_internal_symbols_of R g1 g1).
    { split; [reflexivity|]. split; [reflexivity|]. intros y. split; [intros Hy; left; exact Hy|]. intros [Hy|[I Hy]]; [exact Hy|]. apply A1. left. destruct Sp as (Sp1 & Sp2 & Sp3).
      unfold R in Hy. apply restriction_alpha in Hy. destruct Hy as [->|[->|[->|[(u & _ & ->)|(u & _ & ->)]]]]; [exact Sp1|exact Sp2|exact Sp3|destruct (dollar_internal u I)..]. }
    assert (K2 : knowing_internal_symbols_of g1 R R).
    { split; [reflexivity|]. split; [reflexivity|]. intros y. split; [intros Hy; left; exact Hy|]. intros [Hy|[I Hy]]; [exact Hy|]. apply restriction_alpha. apply Ga in Hy.
      destruct Hy as [Hy|(u & _ & ->)]; [|destruct (dollar_internal u I)].
      clear - I Hy NI. destruct (NI y I Hy) as [->|[->| ->]]; [left; reflexivity|right; left; reflexivity|right; right; left; reflexivity]. }
    destruct (C84_compose_partial g1 R c g1 R W1 W2 P1 P2 O1 O2 K1 K2 C) as (Ca & C1 & _). clear C.
    apply (related_back rho' c h rho'_special Ach) in H.
    2:{ intros s (O & N). assert (Nc : ~ In s (alpha c)) by (intros K; apply N, Ah; left; exact K). split; [split; assumption|]. apply rho'_out. intros (u & Hu & ->). apply Nc, Ca. right. unfold R.
        apply restriction_alpha. apply in_app_or in Hu. right. right. right. destruct Hu as [Hu|Hu]; [left|right]; exists u; auto. }
    destruct H as (x1 & z1 & H & -> & ->). apply C1 in H. destruct H as (y & w1 & w2 & _ & H2 & _). unfold R in H2. apply restriction_related in H2. destruct H2 as (_ & -> & W).
    assert (Q : forall s z, walk f1 f2 s z -> Forall (fun s => ordinary s \/ In s D) (map rho' z)); [|exact (Q 0 z1 W)].
    intros s z Wz. induction Wz as [s|s x z O W' IH|x z (u & Hu & ->) W' IH|s x z (u & Hu & ->) W' IH]; cbn [map]; constructor; auto.
    - apply outside_r in O. destruct O as [O N]. rewrite rho'_out by exact N. auto.
    - assert (Du : In u D) by (apply in_or_app; auto). rewrite rho'_in by exact Du. auto.
    - assert (Du : In u D) by (apply in_or_app; auto). rewrite rho'_in by exact Du. auto.
  Qed.
  (** The whole. *)
  Lemma illegal_result : f1 <> [] -> f2 <> [] -> (exists r, remove_illegal_flag_paths g r) /\ forall r, remove_illegal_flag_paths g r -> exists h, r = Ok h /\
    (forall x z w, related h x z w -> related g x z w /\ legal z /\ Forall (fun s => ordinary s \/ is_flag s /\ In s (alpha g)) z) /\
    (forall x z w, related g x z w -> legal z -> Forall (fun s => ordinary s \/ is_flag s /\ In s (alpha g)) z -> (forall s, In s x \/ In s z -> ~ dollar_form s) ->
       exists w', related h x z w' /\ (w' <= w)%Z).
  Proof using HF S HD NI.
    intros N1 N2. destruct first_step as (g1 & E1 & S1 & A1 & Ac1 & Ac1'). set (R := get_flag_path_restriction f1 f2). pose proof (restriction_sound f1 f2) as SR. fold R in SR.
    assert (Un : forall r, remove_illegal_flag_paths g r <-> andthen (compose g1 R) (fun c r => r = substitute_symbols m' c) r).
    { intros r. unfold remove_illegal_flag_paths. fold f1 f2 D. fold m m'. rewrite E1. fold R. clear - N1 N2. destruct f1; [congruence|]. destruct f2; [congruence|]. reflexivity. }
    destruct S as ((_ & _ & Sp) & _). pose proof S1 as (W1 & P1 & O1). pose proof SR as (W2 & P2 & O2).
    split.
    { destruct (compose_exists g1 R S1 SR) as (c & C & _). exists (substitute_symbols m' c). apply Un. apply (andthen_exists _ _ c); [exact C|reflexivity]. }
    intros r Hr. apply Un in Hr. apply (andthen_Ok _ _ _ (fun c => compose g1 R (Ok c))) in Hr.
    2:{ intros x C. destruct (proj2 (C84_total_partial g1 R W1 W2 P1 P2 O1 O2) x C) as (c & ->). exists c. split; [reflexivity|exact C]. }
    destruct Hr as (c & C & ->). destruct (substitute_result m' c m'_valid) as (h & Eh & _ & _ & Ah & _ & Ach). exists h. split; [exact Eh|]. clear Un Eh.
    assert (K1 : knowing_internal_symbols_of R g1 g1).
    { split; [reflexivity|]. split; [reflexivity|]. intros x. split; [intros H; left; exact H|]. intros [H|[I H]]; [exact H|]. apply A1. left. destruct Sp as (Sp1 & Sp2 & Sp3).
      unfold R in H. apply restriction_alpha in H. destruct H as [->|[->|[->|[(u & _ & ->)|(u & _ & ->)]]]]; [exact Sp1|exact Sp2|exact Sp3|destruct (dollar_internal u I)..]. }
    assert (K2 : knowing_internal_symbols_of g1 R R).
    { split; [reflexivity|]. split; [reflexivity|]. intros x. split; [intros H; left; exact H|]. intros [H|[I H]]; [exact H|]. apply restriction_alpha. apply A1 in H. destruct H as [H|(u & _ & ->)]; [|destruct (dollar_internal u I)].
      clear - I H NI. destruct (NI x I H) as [->|[->| ->]]; [left; reflexivity|right; left; reflexivity|right; right; left; reflexivity]. }
    destruct (C84_compose_partial g1 R c g1 R W1 W2 P1 P2 O1 O2 K1 K2 C) as (Ca & C1 & C2). clear C.
    assert (Ca' : forall x, In x (alpha c) <-> In x (alpha g) \/ dollars D x).
    { intros x. rewrite Ca, A1. unfold R. rewrite restriction_alpha. destruct Sp as (Sp1 & Sp2 & Sp3). split; [|tauto].
      intros [H|[->|[->|[->|[(u & Hu & ->)|(u & Hu & ->)]]]]]; auto; right; exists u; (split; [apply in_or_app; auto|reflexivity]). }
    assert (Ah' : forall x, In x (alpha h) <-> In x (alpha c)).
    { intros x. rewrite Ah. split; [|auto]. intros [H|(y & _ & M)]; [exact H|]. apply (mget_In bcmp bcmp_eq) in M. apply in_map_iff in M. destruct M as (u & Eu & Hu). injection Eu as _ <-.
      apply Ca'. left. apply D_iff, Hu. }
    assert (Oc : forall s, outside (alpha c) s -> outside (alpha g) s /\ ~ dollars D s).
    { intros s (O & N). rewrite Ca' in N. split; [split|]; tauto. }
    assert (Q : forall s, outside (alpha h) s <-> outside (alpha c) s) by (intros s; unfold outside; rewrite Ah'; tauto).
    split.
    - intros x z w H. apply (related_back rho' c h rho'_special Ach) in H.
      2:{ intros s O. apply Q in O. split; [exact O|]. apply rho'_out, Oc, O. }
      destruct H as (x1 & z1 & H & -> & ->). apply C1 in H. destruct H as (y & w1 & w2 & H1 & H2 & ->). unfold R in H2. apply restriction_related in H2. destruct H2 as (-> & -> & W).
      rewrite Z.add_0_r. destruct (walk_legal 0 z1 W) as (L & _ & F). split; [|auto]. apply (related_forth rho' g1 g rho'_special Ac1'); [|exact H1].
      intros s _ (O & N). rewrite A1 in N. split; [split; tauto|apply rho'_out; tauto].
    - intros x z w H L F N. assert (Nd : forall s, In s x \/ In s z -> ~ dollars D s) by (intros s Hs X; apply dollars_D in X; exact (N s Hs (proj1 X))).
      assert (H1 : related g1 (map rho x) (map rho z) w).
      { apply (related_forth rho g g1 rho_special Ac1); [|exact H]. intros s Hs (O & Ns). split; [split; [exact O|]; rewrite A1; specialize (Nd s Hs); tauto|]. apply rho_out, D_ordinary, O. }
      assert (H2 : related R (map rho z) (map rho z) 0).
      { apply restriction_related. split; [reflexivity|]. split; [reflexivity|]. apply legal_walk; auto. discriminate. }
      destruct (C2 _ _ _ _ _ H1 H2) as (w' & H3 & Lw).
      { right. left. apply restriction_unknown. }
      exists w'. split; [|lia].
      assert (Rx : forall l, (forall s, In s l -> ~ dollars D s) -> map rho' (map rho l) = l).
      { intros l Nl. rewrite map_map. rewrite <- (map_id l) at 2. apply map_ext_in. intros s Hs. apply rho'_rho, Nl, Hs. }
      rewrite <- (Rx x), <- (Rx z) by auto. apply (related_forth rho' c h rho'_special Ach); [|exact H3]. intros s _ O. split; [apply Q, O|apply rho'_out, Oc, O].
  Qed.
  Lemma illegal_exists : f1 <> [] -> f2 <> [] -> exists h, remove_illegal_flag_paths g (Ok h).
  Proof using S.
    intros N1 N2. destruct (substitute_result m g m_valid) as (g1 & E1 & _). pose proof (substitute_sound m g g1 rho_special m_valid S E1) as S1.
    pose proof (restriction_sound f1 f2) as SR. destruct (compose_exists g1 _ S1 SR) as (c & C & _). destruct (substitute_result m' c m'_valid) as (h & Eh & _). exists h.
    unfold remove_illegal_flag_paths. fold f1 f2 D. fold m m'. rewrite E1. assert (A : andthen (compose g1 (get_flag_path_restriction f1 f2)) (fun c r => r = substitute_symbols m' c) (Ok h)) by (apply (andthen_exists _ _ c); [exact C|symmetry; exact Eh]).
    clear - N1 N2 A. destruct f1; [congruence|]. destruct f2; [congruence|]. exact A.
  Qed.
  Lemma flag_in_alpha x z w s : related g x z w -> In s z -> is_flag s -> In s (alpha g).
  Proof using S.
    intros (l & (k & A & M) & _ & ->) Hs F. apply In_ne in Hs. destruct Hs as [Hs _]. apply in_map_iff in Hs. destruct Hs as ((i, o) & E & Hp). cbn [snd] in E. subst o.
    destruct (related_to _ _ _ _ M Hp) as (p & Hk & Mp). destruct (accepts_used g k w p A Hk) as (_ & n & b & Hb & Eo). destruct S as ((_ & Y & _) & _). destruct (Y n b Hb) as [Y1 Y2].
    assert (Q : snd p = s).
    { apply flag_iff in F. assert (No : ~ outside (alpha g) s) by (intros ((_ & K & _) & _); congruence). clear - Mp No.
      remember (i, s) as q eqn:Eq. destruct Mp; pose proof (f_equal snd Eq) as E2; cbn [snd] in E2; subst s; try reflexivity; destruct No; assumption. }
    rewrite <- Q. destruct Eo as [->| ->]; assumption.
  Qed.
  Lemma empty_legal x z w : f1 = [] \/ f2 = [] -> related g x z w -> legal z.
  Proof using S.
    intros E R a s t b -> [Fs Cs] [Ft Ct]. assert (Hs : In s (alpha g)) by (apply (flag_in_alpha _ _ _ _ R); [apply in_or_app; right; left; reflexivity|exact Fs]).
    assert (Ht : In t (alpha g)) by (apply (flag_in_alpha _ _ _ _ R); [apply in_or_app; right; right; left; reflexivity|exact Ft]).
    assert (I1 : In t f1) by (apply flags_with_In; auto). assert (I2 : In s f2) by (apply flags_with_In; auto). destruct E as [E|E]; rewrite E in *; contradiction.
  Qed.
  Lemma illegal_whole : (exists r, remove_illegal_flag_paths g r) /\ forall r, remove_illegal_flag_paths g r -> exists h, r = Ok h /\
    (forall x z w, related h x z w -> related g x z w /\ legal z) /\
    (forall x z w, related g x z w -> legal z -> Forall (fun s => ordinary s \/ is_flag s) z -> (forall s, In s x \/ In s z -> ~ dollar_form s) ->
       exists w', related h x z w' /\ (w' <= w)%Z).
  Proof using HF S HD NI.
    assert (T : (f1 = [] \/ f2 = []) \/ (f1 <> [] /\ f2 <> [])).
    { clear. destruct f1; [auto|]. destruct f2; [auto|]. right. split; discriminate. }
    destruct T as [T|[N1 N2]].
    - assert (U : forall r, remove_illegal_flag_paths g r <-> r = Ok g).
      { intros r. unfold remove_illegal_flag_paths. fold f1 f2. destruct T as [-> | ->]; [|destruct f1]; reflexivity. }
      split; [exists (Ok g); apply U; reflexivity|]. intros r Hr. apply U in Hr. exists g. split; [exact Hr|]. split.
      + intros x z w R. split; [exact R|exact (empty_legal x z w T R)].
      + intros x z w R _ _ _. exists w. split; [exact R|lia].
    - destruct (illegal_result N1 N2) as [Ex Al]. split; [exact Ex|]. intros r Hr. destruct (Al r Hr) as (h & -> & H1 & H2). exists h. split; [reflexivity|]. split.
      + intros x z w R. destruct (H1 x z w R) as (P & Q & _). auto.
      + intros x z w R L F Nd. apply (H2 x z w R L); [|exact Nd]. apply Forall_forall. intros s Hs. destruct (proj1 (Forall_forall _ _) F s Hs) as [O|Fl]; [auto|].
        right. split; [exact Fl|exact (flag_in_alpha x z w s R Hs Fl)].
  Qed.
End Illegal.
