(** Composition: labels and what they stand for. *)
From Verif Require Import Base Flags_Model BT_Model BT_Spec BT_Proofs BT_Proofs3 BT_Props Harm_Model Harm_Spec Harm_Proofs Co_Spec Co_Model.

Definition neps (x : bstr) : bool := if bstr_eq_dec x (B "@_EPSILON_SYMBOL_@") then false else true.
Lemma neps_t x : neps x = true <-> x <> EPS.
Proof. unfold neps. change (B "@_EPSILON_SYMBOL_@") with EPS. destruct (bstr_eq_dec x EPS); split; congruence. Qed.
Lemma neps_f x : neps x = false <-> x = EPS.
Proof. unfold neps. change (B "@_EPSILON_SYMBOL_@") with EPS. destruct (bstr_eq_dec x EPS); split; congruence. Qed.
Lemma ne_cons x l : no_epsilons (x :: l) = if neps x then x :: no_epsilons l else no_epsilons l.
Proof. reflexivity. Qed.
Lemma ne_eps l : no_epsilons (EPS :: l) = no_epsilons l. Proof. reflexivity. Qed.
Lemma ne_keep x l : x <> EPS -> no_epsilons (x :: l) = x :: no_epsilons l.
Proof. intros N. rewrite ne_cons, (proj2 (neps_t x) N). reflexivity. Qed.

(** * A fresh symbol *)
Lemma ordinary_as n : ordinary (repeat "a"%char (S n)).
Proof.
  split; [|split].
  - intros [K|[K|K]]; discriminate.
  - unfold is_diacritic. destruct (_ <? 5); [reflexivity|]. destruct (negb (at_is _ 2 _)); [reflexivity|]. cbn. reflexivity.
  - intros K. apply pmatch_special_spec in K. unfold is_pmatch_special in K. destruct (_ <? 3); [discriminate|]. cbn in K. discriminate.
Qed.
Lemma fresh al u v : exists y, outside al y /\ y <> u /\ y <> v.
Proof.
  set (n := list_max (map (@length ascii) (u :: v :: al))). exists (repeat "a"%char (S n)).
  assert (L : forall x, In x (u :: v :: al) -> length x <= n).
  { intros x Hx. pose proof (proj1 (list_max_le (map (@length ascii) (u :: v :: al)) n) (le_n _)) as F. rewrite Forall_forall in F.
    apply F. apply in_map. exact Hx. }
  assert (N : forall x, In x (u :: v :: al) -> repeat "a"%char (S n) <> x).
  { intros x Hx <-. apply L in Hx. rewrite repeat_length in Hx. lia. }
  split; [split; [apply ordinary_as|]|split].
  - intros K. apply (N _ (or_intror (or_intror K))). reflexivity.
  - apply N. left. reflexivity.
  - apply N. right. left. reflexivity.
Qed.

Lemma nIE : IDN <> EPS. Proof. discriminate. Qed.
Lemma nUE : UNK <> EPS. Proof. discriminate. Qed.
Lemma nIU : IDN <> UNK. Proof. discriminate. Qed.
Lemma outside_ne al x : outside al x -> x <> EPS /\ x <> UNK /\ x <> IDN.
Proof. intros [[O _] _]. unfold special in O. split; [|split]; intros ->; apply O; auto. Qed.

Lemma cons_eq {A} (x y : A) l m : x :: l = y :: m -> x = y /\ l = m.
Proof. intros E. injection E. auto. Qed.

Section Labels.
  Variable al : list bstr.
  Definition mean1 (a ca : bstr) : Prop := a = UNK /\ outside al ca \/ a <> UNK /\ a <> IDN /\ ca = a.
  Definition paired (p : bstr * bstr) : Prop := fst p = IDN <-> snd p = IDN.
  Lemma means_iff a b ca cb : paired (a, b) -> means al (a, b) (ca, cb) <->
    (a = IDN /\ b = IDN /\ ca = cb /\ outside al ca) \/
    (a <> IDN /\ b <> IDN /\ mean1 a ca /\ mean1 b cb /\ ~ (a = UNK /\ b = UNK /\ ca = cb)).
  Proof.
    unfold paired, mean1. cbn [fst snd]. intros P. split.
    - intros M. inversion M as [x O|x y Ox Oy N|x o Ox N|i y Oy N|i o N1 N2 N3]; subst.
      + left. auto.
      + right. repeat split; try discriminate; [left; auto|left; auto|tauto].
      + right. assert (cb <> IDN) by (intros ->; destruct P as [_ P]; specialize (P eq_refl); discriminate). repeat split; [discriminate|assumption|left; auto|right; auto|].
        intros (_ & K & _). apply N. exact K.
      + right. assert (ca <> IDN) by (intros ->; destruct P as [P _]; specialize (P eq_refl); discriminate). repeat split; [assumption|discriminate|right; auto|left; auto|].
        intros (K & _). apply N. exact K.
      + right. assert (ca <> IDN) by (intros K; apply N3; split; [exact K|apply P, K]). assert (cb <> IDN) by (intros K; apply N3; split; [apply P, K|exact K]).
        repeat split; [assumption|assumption|right; auto|right; auto|]. intros (K & _). apply N1. exact K.
    - intros [(-> & -> & -> & O)|(Na & Nb & Ma & Mb & N)]; [apply means_identity, O|].
      destruct Ma as [[-> Oa]|(Ua & _ & ->)]; destruct Mb as [[-> Ob]|(Ub & _ & ->)].
      + apply means_unknowns; auto.
      + apply means_unknown_in; auto.
      + apply means_unknown_out; auto.
      + apply means_itself; auto. intros [K _]. apply Na. exact K.
  Qed.
  Lemma mean1_eps a ca : mean1 a ca -> (a = EPS <-> ca = EPS).
  Proof. intros [[-> O]|(N & I & ->)]; [|tauto]. destruct (outside_ne _ _ O) as (K & _). split; [discriminate|tauto]. Qed.
  Lemma mean1_EPS : mean1 EPS EPS. Proof. right. repeat split; discriminate. Qed.

  Definition enc1 := replace_on_sides IDN UNK false true.
  Definition enc2 := replace_on_sides IDN UNK true false.
  Definition dec (p : bstr * bstr) : bstr * bstr := match single_identity p with Some (q :: _) => q | _ => p end.
  Lemma enc1_cases p : paired p -> p = (IDN, IDN) /\ enc1 p = (IDN, UNK) \/ fst p <> IDN /\ snd p <> IDN /\ enc1 p = p.
  Proof.
    destruct p as [a b]. unfold paired, enc1, replace_on_sides. cbn [fst snd]. intros P. destruct (bstr_eq_dec b IDN) as [->|N].
    - left. rewrite (proj2 P eq_refl). auto.
    - right. split; [intros K; apply N, P, K|]. auto.
  Qed.
  Lemma enc2_cases p : paired p -> p = (IDN, IDN) /\ enc2 p = (UNK, IDN) \/ fst p <> IDN /\ snd p <> IDN /\ enc2 p = p.
  Proof.
    destruct p as [a b]. unfold paired, enc2, replace_on_sides. cbn [fst snd]. intros P. destruct (bstr_eq_dec a IDN) as [->|N].
    - left. rewrite (proj1 P eq_refl). auto.
    - right. split; [exact N|]. split; [intros K; apply N, P, K|auto].
  Qed.
  Lemma dec_plain a b : a <> IDN -> b <> IDN -> dec (a, b) = (a, b).
  Proof.
    intros Na Nb. unfold dec, single_identity. cbn [fst snd]. rewrite (proj2 (bstr_eqb_neq a IDN) Na), (proj2 (bstr_eqb_neq b IDN) Nb). reflexivity.
  Qed.
  Lemma dec_left b : b <> IDN -> dec (IDN, b) = (UNK, b).
  Proof.
    intros Nb. unfold dec, single_identity. cbn [fst snd]. rewrite bstr_eqb_refl, (proj2 (bstr_eqb_neq b IDN) Nb). reflexivity.
  Qed.
  Lemma dec_right a : a <> IDN -> dec (a, IDN) = (a, UNK).
  Proof.
    intros Na. unfold dec, single_identity. cbn [fst snd]. rewrite bstr_eqb_refl, (proj2 (bstr_eqb_neq a IDN) Na). reflexivity.
  Qed.
  Lemma dec_both : dec (IDN, IDN) = (IDN, IDN). Proof. reflexivity. Qed.
  Lemma pair_plain a b : a <> IDN -> b <> IDN -> paired (a, b).
  Proof. unfold paired. cbn [fst snd]. tauto. Qed.

  (** One composed transition: whatever it stands for has something in between. *)
  Lemma match_sound p1 p2 a x b ca cb : paired p1 -> paired p2 -> enc1 p1 = (a, x) -> enc2 p2 = (x, b) -> x <> EPS ->
    means al (dec (a, b)) (ca, cb) -> exists y, y <> EPS /\ means al p1 (ca, y) /\ means al p2 (y, cb).
  Proof.
    intros P1 P2 E1 E2 X M.
    destruct (enc1_cases p1 P1) as [[-> K1]|(N1 & N1' & K1)]; destruct (enc2_cases p2 P2) as [[-> K2]|(N2 & N2' & K2)]; rewrite E1 in K1; rewrite E2 in K2.
    - injection K1 as -> ->. injection K2 as ->. rewrite dec_both in M. apply means_iff in M; [|unfold paired; cbn; tauto]. destruct M as [(_ & _ & -> & O)|(K & _)]; [|congruence].
      exists cb. split; [apply (outside_ne al), O|]. split; apply means_iff; try (unfold paired; cbn; tauto); left; auto.
    - injection K1 as -> ->. destruct p2 as [p q]. injection K2 as <- <-. cbn [fst snd] in *. rewrite dec_left in M by assumption.
      apply means_iff in M; [|apply pair_plain; [discriminate|assumption]]. destruct M as [(K & _)|(_ & _ & Ma & Mb & N)]; [discriminate|].
      destruct Ma as [[_ O]|[K _]]; [|congruence]. exists ca. split; [apply (outside_ne al), O|]. split.
      + apply means_iff; [unfold paired; cbn; tauto|]. left. auto.
      + apply means_iff; [assumption|]. right. repeat split; try assumption. left. auto.
    - injection K2 as -> ->. destruct p1 as [p q]. injection K1 as <- <-. cbn [fst snd] in *. rewrite dec_right in M by assumption.
      apply means_iff in M; [|apply pair_plain; [assumption|discriminate]]. destruct M as [(_ & K & _)|(_ & _ & Ma & Mb & N)]; [discriminate|].
      destruct Mb as [[_ O]|[K _]]; [|congruence]. exists cb. split; [apply (outside_ne al), O|]. split.
      + apply means_iff; [assumption|]. right. repeat split; try assumption. left. auto.
      + apply means_iff; [unfold paired; cbn; tauto|]. left. auto.
    - destruct p1 as [p q]. injection K1 as <- <-. destruct p2 as [p' q']. injection K2 as <- <-. cbn [fst snd] in *. rewrite dec_plain in M by assumption.
      apply means_iff in M; [|apply pair_plain; assumption]. destruct M as [(K & _)|(_ & _ & Ma & Mb & N)]; [congruence|].
      destruct (bstr_eq_dec x UNK) as [->|NU].
      + destruct (fresh al ca cb) as (y & O & Ya & Yb). exists y. split; [apply (outside_ne al), O|].
        assert (My : mean1 UNK y) by (left; auto). split.
        * apply means_iff; [assumption|]. right. repeat split; try assumption. intros (_ & _ & K). congruence.
        * apply means_iff; [assumption|]. right. repeat split; try assumption. intros (_ & _ & K). congruence.
      + exists x. split; [assumption|]. assert (Mx : mean1 x x) by (right; auto). split.
        * apply means_iff; [assumption|]. right. repeat split; try assumption. intros (_ & K & _). congruence.
        * apply means_iff; [assumption|]. right. repeat split; try assumption. intros (K & _). congruence.
  Qed.
  Lemma match_complete p1 p2 a x b ca y cb : paired p1 -> paired p2 -> enc1 p1 = (a, x) -> enc2 p2 = (x, b) ->
    means al p1 (ca, y) -> means al p2 (y, cb) -> fst p1 <> UNK \/ snd p2 <> UNK \/ ca <> cb -> means al (dec (a, b)) (ca, cb).
  Proof.
    intros P1 P2 E1 E2 M1 M2 C.
    destruct (enc1_cases p1 P1) as [[-> K1]|(N1 & N1' & K1)]; destruct (enc2_cases p2 P2) as [[-> K2]|(N2 & N2' & K2)]; rewrite E1 in K1; rewrite E2 in K2.
    - injection K1 as -> ->. injection K2 as ->. rewrite dec_both. apply means_iff in M1; [|unfold paired; cbn; tauto]. apply means_iff in M2; [|unfold paired; cbn; tauto].
      destruct M1 as [(_ & _ & -> & O)|(K & _)]; [|congruence]. exact (proj2 (means_iff _ _ _ _ (conj (fun _ => eq_refl) (fun _ => eq_refl))) M2).
    - injection K1 as -> ->. destruct p2 as [p q]. injection K2 as <- <-. cbn [fst snd] in *. rewrite dec_left by assumption.
      apply means_iff in M1; [|unfold paired; cbn; tauto]. destruct M1 as [(_ & _ & -> & O)|(K & _)]; [|congruence]. exact M2.
    - injection K2 as -> ->. destruct p1 as [p q]. injection K1 as <- <-. cbn [fst snd] in *. rewrite dec_right by assumption.
      apply means_iff in M2; [|unfold paired; cbn; tauto]. destruct M2 as [(_ & _ & -> & O)|(K & _)]; [|congruence]. exact M1.
    - destruct p1 as [p q]. injection K1 as <- <-. destruct p2 as [p' q']. injection K2 as <- <-. cbn [fst snd] in *. rewrite dec_plain by assumption.
      apply means_iff in M1; [|assumption]. apply means_iff in M2; [|assumption].
      destruct M1 as [(K & _)|(_ & _ & Ma & _ & _)]; [congruence|]. destruct M2 as [(_ & K & _)|(_ & _ & _ & Mb & _)]; [congruence|].
      apply means_iff; [apply pair_plain; assumption|]. right. repeat split; try assumption. tauto.
  Qed.

  (** Transitions with epsilon in between. *)
  Lemma left_eps p a : paired p -> enc1 p = (a, EPS) -> p = (a, EPS) /\ a <> IDN.
  Proof.
    intros P E. destruct (enc1_cases p P) as [[-> K]|(N & N' & K)]; rewrite E in K; [discriminate|]. subst p. auto.
  Qed.
  Lemma right_eps p b : paired p -> enc2 p = (EPS, b) -> p = (EPS, b) /\ b <> IDN.
  Proof.
    intros P E. destruct (enc2_cases p P) as [[-> K]|(N & N' & K)]; rewrite E in K; [discriminate|]. subst p. auto.
  Qed.
  Lemma means_left a ca cb : a <> IDN -> means al (a, EPS) (ca, cb) <-> cb = EPS /\ mean1 a ca.
  Proof.
    intros N. rewrite means_iff by (apply pair_plain; [assumption|discriminate]). split.
    - intros [(K & _)|(_ & _ & M & M' & _)]; [congruence|]. split; [apply (mean1_eps _ _ M'); reflexivity|exact M].
    - intros [-> M]. right. repeat split; try assumption; [discriminate|apply mean1_EPS|]. intros (_ & K & _). discriminate.
  Qed.
  Lemma means_right b ca cb : b <> IDN -> means al (EPS, b) (ca, cb) <-> ca = EPS /\ mean1 b cb.
  Proof.
    intros N. rewrite means_iff by (apply pair_plain; [discriminate|assumption]). split.
    - intros [(K & _)|(_ & _ & M & M' & _)]; [discriminate|]. split; [apply (mean1_eps _ _ M); reflexivity|exact M'].
    - intros [-> M]. right. repeat split; try assumption; [discriminate|apply mean1_EPS|]. intros (K & _). discriminate.
  Qed.

  Definition outs (l : list (bstr * bstr)) := no_epsilons (map snd l).
  Definition ins (l : list (bstr * bstr)) := no_epsilons (map fst l).
  Lemma composed_sound l1 l2 l : composed l1 l2 l -> forall m1 m2 c, l1 = map enc1 m1 -> l2 = map enc2 m2 ->
    Forall paired m1 -> Forall paired m2 -> Forall2 (means al) (map dec l) c ->
    exists c1 c2, Forall2 (means al) m1 c1 /\ Forall2 (means al) m2 c2 /\ outs c1 = ins c2 /\ ins c = ins c1 /\ outs c = outs c2.
  Proof.
    intros H. induction H as [|a l1 l2 l H IH|b l1 l2 l H IH|a b l1 l2 l H IH|a x b l1 l2 l X H IH]; intros m1 m2 c E1 E2 P1 P2 M.
    - destruct m1; [|discriminate]. destruct m2; [|discriminate]. inversion M; subst. exists [], []. repeat split; constructor.
    - destruct m1 as [|p m1]; [discriminate|]. apply cons_eq in E1; destruct E1 as [Ep E1]. inversion P1 as [|? ? Pp P1']; subst. symmetry in Ep. apply (left_eps p a Pp) in Ep. destruct Ep as [-> N].
      cbn [map] in M. rewrite dec_plain in M by (try assumption; discriminate). inversion M as [|? [ca cb] ? c' Mp M']; subst.
      destruct (IH m1 m2 c' eq_refl eq_refl P1' P2 M') as (c1 & c2 & F1 & F2 & Q & Q1 & Q2). pose proof (proj1 (means_left _ _ _ N) Mp) as [-> _].
      exists ((ca, EPS) :: c1), c2. split; [constructor; assumption|]. split; [assumption|]. unfold outs, ins in *. cbn [map fst snd]. rewrite !ne_eps.
      split; [exact Q|]. split; [rewrite !ne_cons, Q1; reflexivity|exact Q2].
    - destruct m2 as [|p m2]; [discriminate|]. apply cons_eq in E2; destruct E2 as [Ep E2]. inversion P2 as [|? ? Pp P2']; subst. symmetry in Ep. apply (right_eps p b Pp) in Ep. destruct Ep as [-> N].
      cbn [map] in M. rewrite dec_plain in M by (try assumption; discriminate). inversion M as [|? [ca cb] ? c' Mp M']; subst.
      destruct (IH m1 m2 c' eq_refl eq_refl P1 P2' M') as (c1 & c2 & F1 & F2 & Q & Q1 & Q2). pose proof (proj1 (means_right _ _ _ N) Mp) as [-> _].
      exists c1, ((EPS, cb) :: c2). split; [assumption|]. split; [constructor; assumption|]. unfold outs, ins in *. cbn [map fst snd]. rewrite !ne_eps.
      split; [exact Q|]. split; [exact Q1|rewrite !ne_cons, Q2; reflexivity].
    - destruct m1 as [|p m1]; [discriminate|]. apply cons_eq in E1; destruct E1 as [Ep E1]. inversion P1 as [|? ? Pp P1']; subst. symmetry in Ep. apply (left_eps p a Pp) in Ep. destruct Ep as [-> N].
      destruct m2 as [|q m2]; [discriminate|]. apply cons_eq in E2; destruct E2 as [Eq E2]. inversion P2 as [|? ? Pq P2']; subst. symmetry in Eq. apply (right_eps q b Pq) in Eq. destruct Eq as [-> N'].
      cbn [map] in M. rewrite dec_plain in M by assumption. inversion M as [|? [ca cb] ? c' Mp M']; subst.
      destruct (IH m1 m2 c' eq_refl eq_refl P1' P2' M') as (c1 & c2 & F1 & F2 & Q & Q1 & Q2).
      apply means_iff in Mp; [|apply pair_plain; assumption]. destruct Mp as [(K & _)|(_ & _ & Ma & Mb & _)]; [congruence|].
      exists ((ca, EPS) :: c1), ((EPS, cb) :: c2). split; [constructor; [apply means_left; auto|assumption]|]. split; [constructor; [apply means_right; auto|assumption]|].
      unfold outs, ins in *. cbn [map fst snd]. rewrite !ne_eps. split; [exact Q|]. split; [rewrite !ne_cons, Q1; reflexivity|rewrite !ne_cons, Q2; reflexivity].
    - destruct m1 as [|p m1]; [discriminate|]. apply cons_eq in E1; destruct E1 as [Ep E1]. inversion P1 as [|? ? Pp P1']; subst.
      destruct m2 as [|q m2]; [discriminate|]. apply cons_eq in E2; destruct E2 as [Eq E2]. inversion P2 as [|? ? Pq P2']; subst.
      cbn [map] in M. inversion M as [|? [ca cb] ? c' Mp M']; subst.
      destruct (IH m1 m2 c' eq_refl eq_refl P1' P2' M') as (c1 & c2 & F1 & F2 & Q & Q1 & Q2).
      destruct (match_sound p q a x b ca cb Pp Pq (eq_sym Ep) (eq_sym Eq) X Mp) as (y & Ny & My1 & My2).
      exists ((ca, y) :: c1), ((y, cb) :: c2). split; [constructor; assumption|]. split; [constructor; assumption|].
      unfold outs, ins in *. cbn [map fst snd]. rewrite !(ne_keep y) by assumption.
      split; [f_equal; exact Q|]. split; [rewrite !ne_cons, Q1; reflexivity|rewrite !ne_cons, Q2; reflexivity].
  Qed.
  Lemma composed_complete l1 l2 l : composed l1 l2 l -> forall m1 m2 c1 c2, l1 = map enc1 m1 -> l2 = map enc2 m2 ->
    Forall paired m1 -> Forall paired m2 -> Forall2 (means al) m1 c1 -> Forall2 (means al) m2 c2 -> outs c1 = ins c2 ->
    (forall p q, In p m1 -> In q m2 -> fst p <> UNK \/ snd q <> UNK \/ (forall s, In s (map fst c1) -> In s (map snd c2) -> ~ outside al s)) ->
    exists c, Forall2 (means al) (map dec l) c /\ ins c = ins c1 /\ outs c = outs c2.
  Proof.
    intros H. induction H as [|a l1 l2 l H IH|b l1 l2 l H IH|a b l1 l2 l H IH|a x b l1 l2 l X H IH]; intros m1 m2 c1 c2 E1 E2 P1 P2 M1 M2 Q C.
    - destruct m1; [|discriminate]. destruct m2; [|discriminate]. inversion M1; subst. inversion M2; subst. exists []. repeat split; constructor.
    - destruct m1 as [|p m1]; [discriminate|]. apply cons_eq in E1; destruct E1 as [Ep E1]. inversion P1 as [|? ? Pp P1']; subst. symmetry in Ep. apply (left_eps p a Pp) in Ep. destruct Ep as [-> N].
      inversion M1 as [|? [ca cb] ? c1' Mp M1']; subst. pose proof (proj1 (means_left _ _ _ N) Mp) as [-> Ma].
      unfold outs, ins in Q. cbn [map fst snd] in Q. rewrite ne_eps in Q.
      destruct (IH m1 m2 c1' c2 eq_refl eq_refl P1' P2 M1' M2 Q) as (c & F & Q1 & Q2).
      { intros p q Hp Hq. destruct (C p q (or_intror Hp) Hq) as [K|[K|K]]; [auto|auto|]. right. right. intros s Hs. apply K. right. exact Hs. }
      exists ((ca, EPS) :: c). cbn [map]. rewrite dec_plain by (try assumption; discriminate). split; [constructor; assumption|].
      unfold outs, ins in *. cbn [map fst snd]. rewrite ne_eps, !ne_cons, Q1, Q2. split; reflexivity.
    - destruct m2 as [|p m2]; [discriminate|]. apply cons_eq in E2; destruct E2 as [Ep E2]. inversion P2 as [|? ? Pp P2']; subst. symmetry in Ep. apply (right_eps p b Pp) in Ep. destruct Ep as [-> N].
      inversion M2 as [|? [ca cb] ? c2' Mp M2']; subst. pose proof (proj1 (means_right _ _ _ N) Mp) as [-> Ma].
      unfold outs, ins in Q. cbn [map fst snd] in Q. rewrite ne_eps in Q.
      destruct (IH m1 m2 c1 c2' eq_refl eq_refl P1 P2' M1 M2' Q) as (c & F & Q1 & Q2).
      { intros p q Hp Hq. destruct (C p q Hp (or_intror Hq)) as [K|[K|K]]; [auto|auto|]. right. right. intros s Hs Hs'. apply K; [exact Hs|right; exact Hs']. }
      exists ((EPS, cb) :: c). cbn [map]. rewrite dec_plain by (try assumption; discriminate). split; [constructor; assumption|].
      unfold outs, ins in *. cbn [map fst snd]. rewrite ne_eps, !ne_cons, Q1, Q2. split; reflexivity.
    - destruct m1 as [|p m1]; [discriminate|]. apply cons_eq in E1; destruct E1 as [Ep E1]. inversion P1 as [|? ? Pp P1']; subst. symmetry in Ep. apply (left_eps p a Pp) in Ep. destruct Ep as [-> N].
      destruct m2 as [|q m2]; [discriminate|]. apply cons_eq in E2; destruct E2 as [Eq E2]. inversion P2 as [|? ? Pq P2']; subst. symmetry in Eq. apply (right_eps q b Pq) in Eq. destruct Eq as [-> N'].
      inversion M1 as [|? [ca cb] ? c1' Mp M1']; subst. pose proof (proj1 (means_left _ _ _ N) Mp) as [-> Ma].
      inversion M2 as [|? [ca' cb'] ? c2' Mq M2']; subst. pose proof (proj1 (means_right _ _ _ N') Mq) as [-> Mb].
      unfold outs, ins in Q. cbn [map fst snd] in Q. rewrite !ne_eps in Q.
      destruct (IH m1 m2 c1' c2' eq_refl eq_refl P1' P2' M1' M2' Q) as (c & F & Q1 & Q2).
      { intros p q Hp Hq. destruct (C p q (or_intror Hp) (or_intror Hq)) as [K|[K|K]]; [auto|auto|]. right. right. intros s Hs Hs'. apply K; right; assumption. }
      exists ((ca, cb') :: c). cbn [map]. rewrite dec_plain by assumption. split.
      + constructor; [|assumption]. apply means_iff; [apply pair_plain; assumption|]. right. repeat split; try assumption. intros (-> & -> & ->).
        destruct (C _ _ (or_introl eq_refl) (or_introl eq_refl)) as [K|[K|K]]; [cbn in K; congruence|cbn in K; congruence|].
        apply (K cb'); [left; reflexivity|left; reflexivity|]. destruct Ma as [[_ O]|(K' & _)]; [exact O|congruence].
      + unfold outs, ins in *. cbn [map fst snd]. rewrite !ne_cons, Q1, Q2. split; reflexivity.
    - destruct m1 as [|p m1]; [discriminate|]. apply cons_eq in E1; destruct E1 as [Ep E1]. inversion P1 as [|? ? Pp P1']; subst.
      destruct m2 as [|q m2]; [discriminate|]. apply cons_eq in E2; destruct E2 as [Eq E2]. inversion P2 as [|? ? Pq P2']; subst.
      inversion M1 as [|? [ca y] ? c1' Mp M1']; subst. inversion M2 as [|? [y' cb] ? c2' Mq M2']; subst.
      assert (NY : y <> EPS).
      { destruct (enc1_cases p Pp) as [[-> _]|(N & N' & K)].
        - apply means_iff in Mp; [|unfold paired; cbn; tauto]. destruct Mp as [(_ & _ & -> & O)|(K & _)]; [|congruence]. apply (outside_ne al), O.
        - rewrite <- Ep in K. destruct p as [pa px]. injection K as -> ->. apply means_iff in Mp; [|assumption]. cbn [fst snd] in *.
          destruct Mp as [(K & _)|(_ & _ & _ & Mb & _)]; [congruence|]. intros ->. apply X. apply (mean1_eps _ _ Mb). reflexivity. }
      assert (NY' : y' <> EPS).
      { destruct (enc2_cases q Pq) as [[-> _]|(N & N' & K)].
        - apply means_iff in Mq; [|unfold paired; cbn; tauto]. destruct Mq as [(_ & _ & -> & O)|(K & _)]; [|congruence]. apply (outside_ne al), O.
        - rewrite <- Eq in K. destruct q as [qx qb]. injection K as -> ->. apply means_iff in Mq; [|assumption]. cbn [fst snd] in *.
          destruct Mq as [(K & _)|(_ & _ & Ma & _ & _)]; [congruence|]. intros ->. apply X. apply (mean1_eps _ _ Ma). reflexivity. }
      unfold outs, ins in Q. cbn [map fst snd] in Q. rewrite !ne_keep in Q by assumption. injection Q as <- Q.
      destruct (IH m1 m2 c1' c2' eq_refl eq_refl P1' P2' M1' M2' Q) as (c & F & Q1 & Q2).
      { intros p' q' Hp Hq. destruct (C p' q' (or_intror Hp) (or_intror Hq)) as [K|[K|K]]; [auto|auto|]. right. right. intros s Hs Hs'. apply K; right; assumption. }
      exists ((ca, cb) :: c). cbn [map]. split.
      + constructor; [|assumption]. apply (match_complete p q a x b ca y cb); try assumption; [congruence|congruence|].
        destruct (C _ _ (or_introl eq_refl) (or_introl eq_refl)) as [K|[K|K]]; [auto|auto|].
        destruct (bstr_eq_dec (fst p) UNK) as [EU|NU]; [|auto]. right. right. intros ->. apply (K cb); [left; reflexivity|left; reflexivity|].
        destruct p as [pa px]. cbn [fst] in EU. subst pa. apply means_iff in Mp; [|assumption]. destruct Mp as [(K' & _)|(_ & _ & Ma & _ & _)]; [discriminate|].
        destruct Ma as [[_ O]|(K' & _)]; [exact O|congruence].
      + unfold outs, ins in *. cbn [map fst snd]. rewrite !ne_cons, Q1, Q2. split; reflexivity.
  Qed.

  (** Equal strings have equal labels. *)
  Definition lab (a ca : bstr) : Prop := a = UNK /\ outside al ca \/ a = ca /\ ~ outside al a /\ a <> UNK.
  Lemma lab_fun l1 l2 c : Forall2 lab l1 c -> Forall2 lab l2 c -> l1 = l2.
  Proof.
    intros F. revert l2. induction F as [|a ca l c H F IH]; intros l2 F2; inversion F2 as [|a' ca' l2' c' H' F2']; subst; [reflexivity|].
    f_equal; [|apply IH; assumption]. unfold lab in *. destruct H as [[-> O]|(-> & O & U)]; destruct H' as [[-> O']|(-> & O' & U')]; tauto || congruence.
  Qed.
  Definition known (p : bstr * bstr) : Prop := ~ outside al (fst p) /\ ~ outside al (snd p).
  Lemma outs_lab m c : Forall2 (means al) m c -> Forall paired m -> Forall known m -> Forall2 lab (outs (map enc1 m)) (outs c).
  Proof.
    intros F. induction F as [|p [ca cb] m c M F IH]; intros P K; [constructor|]. inversion P as [|? ? Pp P']; subst. inversion K as [|? ? [Kp Kq] K']; subst.
    specialize (IH P' K'). unfold outs in *. cbn [map snd]. destruct (enc1_cases p Pp) as [[-> E]|(N & N' & E)]; rewrite E; cbn [snd].
    - apply means_iff in M; [|assumption]. destruct M as [(_ & _ & -> & O)|(X & _)]; [|congruence]. rewrite !ne_keep; [|apply (outside_ne al), O|discriminate].
      constructor; [left; auto|exact IH].
    - destruct p as [a b]. cbn [fst snd] in *. apply means_iff in M; [|assumption]. destruct M as [(X & _)|(_ & _ & Ma & Mb & _)]; [congruence|].
      rewrite !ne_cons. destruct (neps b) eqn:Nb.
      + apply neps_t in Nb. assert (Nc : neps cb = true) by (apply neps_t; intros X; apply Nb, (mean1_eps _ _ Mb), X). rewrite Nc. constructor; [|exact IH].
        destruct Mb as [[-> O]|(U & I & ->)]; [left; auto|right; auto].
      + apply neps_f in Nb. rewrite (proj2 (neps_f cb)) by (apply (mean1_eps _ _ Mb), Nb). exact IH.
  Qed.
  Lemma ins_lab m c : Forall2 (means al) m c -> Forall paired m -> Forall known m -> Forall2 lab (ins (map enc2 m)) (ins c).
  Proof.
    intros F. induction F as [|p [ca cb] m c M F IH]; intros P K; [constructor|]. inversion P as [|? ? Pp P']; subst. inversion K as [|? ? [Kp Kq] K']; subst.
    specialize (IH P' K'). unfold ins in *. cbn [map fst]. destruct (enc2_cases p Pp) as [[-> E]|(N & N' & E)]; rewrite E; cbn [fst].
    - apply means_iff in M; [|assumption]. destruct M as [(_ & _ & -> & O)|(X & _)]; [|congruence]. rewrite !ne_keep; [|apply (outside_ne al), O|discriminate].
      constructor; [left; auto|exact IH].
    - destruct p as [a b]. cbn [fst snd] in *. apply means_iff in M; [|assumption]. destruct M as [(X & _)|(_ & _ & Ma & Mb & _)]; [congruence|].
      rewrite !ne_cons. destruct (neps a) eqn:Nb.
      + apply neps_t in Nb. assert (Nc : neps ca = true) by (apply neps_t; intros X; apply Nb, (mean1_eps _ _ Ma), X). rewrite Nc. constructor; [|exact IH].
        destruct Ma as [[-> O]|(U & I & ->)]; [left; auto|right; auto].
      + apply neps_f in Nb. rewrite (proj2 (neps_f ca)) by (apply (mean1_eps _ _ Ma), Nb). exact IH.
  Qed.
End Labels.
