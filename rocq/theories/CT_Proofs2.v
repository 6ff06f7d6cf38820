(** Proofs about the conversion of basic transducers to tropical ones and back. *)
From Coq Require Import Lia Sorted.
From Verif Require Import Base BT_Model BT_Spec BT_Proofs Str_Model Str_Proofs Str_Proofs2 Xp_Model Xp_Spec CT_Model CT_Spec CT_Proofs.

(** * Languages *)
Section Language.
  Variables (t : tfst) (i : nat) (g : graph).
  Hypothesis Hi : i < length (t_states t).
  Hypothesis Hlab : labelled t.
  Hypothesis Hfst : NoDup (map fst (t_syms t)).
  Hypothesis Harcs : forall s, s < length (t_states t) -> arcs g (swap i s) = map (carc t i) (t_arcs t s).
  Hypothesis Hfin : forall s, s < length (t_states t) -> finw g (swap i s) = t_final t s.

  Lemma tpath_run s q u : tpath t s q u -> s < length (t_states t) -> forall l, named t q l ->
    u < length (t_states t) /\ exists v, path_weight q v /\ run g (swap i s) l v (swap i u).
  Proof.
    intros P. induction P as [s|s a q u Ha P IH]; intros Ls l N.
    - inversion N; subst. split; [exact Ls|]. exists 0%Z. split; [reflexivity|constructor].
    - inversion N as [|? [x y] ? l' [N1 N2] N']; subst. cbn [fst snd] in *.
      destruct (Hlab s a Ha) as (_ & _ & L). destruct (IH L l' N') as (Lu & v & V & R). split; [exact Lu|].
      exists (l_w a + v)%Z. split; [unfold path_weight in *; subst v; reflexivity|].
      rewrite <- (find_label_eq _ _ _ Hfst N1), <- (find_label_eq _ _ _ Hfst N2).
      apply (run_cons g (swap i s) (carc t i a) l' v (swap i u)); [|exact R].
      fold (arcs g (swap i s)). rewrite Harcs by exact Ls. apply in_map. exact Ha.
  Qed.
  Lemma run_tpath s l v u : run g s l v u -> forall s0, s = swap i s0 -> s0 < length (t_states t) ->
    exists q u0, u = swap i u0 /\ u0 < length (t_states t) /\ tpath t s0 q u0 /\ named t q l /\ path_weight q v.
  Proof.
    intros R. induction R as [s|s b l v u Hb R IH]; intros s0 -> L0.
    - exists [], s0. repeat split; try assumption; constructor.
    - fold (arcs g (swap i s0)) in Hb. rewrite Harcs in Hb by exact L0. apply in_map_iff in Hb.
      destruct Hb as (a & <- & Ha). destruct (Hlab s0 a Ha) as (N1 & N2 & L).
      destruct (IH (l_to a) eq_refl L) as (q & u0 & Eu & Lu & P & N & W).
      exists (a :: q), u0. split; [exact Eu|]. split; [exact Lu|]. split; [apply (tp_cons t s0 a q u0); assumption|].
      split.
      + constructor; [|exact N]. cbn [fst snd carc isy osy].
        apply in_map_iff in N1. destruct N1 as ([k1 x1] & E1 & N1). apply in_map_iff in N2. destruct N2 as ([k2 x2] & E2 & N2).
        cbn [fst] in E1, E2. subst k1 k2. rewrite (find_label_eq _ _ _ Hfst N1), (find_label_eq _ _ _ Hfst N2). split; assumption.
      + unfold path_weight in *. subst v. reflexivity.
  Qed.
  Lemma same_language : t_start t = Some i -> (forall s, length (t_states t) <= s -> finw g s = None) ->
    forall l w, accepts g l w <-> tropical_accepts t l w.
  Proof.
    intros Es Hout l w. split.
    - intros (u & v & f & R & F & ->). rewrite <- (swap_start i) in R.
      destruct (run_tpath _ _ _ _ R i eq_refl Hi) as (q & u0 & -> & Lu & P & N & W).
      exists i, q, u0, v, f. fold (finw g (swap i u0)) in F. rewrite Hfin in F by exact Lu.
      repeat (split; [assumption|]). reflexivity.
    - intros (s & q & u & v & z & E & P & N & W & F & ->). assert (s = i) by congruence. subst s.
      destruct (tpath_run i q u P Hi l N) as (Lu & v' & W' & R). rewrite (swap_start i) in R.
      assert (v' = v) by (unfold path_weight in *; congruence). subst v'.
      exists (swap i u), v, z. split; [exact R|]. split; [|reflexivity].
      fold (finw g (swap i u)). rewrite Hfin by exact Lu. exact F.
  Qed.
End Language.

(** * To tropical transducers *)
Definition names (nm : numbering) (k : nat) (x : bstr) : Prop := nth_error (n2s nm) k = Some x.
Definition extends (nm nm' : numbering) : Prop := exists ext, n2s nm' = n2s nm ++ ext.
Lemma extends_refl nm : extends nm nm.
Proof. exists []. rewrite app_nil_r. reflexivity. Qed.
Lemma extends_trans a b c : extends a b -> extends b c -> extends a c.
Proof. intros (e1 & E1) (e2 & E2). exists (e1 ++ e2). rewrite E2, E1, app_assoc. reflexivity. Qed.
Lemma names_extends nm nm' k x : extends nm nm' -> names nm k x -> names nm' k x.
Proof. intros (e & E) H. unfold names in *. rewrite E, nth_error_app1; [exact H|]. apply nth_error_Some. congruence. Qed.
Lemma names_inj nm k k' x : num_ok nm -> names nm k x -> names nm k' x -> k = k'.
Proof. intros (_ & _ & _ & M) H H'. apply M in H. apply M in H'. congruence. Qed.
Lemma number_ok nm x : num_ok nm -> x <> [] -> exists nm' k, get_number nm x = Ok (nm', k) /\ num_ok nm' /\ extends nm nm' /\ names nm' k x.
Proof.
  intros H N. destruct (get_number_total nm x N) as (nm' & k & E). exists nm', k. split; [exact E|].
  destruct (get_number_ok nm x nm' k H E) as (H1 & H2 & e & H3 & _). split; [exact H1|]. split; [exists e; exact H3|exact H2].
Qed.
(** A table that agrees with the global numbers. *)
Record tab_inv (nm : numbering) (tab : list (nat * bstr)) : Prop := {
  ti_snd : NoDup (map snd tab);
  ti_names : forall k x, In (k, x) tab -> names nm k x }.
Lemma tab_inv_extends nm nm' tab : extends nm nm' -> tab_inv nm tab -> tab_inv nm' tab.
Proof. intros E [T1 T2]. split; [exact T1|]. intros k x H. eapply names_extends; eauto. Qed.
Lemma tab_inv_fst nm tab : tab_inv nm tab -> NoDup (map fst tab).
Proof.
  intros [T1 T2]. induction tab as [|[k x] r IH]; [constructor|]. cbn [map fst snd] in *. inversion T1 as [|? ? N T1']; subst.
  constructor; [|apply IH; [exact T1'|intros k' y H; apply T2; right; exact H]].
  intros H. apply in_map_iff in H. destruct H as ([k' y] & E & H). cbn [fst] in E. subst k'. apply N.
  pose proof (T2 k x (or_introl eq_refl)) as A. pose proof (T2 k y (or_intror H)) as C. unfold names in *.
  assert (x = y) by congruence. subst y. apply (in_map snd) in H. exact H.
Qed.
Lemma table_add_inv nm tab k x : names nm k x -> tab_inv nm tab -> tab_inv nm (table_add tab x k) /\
  forall y, In y (map snd (table_add tab x k)) <-> y = x \/ In y (map snd tab).
Proof.
  intros H [T1 T2]. unfold table_add. destruct (find_symbol tab x) as [j|] eqn:E.
  - split; [split; assumption|]. intros y. split; [tauto|]. intros [->|K]; [|exact K].
    apply find_symbol_In in E. apply (in_map snd) in E. exact E.
  - apply find_symbol_None in E. split.
    + split.
      * rewrite map_app. cbn [map snd]. apply NoDup_snoc; assumption.
      * intros j y K. apply in_app_iff in K. destruct K as [K|[K|[]]]; [apply T2; exact K|]. injection K as <- <-. exact H.
    + intros y. rewrite map_app, in_app_iff. cbn [map snd In]. intuition.
Qed.
Lemma symbol_table_ok al : forall nm, num_ok nm -> ~ In [] al ->
  names nm 0 EPS -> names nm 1 UNK -> names nm 2 IDN ->
  exists nm' tab, symbol_table nm al = Ok (nm', tab) /\ num_ok nm' /\ extends nm nm' /\ tab_inv nm' tab /\
    forall x, In x (map snd tab) <-> special x \/ In x al.
Proof.
  intros nm Hn Ne H0 H1 H2. unfold symbol_table.
  assert (G : forall l nm tab, num_ok nm -> ~ In [] l -> tab_inv nm tab ->
    exists nm' tab', rfold (fun p x => rbind (get_number (fst p) x) (fun '(nm1, k) => Ok (nm1, table_add (snd p) x k))) (nm, tab) l = Ok (nm', tab') /\
      num_ok nm' /\ extends nm nm' /\ tab_inv nm' tab' /\ forall x, In x (map snd tab') <-> In x (map snd tab) \/ In x l).
  { clear. induction l as [|y l IH]; intros nm tab Hn Ne T.
    - exists nm, tab. split; [reflexivity|]. split; [exact Hn|]. split; [apply extends_refl|]. split; [exact T|]. simpl. tauto.
    - cbn [rfold fst snd]. destruct (number_ok nm y Hn) as (nm1 & k & -> & Hn1 & E1 & K).
      { intros ->. apply Ne. left. reflexivity. }
      cbn [rbind]. destruct (table_add_inv nm1 tab k y K (tab_inv_extends _ _ _ E1 T)) as (T1 & A1).
      destruct (IH nm1 _ Hn1 (fun H => Ne (or_intror H)) T1) as (nm' & tab' & E & Hn' & E' & T' & A').
      exists nm', tab'. split; [exact E|]. split; [exact Hn'|]. split; [eapply extends_trans; eauto|]. split; [exact T'|].
      intros x. rewrite A', A1. cbn [In]. intuition. }
  assert (T0 : tab_inv nm []) by (split; [constructor|intros k x []]).
  destruct (table_add_inv nm [] 0 EPS H0 T0) as (Ta & Aa).
  destruct (table_add_inv nm _ 1 UNK H1 Ta) as (Tb & Ab).
  destruct (table_add_inv nm _ 2 IDN H2 Tb) as (Tc & Ac).
  destruct (G al nm _ Hn Ne Tc) as (nm' & tab & E & Hn' & E' & T' & A').
  exists nm', tab. split; [exact E|]. split; [exact Hn'|]. split; [exact E'|]. split; [exact T'|].
  intros x. rewrite A', Ac, Ab, Aa. unfold special, EPS, UNK, IDN. cbn [map In]. tauto.
Qed.

(** A numbered transition and the one it stands for. *)
Definition arc_of (nm : numbering) (a : larc) (b : arc) : Prop :=
  names nm (l_in a) (isy b) /\ names nm (l_out a) (osy b) /\ l_w a = wt b /\ l_to a = tgt b.
Lemma arc_of_extends nm nm' a b : extends nm nm' -> arc_of nm a b -> arc_of nm' a b.
Proof. intros E (H1 & H2 & H3 & H4). repeat split; try assumption; eapply names_extends; eauto. Qed.
Lemma Forall2_mono {A B} (P Q : A -> B -> Prop) l l' : (forall a b, P a b -> Q a b) -> Forall2 P l l' -> Forall2 Q l l'.
Proof. intros H F. induction F; constructor; auto. Qed.
Lemma number_arcs_ok n l : (forall b, In b l -> isy b <> [] /\ osy b <> [] /\ tgt b < n) -> forall nm acc, num_ok nm ->
  exists nm' ls, rfold (number_arc n) (nm, acc) l = Ok (nm', acc ++ ls) /\ num_ok nm' /\ extends nm nm' /\ Forall2 (arc_of nm') ls l.
Proof.
  induction l as [|b l IH]; intros Hl nm acc Hn.
  - exists nm, []. rewrite app_nil_r. split; [reflexivity|]. split; [exact Hn|]. split; [apply extends_refl|constructor].
  - destruct (Hl b (or_introl eq_refl)) as (N1 & N2 & L). cbn [rfold]. unfold number_arc at 1. cbn [fst snd].
    destruct (number_ok nm _ Hn N1) as (nm1 & k1 & -> & Hn1 & E1 & K1). cbn [rbind].
    destruct (number_ok nm1 _ Hn1 N2) as (nm2 & k2 & -> & Hn2 & E2 & K2). cbn [rbind].
    rewrite (proj2 (Nat.ltb_lt _ _) L). cbn [rbind].
    destruct (IH (fun c Hc => Hl c (or_intror Hc)) nm2 (acc ++ [LArc k1 k2 (wt b) (tgt b)]) Hn2) as (nm' & ls & E & Hn' & E' & F).
    exists nm', (LArc k1 k2 (wt b) (tgt b) :: ls). rewrite <- app_assoc in E. cbn [app] in E. split; [exact E|].
    split; [exact Hn'|]. split; [eapply extends_trans; [exact E1|eapply extends_trans; eauto]|].
    constructor; [|exact F]. split; [|split; [|split; reflexivity]]; cbn [l_in l_out].
    + eapply names_extends; [|exact K1]. eapply extends_trans; eauto.
    + eapply names_extends; [|exact K2]. exact E'.
Qed.
Lemma number_states_ok n ls : (forall l b, In l ls -> In b l -> isy b <> [] /\ osy b <> [] /\ tgt b < n) -> forall nm, num_ok nm ->
  exists nm' r, number_states n nm ls = Ok (nm', r) /\ num_ok nm' /\ extends nm nm' /\ Forall2 (Forall2 (arc_of nm')) r ls.
Proof.
  intros Hl nm Hn. unfold number_states.
  enough (G : forall ls, (forall l b, In l ls -> In b l -> isy b <> [] /\ osy b <> [] /\ tgt b < n) -> forall nm acc, num_ok nm ->
     exists nm' r, rfold (fun p arcs => rbind (rfold (number_arc n) (fst p, []) arcs) (fun '(nm1, ls0) => Ok (nm1, snd p ++ [ls0]))) (nm, acc) ls = Ok (nm', acc ++ r) /\
       num_ok nm' /\ extends nm nm' /\ Forall2 (Forall2 (arc_of nm')) r ls).
  { destruct (G ls Hl nm [] Hn) as (nm' & r & E & X). exists nm', r. split; [exact E|exact X]. }
  clear. induction ls as [|l ls IH]; intros Hl nm acc Hn.
  - exists nm, []. rewrite app_nil_r. split; [reflexivity|]. split; [exact Hn|]. split; [apply extends_refl|constructor].
  - cbn [rfold fst snd]. destruct (number_arcs_ok n l (fun b Hb => Hl l b (or_introl eq_refl) Hb) nm [] Hn) as (nm1 & r1 & E1 & Hn1 & X1 & F1).
    rewrite E1. cbn [rbind app].
    destruct (IH (fun l' b H1 H2 => Hl l' b (or_intror H1) H2) nm1 (acc ++ [r1]) Hn1) as (nm' & r & E & Hn' & X & F).
    exists nm', (r1 :: r). rewrite <- app_assoc in E. cbn [app] in E. split; [exact E|]. split; [exact Hn'|].
    split; [eapply extends_trans; eauto|]. constructor; [|exact F]. eapply Forall2_mono; [|exact F1].
    intros a b. apply arc_of_extends. exact X.
Qed.
Lemma set_finals_ok n f : forall st, length st = n -> (forall s w, In (s, w) f -> s < n) -> NoDup (map fst f) ->
  exists st', rfold (fun (l : list (option Z * list larc)) (p : nat * Z) => if fst p <? n then Ok (upd (fst p) (Some (snd p), snd (nth (fst p) l (None, []))) l) else Ub) st f = Ok st' /\
    length st' = n /\ forall s, nth s st' (None, []) = (match mget Nat.compare s f with Some w => Some w | None => fst (nth s st (None, [])) end, snd (nth s st (None, []))).
Proof.
  induction f as [|[k w] f IH]; intros st L B D.
  - exists st. split; [reflexivity|]. split; [exact L|]. intros s. cbn [mget]. apply surjective_pairing.
  - cbn [rfold fst snd]. assert (Lk : k < n) by (apply (B k w); left; reflexivity). rewrite (proj2 (Nat.ltb_lt _ _) Lk). cbn [rbind].
    cbn [map fst] in D. inversion D as [|? ? N D']; subst.
    destruct (IH (upd k (Some w, snd (nth k st (None, []))) st)) as (st' & E & L' & H).
    + apply upd_length.
    + intros s v Hs. apply (B s v). right. exact Hs.
    + exact D'.
    + exists st'. split; [exact E|]. split; [exact L'|]. intros s. rewrite H. cbn [mget].
      destruct (Nat.compare_spec s k) as [->|C|C].
      * rewrite nth_upd_same by exact Lk. cbn [fst snd].
        destruct (mget Nat.compare k f) as [v|] eqn:M; [|reflexivity]. exfalso. apply N.
        apply (mget_In _ Nat.compare_eq_iff) in M. apply (in_map fst) in M. exact M.
      * rewrite nth_upd_other by lia. reflexivity.
      * rewrite nth_upd_other by lia. reflexivity.
Qed.
Lemma sorted_NoDup (l : list nat) : StronglySorted lt l -> NoDup l.
Proof.
  intros H. induction H as [|x l H IH F]; constructor; [|exact IH]. intros K.
  rewrite Forall_forall in F. specialize (F x K). lia.
Qed.
Lemma Forall2_nth {A B} (P : A -> B -> Prop) l l' d d' : Forall2 P l l' -> P d d' -> forall s, P (nth s l d) (nth s l' d').
Proof. intros F Hd. induction F; intros [|s]; cbn [nth]; auto. Qed.

Lemma to_tropical_ok nm g : num_ok nm -> names nm 0 EPS -> names nm 1 UNK -> names nm 2 IDN ->
  well_formed g -> map_ok g -> symbols_nonempty g ->
  exists nm1 t, basic_to_tropical nm g = Ok (nm1, t) /\ num_ok nm1 /\ extends nm nm1 /\
    o_has_table t = true /\ o_out t = None /\ t_start (o_fst t) = Some 0 /\ table_ok (t_syms (o_fst t)) /\ labelled (o_fst t) /\
    length (t_states (o_fst t)) = length (sts g) /\
    (forall x, In x (map snd (t_syms (o_fst t))) <-> In x (alpha g)) /\
    (forall k x, In (k, x) (t_syms (o_fst t)) -> names nm1 k x) /\
    (forall s, map (carc (o_fst t) 0) (t_arcs (o_fst t) s) = arcs g s) /\
    (forall s, t_final (o_fst t) s = finw g s).
Proof.
  intros Hn H0 H1 H2 (St & Sy & Sp) Mo Ne. unfold basic_to_tropical.
  destruct (symbol_table_ok (alpha g) nm Hn Ne H0 H1 H2) as (nm1 & tab & -> & Hn1 & E1 & T1 & A1). cbn [rbind].
  assert (A2 : forall x, In x (map snd tab) <-> In x (alpha g)).
  { intros x. rewrite A1. split; [|tauto]. intros [[->|[-> | -> ]]|H]; [apply Sp|apply Sp|apply Sp|exact H]. }
  destruct St as (Nn & Ht & Hf).
  assert (Hl : forall l b, In l (sts g) -> In b l -> isy b <> [] /\ osy b <> [] /\ tgt b < length (sts g)).
  { intros l b Hl Hb. apply In_nth with (d := []) in Hl. destruct Hl as (s & _ & <-).
    destruct (Sy s b Hb) as (Y1 & Y2). split; [intros E; apply Ne; rewrite E in Y1; exact Y1|].
    split; [intros E; apply Ne; rewrite E in Y2; exact Y2|]. eapply Ht; eauto. }
  destruct (number_states_ok (length (sts g)) (sts g) Hl nm1 Hn1) as (nm2 & ls & -> & Hn2 & E2 & F). cbn [rbind].
  assert (Ll : length ls = length (sts g)) by (clear -F; induction F; simpl; congruence).
  apply sorted_NoDup in Mo.
  destruct (set_finals_ok (length (sts g)) (fin g) (map (fun l => (None, l)) ls)) as (states & -> & Ls & Hs).
  - rewrite map_length. exact Ll.
  - intros s w Hw. apply (Hf s w). destruct (mget Nat.compare s (fin g)) as [v|] eqn:M.
    + apply (mget_In _ Nat.compare_eq_iff) in M. f_equal.
      clear -Mo M Hw. induction (fin g) as [|[k z] r IH]; [destruct Hw|]. cbn [map fst] in Mo. inversion Mo as [|? ? N D]; subst.
      destruct Hw as [Hw|Hw], M as [M|M]; [congruence| | |auto].
      * injection Hw as -> ->. exfalso. apply N. apply (in_map fst) in M. exact M.
      * injection M as -> ->. exfalso. apply N. apply (in_map fst) in Hw. exact Hw.
    + exfalso. apply (in_map fst) in Hw. cbn [fst] in Hw. revert M Hw. clear.
      induction (fin g) as [|[k z] r IH]; cbn [mget map fst]; [intros _ []|].
      destruct (Nat.compare_spec s k) as [->|C|C]; [discriminate| |]; intros M [E|H]; try lia; auto.
  - exact Mo.
  - cbn [rbind]. eexists nm2, _. split; [reflexivity|]. cbn [o_fst o_has_table o_out t_syms t_states t_start].
    split; [exact Hn2|]. split; [eapply extends_trans; eauto|]. split; [reflexivity|]. split; [reflexivity|]. split; [reflexivity|].
    pose proof (tab_inv_extends _ _ _ E2 T1) as T2.
    assert (Nt : ~ In [] (map snd tab)) by (intros H; apply Ne; apply A2; exact H).
    split; [split; [eapply tab_inv_fst; exact T2|split; [apply T2|exact Nt]]|].
    set (t := TFst states (Some 0) tab).
    assert (Ha : forall s, Forall2 (arc_of nm2) (t_arcs t s) (arcs g s)).
    { intros s. unfold t_arcs, t. cbn [t_states]. rewrite Hs. cbn [snd].
      assert (M : snd (nth s (map (fun l : list larc => (@None Z, l)) ls) (None, [])) = nth s ls []).
      { change (@None Z, @nil larc) with ((fun l : list larc => (@None Z, l)) []). rewrite map_nth. reflexivity. }
      rewrite M. apply Forall2_nth; [exact F|constructor]. }
    assert (Hin : forall k x, In x (alpha g) -> names nm2 k x -> In (k, x) tab).
    { intros k x Hx K. apply A2 in Hx. apply in_map_iff in Hx. destruct Hx as ([k' y] & E & Hx). cbn [snd] in E. subst y.
      pose proof (ti_names _ _ T2 _ _ Hx) as K'. rewrite (names_inj nm2 k k' x Hn2 K K'). exact Hx. }
    assert (Hs2 : forall s a, In a (t_arcs t s) -> exists b, In b (arcs g s) /\ arc_of nm2 a b).
    { intros s a. pose proof (Ha s) as X. revert X. generalize (t_arcs t s) (arcs g s). intros l l' X.
      induction X as [|a' b l l' P X IH]; [intros []|]. intros [->|H]; [exists b; split; [left; reflexivity|exact P]|].
      destruct (IH H) as (c & Hc & Pc). exists c. split; [right; exact Hc|exact Pc]. }
    split; [|split; [exact Ls|split; [exact A2|split; [apply T2|split]]]].
    + intros s a H. destruct (Hs2 s a H) as (b & Hb & (P1 & P2 & P3 & P4)). destruct (Sy s b Hb) as (Y1 & Y2).
      split; [apply (in_map fst) with (x := (l_in a, isy b)); apply Hin; assumption|].
      split; [apply (in_map fst) with (x := (l_out a, osy b)); apply Hin; assumption|].
      cbn [t t_states]. rewrite Ls, P4. eapply Ht; eauto.
    + intros s. pose proof (Ha s) as X. assert (Y : forall b, In b (arcs g s) -> In (isy b) (alpha g) /\ In (osy b) (alpha g)) by (intros b; apply Sy).
      revert X Y. generalize (t_arcs t s) (arcs g s). intros l l' X Y.
      induction X as [|a b l l' (P1 & P2 & P3 & P4) X IH]; [reflexivity|]. cbn [map]. rewrite IH by (intros c Hc; apply Y; right; exact Hc).
      f_equal. destruct (Y b (or_introl eq_refl)) as (Y1 & Y2). unfold carc. cbn [t t_syms].
      rewrite (find_label_eq tab _ _ (tab_inv_fst _ _ T2) (Hin _ _ Y1 P1)), (find_label_eq tab _ _ (tab_inv_fst _ _ T2) (Hin _ _ Y2 P2)).
      rewrite P3, P4. destruct b as [bt bi bo bw]. cbn [tgt isy osy wt]. f_equal. unfold swap. destruct bt; reflexivity.
    + intros s. unfold t_final, t. cbn [t_states]. rewrite Hs. cbn [fst]. fold (finw g s). destruct (finw g s); [reflexivity|].
      change (@None Z, @nil larc) with ((fun l : list larc => (@None Z, l)) []). rewrite map_nth. reflexivity.
Qed.
Lemma swap_0 s : swap 0 s = s.
Proof. unfold swap. destruct s; reflexivity. Qed.

(** * There and back *)
Lemma round_trip nm nm' g : num_ok nm -> names nm 0 EPS -> names nm 1 UNK -> names nm 2 IDN -> num_ok nm' ->
  well_formed g -> map_ok g -> symbols_nonempty g ->
  exists nm1 t nm2 g', basic_to_tropical nm g = Ok (nm1, t) /\ tropical_to_basic nm' t true = Ok (nm2, g') /\
    sts g' = sts g /\ (forall s, finw g' s = finw g s) /\ forall x, In x (alpha g') <-> In x (alpha g).
Proof.
  intros Hn H0 H1 H2 Hn' W Mo Ne.
  destruct (to_tropical_ok nm g Hn H0 H1 H2 W Mo Ne) as (nm1 & t & E & Hn1 & X1 & B1 & B2 & B3 & B4 & B5 & B6 & B7 & B8 & B9 & B10).
  destruct W as ((Nn & Ht & Hf) & _ & Sp).
  destruct (to_basic_ok nm' t 0 true Hn' B3) as (nm2 & g' & E' & Hn2 & L & Ha & Ho & Al); try assumption.
  - rewrite B6. destruct (sts g); [congruence|cbn [length]; lia].
  - intros tab H. congruence.
  - exists nm1, t, nm2, g'. split; [exact E|]. split; [exact E'|]. split; [|split].
    + apply nth_ext with (d := []) (d' := []); [congruence|]. intros s Ls. rewrite L in Ls.
      destruct (Ha s Ls) as (A & _). rewrite swap_0 in A. fold (arcs g' s) (arcs g s). rewrite A. apply B9.
    + intros s. destruct (Nat.lt_ge_cases s (length (t_states (o_fst t)))) as [Ls|Ls].
      * destruct (Ha s Ls) as (_ & A). rewrite swap_0 in A. rewrite A. apply B10.
      * rewrite Ho by exact Ls. destruct (finw g s) as [w|] eqn:F; [|reflexivity]. exfalso. apply Hf in F. lia.
    + intros x. rewrite Al. split.
      * intros [H|[(k & H & _)|(tab & H & _)]]; [|apply B7; apply (in_map snd) in H; exact H|congruence].
        unfold empty_graph, initialize_alphabet in H. cbn [alpha] in H. rewrite !(In_sadd bcmp bcmp_eq) in H. cbn [In] in H.
        destruct H as [->|[->|[->|[]]]]; apply Sp.
      * intros H. apply B7 in H. apply in_map_iff in H. destruct H as ([k y] & Ey & H). cbn [snd] in Ey. subst y.
        destruct (Nat.eq_dec k 0) as [->|N]; [|right; left; exists k; auto]. left.
        assert (x = EPS) as ->.
        { apply B8 in H. pose proof (names_extends _ _ _ _ X1 H0) as K. unfold names in *. congruence. }
        unfold empty_graph, initialize_alphabet. cbn [alpha]. rewrite !(In_sadd bcmp bcmp_eq). tauto.
Qed.
