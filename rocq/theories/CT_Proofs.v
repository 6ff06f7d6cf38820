(** Proofs about the conversion of tropical transducers to basic transducers. *)
From Coq Require Import Lia.
From Verif Require Import Base BT_Model BT_Spec BT_Proofs Str_Model Str_Proofs Str_Proofs2 Xp_Model Xp_Spec CT_Model CT_Spec.

Lemma rfold_app {A X} (f : A -> X -> res A) l1 : forall a l2,
  rfold f a (l1 ++ l2) = rbind (rfold f a l1) (fun b => rfold f b l2).
Proof.
  induction l1 as [|x l1 IH]; intros a l2; simpl; [reflexivity|].
  destruct (f a x); simpl; auto.
Qed.

Lemma skipn_S {A} (l : list A) : forall j, skipn (S j) l = skipn 1 (skipn j l).
Proof.
  induction l as [|x r IH]; intros [|j]; try reflexivity. exact (IH j).
Qed.

(** * Symbol tables *)
Lemma find_symbol_In tab x k : find_symbol tab x = Some k -> In (k, x) tab.
Proof.
  induction tab as [|[k' y] r IH]; cbn [find_symbol]; [discriminate|].
  destruct (bstr_eqb x y) eqn:E; intros H.
  - apply bstr_eqb_eq in E. injection H as <-. subst. left; reflexivity.
  - right; auto.
Qed.
Lemma find_symbol_None tab x : find_symbol tab x = None -> ~ In x (map snd tab).
Proof.
  induction tab as [|[k' y] r IH]; cbn [find_symbol map snd]; [intros _ []|].
  destruct (bstr_eqb x y) eqn:E; [discriminate|]. apply bstr_eqb_neq in E. intros H [K|K]; [congruence|].
  exact (IH H K).
Qed.
Lemma NoDup_snd_fun (tab : list (nat * bstr)) k k' x : NoDup (map snd tab) -> In (k, x) tab -> In (k', x) tab -> k = k'.
Proof.
  induction tab as [|[j y] r IH]; cbn [map snd]; [intros _ []|]. intros D [E|H] [E'|H'].
  - congruence.
  - injection E as -> ->. inversion D as [|? ? N _]; subst. exfalso. apply N. apply (in_map snd) in H'. exact H'.
  - injection E' as -> ->. inversion D as [|? ? N _]; subst. exfalso. apply N. apply (in_map snd) in H. exact H.
  - inversion D; subst. auto.
Qed.
Lemma NoDup_fst_fun (tab : list (nat * bstr)) k x y : NoDup (map fst tab) -> In (k, x) tab -> In (k, y) tab -> x = y.
Proof.
  induction tab as [|[j z] r IH]; cbn [map fst]; [intros _ []|]. intros D [E|H] [E'|H'].
  - congruence.
  - injection E as -> ->. inversion D as [|? ? N _]; subst. exfalso. apply N. apply (in_map fst) in H'. exact H'.
  - injection E' as -> ->. inversion D as [|? ? N _]; subst. exfalso. apply N. apply (in_map fst) in H. exact H.
  - inversion D; subst. auto.
Qed.
Lemma find_symbol_eq tab k x : NoDup (map snd tab) -> In (k, x) tab -> find_symbol tab x = Some k.
Proof.
  intros D H. destruct (find_symbol tab x) as [k'|] eqn:E.
  - apply find_symbol_In in E. f_equal. eapply NoDup_snd_fun; eauto.
  - apply find_symbol_None in E. exfalso. apply E. apply (in_map snd) in H. exact H.
Qed.
Lemma find_label_eq tab k x : NoDup (map fst tab) -> In (k, x) tab -> find_label tab k = x.
Proof.
  induction tab as [|[j z] r IH]; cbn [map fst find_label]; [intros _ []|]. intros D [E|H].
  - injection E as -> ->. rewrite Nat.eqb_refl. reflexivity.
  - inversion D as [|? ? N D']; subst. destruct (k =? j) eqn:E; [|auto]. apply Nat.eqb_eq in E. subst.
    exfalso. apply N. apply (in_map fst) in H. exact H.
Qed.
Lemma In_alphabet tab x : In x (get_alphabet tab) <-> In x (map snd tab).
Proof.
  unfold get_alphabet. enough (G : forall acc, In x (fold_left (fun s p => sadd bcmp (snd p) s) tab acc) <-> In x (map snd tab) \/ In x acc)
    by (rewrite G; simpl; tauto).
  induction tab as [|p r IH]; intros acc; simpl; [tauto|]. rewrite IH, (In_sadd bcmp bcmp_eq). intuition.
Qed.
Lemma biggest_ge tab k x : In (k, x) tab -> k <= get_biggest_symbol_number tab.
Proof.
  unfold get_biggest_symbol_number.
  assert (M : forall (l : list (nat * bstr)) b, b <= fold_left (fun b p => if b <? fst p then fst p else b) l b).
  { induction l as [|p r IH]; intros b; cbn [fold_left]; [lia|].
    eapply Nat.le_trans; [|apply IH]. destruct (b <? fst p) eqn:E; [apply Nat.ltb_lt in E; lia|lia]. }
  enough (G : forall (l : list (nat * bstr)) b, In (k, x) l -> k <= fold_left (fun b p => if b <? fst p then fst p else b) l b)
    by (intros H; apply G; exact H).
  induction l as [|p r IH]; intros b; [intros []|]. cbn [fold_left]. intros [->|H]; [|apply IH; exact H].
  cbn [fst]. eapply Nat.le_trans; [|apply M]. destruct (b <? k) eqn:E; [lia|]. apply Nat.ltb_ge in E. lia.
Qed.
Lemma symbol_vector_ok tab : NoDup (map fst tab) -> NoDup (map snd tab) -> exists v, get_symbol_vector tab = Ok v /\
  forall k x, In (k, x) tab -> nth_error v k = Some x.
Proof.
  intros D1 D2. unfold get_symbol_vector.
  set (F := fun v x => rbind (get_symbol_number tab x) (fun k => if k <? length v then Ok (upd k x v) else Throw)).
  assert (G : forall l v, incl l (map snd tab) -> length v = get_biggest_symbol_number tab + 1 ->
    exists v', rfold F v l = Ok v' /\
      (forall k x, In (k, x) tab -> In x l \/ nth_error v k = Some x -> nth_error v' k = Some x)).
  { induction l as [|y l IH]; intros v I L.
    - exists v. split; [reflexivity|]. intros k x _ [[]|H]; exact H.
    - assert (Y : In y (map snd tab)) by (apply I; left; reflexivity).
      apply in_map_iff in Y. destruct Y as ([j y'] & E & Y). cbn [snd] in E. subst y'.
      assert (Lj : j < length v) by (apply biggest_ge in Y; lia).
      cbn [rfold]. unfold F at 1. unfold get_symbol_number. rewrite (find_symbol_eq tab j y D2 Y). cbn [rbind].
      rewrite (proj2 (Nat.ltb_lt _ _) Lj). cbn [rbind].
      destruct (IH (upd j y v)) as (v' & E' & H').
      + intros z Hz. apply I. right. exact Hz.
      + rewrite upd_length. exact L.
      + exists v'. split; [exact E'|]. intros k x Hx C. apply H'; [exact Hx|].
        destruct (bstr_eq_dec x y) as [->|N].
        * right. rewrite (NoDup_snd_fun tab k j y D2 Hx Y). apply nth_error_upd_same. exact Lj.
        * destruct C as [[C|C]|C]; [congruence|left; exact C|right].
          rewrite nth_error_upd_other; [exact C|]. intros ->. apply N. eapply NoDup_fst_fun; eauto. }
  destruct (G (get_alphabet tab) (repeat [] (get_biggest_symbol_number tab + 1))) as (v & E & H).
  - intros x Hx. apply In_alphabet. exact Hx.
  - apply repeat_length.
  - exists v. split; [exact E|]. intros k x Hx. apply H; [exact Hx|]. left. apply In_alphabet.
    apply (in_map snd) in Hx. exact Hx.
Qed.
Lemma get_number_total t s : s <> [] -> exists t' n, get_number t s = Ok (t', n).
Proof.
  intros N. unfold get_number. destruct s as [|c s]; [congruence|].
  destruct (mget bcmp (c :: s) (s2n t)); eexists _, _; reflexivity.
Qed.
Lemma harmv_total v : forall t, exists t' ns, get_harmonization_vector t v = Ok (t', ns).
Proof.
  induction v as [|s v IH]; intros t; [eexists _, _; reflexivity|]. cbn [get_harmonization_vector].
  destruct s as [|c s].
  - cbn [rbind]. destruct (IH t) as (t' & ns & ->). eexists _, _; reflexivity.
  - destruct (get_number_total t (c :: s)) as (t1 & n & ->); [discriminate|]. cbn [rbind].
    destruct (IH t1) as (t' & ns & ->). eexists _, _; reflexivity.
Qed.
(** The two vectors together translate labels to numbers of their symbols. *)
Lemma vectors_ok nm tab : num_ok nm -> table_ok tab -> exists v nm1 harmv,
  get_symbol_vector tab = Ok v /\ get_harmonization_vector nm v = Ok (nm1, harmv) /\ num_ok nm1 /\
  forall k x, In (k, x) tab -> exists i, nth_error harmv k = Some i /\ get_symbol nm1 i = Ok x.
Proof.
  intros Hn (D1 & D2 & Ne). destruct (symbol_vector_ok tab D1 D2) as (v & Ev & Hv).
  destruct (harmv_total v nm) as (nm1 & harmv & Eh). exists v, nm1, harmv. split; [exact Ev|]. split; [exact Eh|].
  destruct (harmv_ok v nm nm1 harmv Hn Eh) as (H1 & H2 & _). split; [exact H1|].
  intros k x Hx. pose proof (Hv k x Hx) as E.
  assert (Nx : x <> []) by (intros ->; apply Ne; apply (in_map snd) in Hx; exact Hx).
  clear Ev Hv Eh Hx. revert k E. induction H2 as [|s i v harmv C H2 IH]; intros [|k] E; cbn [nth_error] in *; try discriminate.
  - injection E as ->. exists i. split; [reflexivity|]. destruct C as [[C _]|[_ C]]; [congruence|].
    unfold get_symbol. rewrite C. reflexivity.
  - apply IH. exact E.
Qed.
Lemma add_table_ok tab : ~ In [] (map snd tab) -> forall g, exists g', add_table g tab = Ok g' /\ sts g' = sts g /\ fin g' = fin g /\
  forall x, In x (alpha g') <-> In x (alpha g) \/ tabled tab x.
Proof.
  unfold add_table. induction tab as [|[k y] r IH]; intros Ne g.
  - exists g. split; [reflexivity|]. split; [reflexivity|]. split; [reflexivity|]. intros x. unfold tabled. split; [tauto|].
    intros [H|(k & [] & _)]; exact H.
  - cbn [map snd] in Ne. cbn [rfold snd fst]. destruct y as [|c y]; [exfalso; apply Ne; left; reflexivity|].
    cbn [rbind]. destruct (IH (fun H => Ne (or_intror H)) (if k =? 0 then g else add_symbol g (c :: y))) as (g' & E & S1 & S2 & A).
    exists g'. split; [exact E|].
    split; [rewrite S1; destruct (k =? 0); reflexivity|]. split; [rewrite S2; destruct (k =? 0); reflexivity|].
    intros x. rewrite A. unfold tabled. destruct (k =? 0) eqn:K.
    + apply Nat.eqb_eq in K. subst k. split.
      * intros [H|(j & H & N)]; [left; exact H|right; exists j; split; [right; exact H|exact N]].
      * intros [H|(j & [H|H] & N)]; [left; exact H|congruence|right; exists j; auto].
    + apply Nat.eqb_neq in K. cbn [add_symbol with_alpha alpha]. rewrite (In_sadd bcmp bcmp_eq). split.
      * intros [[->|H]|(j & H & N)]; [right; exists k; split; [left; reflexivity|exact K]|left; exact H|].
        right; exists j; split; [right; exact H|exact N].
      * intros [H|(j & [H|H] & N)]; [tauto|injection H as _ <-; left; left; reflexivity|right; exists j; auto].
Qed.

(** * States *)
Definition swap (i s : nat) : nat := if s =? i then 0 else if s =? 0 then i else s.
Lemma swap_swap i s : swap i (swap i s) = s.
Proof.
  unfold swap. destruct (Nat.eqb_spec s i) as [->|N]; [|destruct (Nat.eqb_spec s 0) as [->|N0]].
  - destruct (Nat.eqb_spec 0 i) as [<-|N]; [reflexivity|]. simpl. reflexivity.
  - rewrite Nat.eqb_refl. reflexivity.
  - rewrite (proj2 (Nat.eqb_neq s i)) by exact N. rewrite (proj2 (Nat.eqb_neq s 0)) by exact N0. reflexivity.
Qed.
Lemma swap_inj i s u : swap i s = swap i u -> s = u.
Proof. intros E. rewrite <- (swap_swap i s), E. apply swap_swap. Qed.
Lemma swap_lt i s n : i < n -> s < n -> swap i s < n.
Proof. unfold swap. destruct (s =? i); [lia|]. destruct (s =? 0); lia. Qed.
Lemma swap_start i : swap i i = 0.
Proof. unfold swap. rewrite Nat.eqb_refl. reflexivity. Qed.

Section Convert.
  Variables (t : tfst) (i : nat) (nm : numbering) (harmv : list nat).
  Hypothesis Start : t_start t = Some i.
  Hypothesis Hi : i < length (t_states t).
  Hypothesis Hlab : labelled t.
  Hypothesis Hfst : NoDup (map fst (t_syms t)).
  Hypothesis Hh : forall k x, In (k, x) (t_syms t) -> exists j, nth_error harmv k = Some j /\ get_symbol nm j = Ok x.
  Let n := length (t_states t).
  Definition carc (a : larc) : arc := Arc (swap i (l_to a)) (find_label (t_syms t) (l_in a)) (find_label (t_syms t) (l_out a)) (l_w a).

  Lemma label_ok k : In k (map fst (t_syms t)) -> exists j, nth_error harmv k = Some j /\ get_symbol nm j = Ok (find_label (t_syms t) k).
  Proof.
    intros H. apply in_map_iff in H. destruct H as ([k' x] & E & H). cbn [fst] in E. subst k'.
    rewrite (find_label_eq _ _ _ Hfst H). apply Hh. exact H.
  Qed.
  Lemma convert_arc_eq u g a : In (l_in a) (map fst (t_syms t)) -> In (l_out a) (map fst (t_syms t)) ->
    convert_arc nm harmv (Some i) u g a = Ok (add_transition g u (carc a) false).
  Proof.
    intros H1 H2. unfold convert_arc, recode. cbn [rbind].
    destruct (label_ok _ H1) as (j1 & -> & E1). destruct (label_ok _ H2) as (j2 & -> & E2).
    rewrite E1, E2. reflexivity.
  Qed.
  Lemma convert_arcs l u : u < n -> (forall a, In a l -> In (l_in a) (map fst (t_syms t)) /\ In (l_out a) (map fst (t_syms t)) /\ l_to a < n) ->
    forall g, exists g', rfold (convert_arc nm harmv (Some i) u) g l = Ok g' /\
      (forall s, arcs g' s = if s =? u then arcs g u ++ map carc l else arcs g s) /\ fin g' = fin g /\ alpha g' = alpha g /\
      length (sts g) <= length (sts g') <= Nat.max (length (sts g)) n.
  Proof.
    intros Hu. induction l as [|a l IH]; intros Hl g.
    - exists g. split; [reflexivity|]. split; [|repeat split; lia].
      intros s. destruct (Nat.eqb_spec s u) as [->|]; [|reflexivity]. rewrite app_nil_r. reflexivity.
    - destruct (Hl a (or_introl eq_refl)) as (L1 & L2 & L3). cbn [rfold]. rewrite convert_arc_eq by assumption. cbn [rbind].
      assert (T : swap i (l_to a) < n) by (apply swap_lt; assumption).
      pose proof (length_add_transition g u (carc a) false) as Ln. cbn [carc tgt] in Ln.
      destruct (IH (fun b Hb => Hl b (or_intror Hb)) (add_transition g u (carc a) false)) as (g' & E & A & F & Al & L).
      exists g'. split; [exact E|]. split; [|split; [rewrite F; apply fin_add_transition|split; [rewrite Al; reflexivity|lia]]].
      intros s. rewrite A, !arcs_add_transition, Nat.eqb_refl. destruct (s =? u); [|reflexivity].
      rewrite <- app_assoc. reflexivity.
  Qed.
  (** The states below [j] have been converted. *)
  Record inv (al : list bstr) (j : nat) (g : graph) : Prop := {
    i_len : j <= length (sts g) <= n;
    i_pos : 0 < length (sts g);
    i_arcs : forall s, s < n -> arcs g (swap i s) = if s <? j then map carc (t_arcs t s) else [];
    i_fin : forall s, s < n -> finw g (swap i s) = if s <? j then t_final t s else None;
    i_out : forall s, n <= s -> finw g s = None;
    i_alpha : alpha g = al }.
  Lemma convert_step al j g p : inv al j g -> j < n -> nth_error (t_states t) j = Some p ->
    exists g', convert_state nm harmv (Some i) g (j, p) = Ok g' /\ inv al (S j) g'.
  Proof.
    intros I Hj Ej. destruct p as [f l]. unfold convert_state, recode. cbn [rbind]. fold (swap i j).
    assert (Ta : t_arcs t j = l) by (unfold t_arcs; rewrite (nth_error_nth _ _ (None, []) Ej); reflexivity).
    assert (Tf : t_final t j = f) by (unfold t_final; rewrite (nth_error_nth _ _ (None, []) Ej); reflexivity).
    assert (Hs : swap i j < n) by (apply swap_lt; assumption).
    destruct (convert_arcs l (swap i j)) with (g := add_state_n g j) as (g1 & E & A & F & Al & L).
    - exact Hs.
    - intros a Ha. apply (Hlab j). fold (t_arcs t j). rewrite Ta. exact Ha.
    - rewrite E. cbn [rbind]. eexists. split; [reflexivity|]. destruct I as [I1 I2 I3 I4 I5 I6].
      rewrite length_add_state_n in L. cbn [add_state_n with_sts fin alpha] in F, Al.
      assert (A' : forall s, s < n -> arcs g1 (swap i s) = if s <? S j then map carc (t_arcs t s) else []).
      { intros s Ls. rewrite A, !arcs_add_state_n. destruct (Nat.eqb_spec (swap i s) (swap i j)) as [Es|Ns].
        - apply swap_inj in Es. subst s. rewrite I3 by exact Hj. rewrite Nat.ltb_irrefl, Ta.
          rewrite (proj2 (Nat.ltb_lt j (S j))) by lia. reflexivity.
        - assert (s <> j) by congruence. rewrite I3 by exact Ls.
          destruct (Nat.ltb_spec s j), (Nat.ltb_spec s (S j)); try reflexivity; lia. }
      assert (Fo : forall s, s < n -> s <> j -> finw g (swap i s) = if s <? S j then t_final t s else None).
      { intros s Ls Ns. rewrite I4 by exact Ls. destruct (Nat.ltb_spec s j), (Nat.ltb_spec s (S j)); try reflexivity; lia. }
      destruct f as [w|].
      + pose proof (length_add_state_n g1 (swap i j)) as L2.
        assert (L3 : length (sts (set_final_weight g1 (swap i j) w)) = length (sts (add_state_n g1 (swap i j)))) by reflexivity.
        split.
        * lia.
        * lia.
        * intros s Ls. transitivity (arcs (add_state_n g1 (swap i j)) (swap i s)); [reflexivity|]. rewrite arcs_add_state_n. auto.
        * intros s Ls. unfold finw, set_final_weight. cbn [with_fin fin add_state_n with_sts]. rewrite F.
          destruct (Nat.eq_dec s j) as [->|Ns].
          -- rewrite (mget_mset_same _ Nat.compare_eq_iff). rewrite (proj2 (Nat.ltb_lt j (S j))) by lia. symmetry. exact Tf.
          -- rewrite (mget_mset_other _ Nat.compare_eq_iff) by (intros Q; apply swap_inj in Q; congruence). apply Fo; assumption.
        * intros s Ls. unfold finw, set_final_weight. cbn [with_fin fin add_state_n with_sts]. rewrite F.
          rewrite (mget_mset_other _ Nat.compare_eq_iff) by lia. apply I5. exact Ls.
        * cbn [set_final_weight with_fin alpha add_state_n with_sts]. congruence.
      + split.
        * lia.
        * lia.
        * exact A'.
        * intros s Ls. unfold finw. rewrite F. destruct (Nat.eq_dec s j) as [->|Ns].
          -- pose proof (I4 j Hj) as Z. rewrite Nat.ltb_irrefl in Z. unfold finw in Z. rewrite Z.
             rewrite (proj2 (Nat.ltb_lt j (S j))) by lia. symmetry. exact Tf.
          -- apply Fo; assumption.
        * intros s Ls. unfold finw. rewrite F. apply I5. exact Ls.
        * congruence.
  Qed.
  Lemma convert_loop al l : forall j g, inv al j g -> skipn j (t_states t) = l -> j <= n ->
    exists g', rfold (convert_state nm harmv (Some i)) g (combine (seq j (length l)) l) = Ok g' /\ inv al n g'.
  Proof.
    induction l as [|p l IH]; intros j g I E Hj.
    - exists g. split; [reflexivity|]. assert (j = n); [|congruence].
      apply (f_equal (@length _)) in E. rewrite skipn_length in E. cbn [length] in E. unfold n in *. lia.
    - assert (Ej : nth_error (t_states t) j = Some p).
      { rewrite <- (firstn_skipn j (t_states t)), E. rewrite nth_error_app2; rewrite firstn_length_le by exact Hj; [|lia].
        rewrite Nat.sub_diag. reflexivity. }
      assert (Lj : j < n) by (apply nth_error_Some; congruence).
      cbn [length seq combine rfold]. destruct (convert_step al j g p I Lj Ej) as (g1 & -> & I1). cbn [rbind].
      apply IH; [exact I1| |lia].
      transitivity (skipn 1 (skipn j (t_states t))); [|rewrite E; reflexivity].
      apply skipn_S.
  Qed.
End Convert.

(** * The whole conversion *)
Lemma to_basic_ok nm t i hdr : num_ok nm -> t_start (o_fst t) = Some i -> i < length (t_states (o_fst t)) ->
  o_has_table t = true -> table_ok (t_syms (o_fst t)) -> labelled (o_fst t) ->
  (forall tab, o_out t = Some tab -> ~ In [] (map snd tab)) ->
  exists nm1 g, tropical_to_basic nm t hdr = Ok (nm1, g) /\ num_ok nm1 /\
    length (sts g) = length (t_states (o_fst t)) /\
    (forall s, s < length (t_states (o_fst t)) ->
       arcs g (swap i s) = map (carc (o_fst t) i) (t_arcs (o_fst t) s) /\ finw g (swap i s) = t_final (o_fst t) s) /\
    (forall s, length (t_states (o_fst t)) <= s -> finw g s = None) /\
    (forall x, In x (alpha g) <-> In x (alpha empty_graph) \/ tabled (t_syms (o_fst t)) x \/ exists tab, o_out t = Some tab /\ tabled tab x).
Proof.
  intros Hn Es Hi Ht Htab Hlab Hout. unfold tropical_to_basic, handle_symbol_tables. rewrite Ht, Es.
  rewrite andb_false_r. cbn [rbind].
  destruct (vectors_ok nm _ Hn Htab) as (v & nm1 & harmv & -> & Eh & Hn1 & Hh). cbn [rbind]. rewrite Eh. cbn [rbind].
  assert (I0 : inv (o_fst t) i (alpha empty_graph) 0 empty_graph).
  { split; cbn [empty_graph sts length].
    - lia.
    - lia.
    - intros s _. unfold arcs. cbn [empty_graph sts]. destruct (swap i s) as [|[|u]]; reflexivity.
    - intros s _. reflexivity.
    - intros s _. reflexivity.
    - reflexivity. }
  destruct (convert_loop (o_fst t) i nm1 harmv Hi Hlab (proj1 Htab) Hh (alpha empty_graph) _ 0 empty_graph I0 eq_refl) as (g1 & E & I); [lia|].
  cbn [skipn] in E. rewrite E. cbn [rbind]. clear E. unfold copy_alphabet. rewrite Ht.
  destruct (add_table_ok (t_syms (o_fst t)) (proj2 (proj2 Htab)) g1) as (g2 & -> & S1 & F1 & A1). cbn [rbind].
  assert (G : exists g3, match o_out t with Some tab => add_table g2 tab | None => Ok g2 end = Ok g3 /\ sts g3 = sts g2 /\ fin g3 = fin g2 /\
            forall x, In x (alpha g3) <-> In x (alpha g2) \/ exists tab, o_out t = Some tab /\ tabled tab x).
  { destruct (o_out t) as [tab|].
    - destruct (add_table_ok tab (Hout tab eq_refl) g2) as (g3 & E3 & S3 & F3 & A3). exists g3. repeat (split; [assumption|]).
      intros x. rewrite A3. split; [|intros [H|(tab' & Et & H)]; [left; exact H|injection Et as <-; right; exact H]].
      intros [H|H]; [left; exact H|right; exists tab; auto].
    - exists g2. repeat (split; [reflexivity|]). intros x. split; [tauto|]. intros [H|(tab & Et & _)]; [exact H|discriminate]. }
  destruct G as (g3 & -> & S2 & F2 & A2). cbn [rbind]. exists nm1, g3. split; [reflexivity|]. split; [exact Hn1|].
  destruct I as [I1 I2 I3 I4 I5 I6].
  split; [rewrite S2, S1; lia|]. split; [|split].
  - intros s Ls. unfold arcs, finw. rewrite S2, S1, F2, F1. split.
    + pose proof (I3 s Ls) as Z. rewrite (proj2 (Nat.ltb_lt _ _) Ls) in Z. exact Z.
    + pose proof (I4 s Ls) as Z. rewrite (proj2 (Nat.ltb_lt _ _) Ls) in Z. exact Z.
  - intros s Ls. unfold finw. rewrite F2, F1. apply I5. exact Ls.
  - intros x. rewrite A2, A1, I6. tauto.
Qed.
