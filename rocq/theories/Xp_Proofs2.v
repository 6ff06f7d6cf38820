(** Proofs about path extraction, continued: flag diacritics and the callers. *)
From Coq Require Import NArith Lia Sorting.Sorted.
From Verif Require Import Base OrdMap BT_Model BT_Proofs Flags_Model Flags_Spec Flags_Proofs LK_Model LK_Proofs Xp_Model Xp_Spec Xp_Proofs.

(** * The table of flag diacritics *)
Lemma length_mset_le {V} k (v : V) m : length (mset bcmp k v m) <= S (length m).
Proof. induction m as [|[k' v'] r IH]; cbn [mset length]; [lia|]. destruct (bcmp k k'); cbn [length]; lia. Qed.
Lemma define_total tb k s : is_diacritic s = true -> (Z.of_nat (length (feature_map tb)) <= 65535)%Z ->
  (Z.of_nat (length (value_map tb)) < 65535)%Z ->
  exists tb', define_diacritic tb k s = Some tb' /\ length (feature_map tb') <= S (length (feature_map tb)) /\
    length (value_map tb') <= S (length (value_map tb)).
Proof.
  intros D F V. apply is_diacritic_denotes in D as D2. destruct D2 as (x & Dx). pose proof (denotes_code _ _ Dx) as DC.
  unfold define_diacritic. rewrite D. cbn [negb].
  destruct (nth_error s 1) as [c|] eqn:E1; [|destruct x as [f v|f v|f v|f v|f|f v]; try destruct v; decompose [ex and] DC; congruence].
  destruct (char_to_operator c) as [o|] eqn:E2; [|exfalso; destruct x as [f v|f v|f v|f v|f|f v]; try destruct v; decompose [ex and] DC; congruence].
  destruct (split_feature_value s) as [feat oval].
  set (val := match oval with Some v => v | None => [] end).
  assert (EF : exists fm fi, match mget bcmp feat (feature_map tb) with
          | Some _ => Some (feature_map tb)
          | None =>
              match size_t_to_ushort (Z.of_nat (length (feature_map tb))) with
              | None => None
              | Some _ => Some (mset bcmp feat (length (feature_map tb)) (feature_map tb))
              end
          end = Some fm /\ mget bcmp feat fm = Some fi /\ length fm <= S (length (feature_map tb))).
  { destruct (mget bcmp feat (feature_map tb)) as [i|] eqn:E; [exists (feature_map tb), i; auto|].
    unfold size_t_to_ushort. destruct (Z.leb_spec (Z.of_nat (length (feature_map tb))) 65535); [|lia].
    eexists _, _. split; [reflexivity|]. split; [apply (mget_mset_same _ bcmp_eq)|apply length_mset_le]. }
  assert (EV : exists vm vi, match mget bcmp val (value_map tb) with
          | Some _ => Some (value_map tb)
          | None =>
              match size_t_to_ushort (Z.of_nat (length (value_map tb)) + 1) with
              | None => None
              | Some n => Some (mset bcmp val (to_short n) (value_map tb))
              end
          end = Some vm /\ mget bcmp val vm = Some vi /\ length vm <= S (length (value_map tb))).
  { destruct (mget bcmp val (value_map tb)) as [i|] eqn:E; [exists (value_map tb), i; auto|].
    unfold size_t_to_ushort. destruct (Z.leb_spec (Z.of_nat (length (value_map tb)) + 1) 65535); [|lia].
    eexists _, _. split; [reflexivity|]. split; [apply (mget_mset_same _ bcmp_eq)|apply length_mset_le]. }
  destruct EF as (fm & fi & -> & Ef & Lf). destruct EV as (vm & vi & -> & Ev & Lv). rewrite Ef, Ev.
  eexists. split; [reflexivity|]. split; assumption.
Qed.
Lemma define_all_total defs : forall tb, Forall (fun p => is_diacritic (snd p) = true) defs ->
  (Z.of_nat (length (feature_map tb) + length defs) <= 65535)%Z -> (Z.of_nat (length (value_map tb) + length defs) <= 65535)%Z ->
  exists tb', define_all tb defs = Some tb' /\ length (feature_map tb') <= length (feature_map tb) + length defs /\
    length (value_map tb') <= length (value_map tb) + length defs.
Proof.
  induction defs as [|[k s] r IH]; intros tb F L1 L2; cbn [define_all length] in *; [exists tb; repeat split; lia|].
  inversion F as [|? ? F1 F2]; subst. cbn [snd] in F1.
  destruct (define_total tb k s F1) as (tb1 & -> & A1 & A2); [lia|lia|].
  destruct (IH tb1 F2) as (tb2 & -> & B1 & B2); [lia|lia|]. exists tb2. split; [reflexivity|]. lia.
Qed.

Lemma find_label_in tab k x : NoDup (map fst tab) -> In (k, x) tab -> find_label tab k = x.
Proof.
  induction tab as [|[k' x'] r IH]; intros ND I; [destruct I|]. cbn in *. inversion ND as [|? ? N ND']; subst.
  destruct I as [I|I]; [injection I as -> ->; rewrite Nat.eqb_refl; reflexivity|].
  destruct (Nat.eqb_spec k k') as [->|Ne]; [exfalso; apply N; apply in_map_iff; exists (k', x); auto|]. apply IH; auto.
Qed.
Lemma find_label_out tab k : (forall x, ~ In (k, x) tab) -> find_label tab k = [].
Proof.
  induction tab as [|[k' x'] r IH]; intros N; [reflexivity|]. cbn. destruct (Nat.eqb_spec k k') as [->|Ne]; [exfalso; apply (N x'); left; reflexivity|].
  apply IH. intros x I. apply (N x). right. exact I.
Qed.
Lemma find_label_cases tab k : In (k, find_label tab k) tab \/ (forall x, ~ In (k, x) tab) /\ find_label tab k = [].
Proof.
  induction tab as [|[k' x'] r IH]; [right; split; [intros x []|reflexivity]|]. cbn [find_label]. destruct (Nat.eqb_spec k k') as [->|Ne]; [left; left; reflexivity|].
  destruct IH as [I|[N E]]; [left; right; exact I|right]. split; [|exact E]. intros x [I|I]; [congruence|exact (N x I)].
Qed.
Lemma sym_find t k : symbol_table_ok t -> forall x, sym t k x <-> x = find_label (t_syms t) k.
Proof.
  intros [ND _] x. split.
  - intros [y I|N]; [symmetry; apply find_label_in; assumption|symmetry; apply find_label_out; exact N].
  - intros ->. destruct (find_label_cases (t_syms t) k) as [I|[N E]]; [constructor; exact I|rewrite E; constructor 2; exact N].
Qed.
Lemma last_def_filter tab k : NoDup (map fst tab) ->
  last_def (filter (fun p => is_diacritic (snd p)) tab) k = (if is_diacritic (find_label tab k) then Some (find_label tab k) else None).
Proof.
  induction tab as [|[k' x'] r IH]; intros ND; [reflexivity|]. cbn [map fst] in ND. inversion ND as [|? ? N ND']; subst. specialize (IH ND').
  assert (Z0 : k = k' -> find_label r k = []).
  { intros ->. apply find_label_out. intros x I. apply N. apply in_map_iff. exists (k', x). auto. }
  cbn [filter find_label snd]. destruct (Nat.eqb_spec k k') as [->|Ne].
  - rewrite (Z0 eq_refl) in IH. change (is_diacritic []) with false in IH. cbn iota in IH.
    destruct (is_diacritic x') eqn:D; [cbn [last_def]; rewrite IH, Nat.eqb_refl; reflexivity|exact IH].
  - destruct (is_diacritic x'); [cbn [last_def]; rewrite IH|exact IH]. destruct (is_diacritic (find_label r k)); [reflexivity|].
    destruct (Nat.eqb_spec k k'); [contradiction|reflexivity].
Qed.

Section Flags.
  Variable t : tfst.
  Variable tb : fdtable.
  Hypothesis ST : symbol_table_ok t.
  Hypothesis NE : no_empty_values t.
  Hypothesis Tb : get_flag_diacritics t = Some tb.
  Hypothesis Hv : (Z.of_nat (length (value_map tb)) <= 32767)%Z.
  Hypothesis Hf : (Z.of_nat (length (feature_map tb)) <= 65535)%Z.
  Let lab := find_label (t_syms t).

  Lemma tb_ok : tbl_ok tb.
  Proof. exact (proj1 (define_all_ok _ _ _ fd_empty_ok Tb)). Qed.
  Lemma op_none k : (forall f, ~ denotes (lab k) f) -> mget Nat.compare k (operations tb) = None.
  Proof.
    intros N. destruct (define_all_ok _ _ _ fd_empty_ok Tb) as (_ & _ & Hk). specialize (Hk k).
    rewrite (last_def_filter _ k (proj1 ST)) in Hk. fold (lab k) in Hk. destruct (is_diacritic (lab k)) eqn:D; [|exact Hk].
    apply is_diacritic_denotes in D as (x & Dx). exfalso. exact (N x Dx).
  Qed.
  Lemma op_some k f : denotes (lab k) f -> nonempty_value f /\ exists op, mget Nat.compare k (operations tb) = Some op /\ op_means tb op f.
  Proof.
    intros Df. assert (D : is_diacritic (lab k) = true) by (apply is_diacritic_denotes; exists f; exact Df). split.
    - destruct (find_label_cases (t_syms t) k) as [I|[_ E]]; [exact (NE k _ f I Df)|].
      unfold lab in D. rewrite E in D. discriminate.
    - destruct (define_all_ok _ _ _ fd_empty_ok Tb) as (_ & _ & Hk). specialize (Hk k).
      rewrite (last_def_filter _ k (proj1 ST)) in Hk. fold (lab k) in Hk. rewrite D in Hk. destruct Hk as [_ Hk]. exact (Hk f Df).
  Qed.
  Lemma diacritic_dec k : (exists f, denotes (lab k) f) \/ (forall f, ~ denotes (lab k) f).
  Proof.
    destruct (is_diacritic (lab k)) eqn:D; [left; apply is_diacritic_denotes; exact D|right].
    intros f Df. assert (is_diacritic (lab k) = true) by (apply is_diacritic_denotes; exists f; exact Df). congruence.
  Qed.
  Definition J (fd : option fdstate) : Prop := exists st e, fd = Some st /\ fd_rel tb e st.
  Lemma follow_safe a fd : J fd -> exists o, follow (Some tb) a fd = Ok o /\ match o with Some fd' => J fd' | None => True end.
  Proof.
    intros (st & e & -> & R). unfold follow. destruct (diacritic_dec (l_in a)) as [(f & Df)|N].
    - destruct (op_some _ f Df) as (Hn & op & -> & M). destruct (apply_op_step tb tb_ok Hv e st op f R M Hn) as (st' & -> & R').
      destruct (snd (step f e)); eexists; (split; [reflexivity|]); [exists st', (fst (step f e)); auto|exact I].
    - rewrite (op_none _ N). eexists. split; [reflexivity|]. exists st, e. auto.
  Qed.
  Lemma fd_run_spec q : forall xs st e, Forall2 (fun a x => reads (lab (l_in a)) x) q xs -> fd_rel tb e st ->
    (exists fd', fd_run (Some tb) (Some st) q = Some fd') <-> forallb (fun b => b) (results xs e) = true.
  Proof.
    induction q as [|a q IH]; intros xs st e F R; inversion F as [|? x ? xs' Fx F']; subst; cbn [fd_run results forallb].
    { split; [reflexivity|]. intros _. eexists. reflexivity. }
    unfold follow. destruct x as [f|]; cbn [reads] in Fx.
    - destruct (op_some _ f Fx) as (Hn & op & -> & M). destruct (apply_op_step tb tb_ok Hv e st op f R M Hn) as (st' & -> & R').
      destruct (step f e) as [e' b]. cbn [fst snd] in *. destruct b; cbn [forallb andb]; [apply IH; assumption|].
      split; [intros (? & K); discriminate|discriminate].
    - rewrite (op_none _ Fx). apply IH; assumption.
  Qed.
  Lemma flags_allow_spec q : flags_allow t q <-> exists fd', fd_run (Some tb) (Some (fdstate_new tb)) q = Some fd'.
  Proof.
    assert (T : exists xs, Forall2 (fun a x => reads (lab (l_in a)) x) q xs).
    { clear - ST NE Tb Hv Hf. induction q as [|a q (xs & F)]; [exists []; constructor|].
      destruct (diacritic_dec (l_in a)) as [(f & Df)|N]; [exists (Some f :: xs)|exists (None :: xs)]; (constructor; [assumption|exact F]). }
    assert (R0 : fd_rel tb env0 (fdstate_new tb)) by (eauto using fd_rel_new, tb_ok). split.
    - intros (ys & xs & F1 & F2 & A). apply (fd_run_spec q xs _ env0); [|exact R0|exact A].
      clear - F1 F2 ST. revert xs F2. induction F1 as [|a y q ys Fa F1 IH]; intros xs F2; inversion F2 as [|? x ? xs' Fx F2']; subst; constructor.
      + apply (sym_find t _ ST) in Fa. subst y. exact Fx.
      + apply IH. exact F2'.
    - intros K. destruct T as (xs & F). apply (fd_run_spec q xs _ env0 F R0) in K. exists (map (fun a => lab (l_in a)) q), xs. split; [|split; [|exact K]].
      + clear - ST. induction q as [|a q IH]; constructor; [apply (sym_find t _ ST); reflexivity|exact IH].
      + clear - F. induction F; constructor; assumption.
  Qed.
  Lemma shown_str hide k : forall x, shown t hide k x <-> x = str t (Some tb) hide k.
  Proof.
    intros x. unfold str, string_of. fold (lab k). unfold shown. split.
    - intros (y & Sy & C). apply (sym_find t k ST) in Sy. fold (lab k) in Sy. subst y. destruct hide.
      + destruct C as [((f & Df) & _ & ->)|[[N|N] ->]]; [|rewrite (op_none _ N); reflexivity|discriminate].
        destruct (op_some _ f Df) as (_ & op & -> & _). reflexivity.
      + destruct C as [(_ & E & _)|[_ ->]]; [discriminate|reflexivity].
    - intros ->. exists (lab k). split; [apply (sym_find t k ST); reflexivity|]. destruct hide; [|right; split; [right; reflexivity|reflexivity]].
      destruct (diacritic_dec k) as [(f & Df)|N].
      + left. destruct (op_some _ f Df) as (_ & op & -> & _). split; [exists f; exact Df|auto].
      + right. rewrite (op_none _ N). split; [left; exact N|reflexivity].
  Qed.
End Flags.
Lemma shown_str_none t k : symbol_table_ok t -> forall x, shown t false k x <-> x = str t None false k.
Proof.
  intros ST x. unfold str, string_of, shown. split.
  - intros (y & Sy & C). apply (sym_find t k ST) in Sy. destruct C as [(_ & E & _)|[_ ->]]; [discriminate|exact Sy].
  - intros ->. exists (find_label (t_syms t) k). split; [apply (sym_find t k ST); reflexivity|]. right. auto.
Qed.
Lemma shown_path_strs t tab hide q l : (forall k x, shown t hide k x <-> x = str t tab hide k) ->
  shown_path t hide q l <-> l = strs t tab hide q.
Proof.
  intros H. unfold shown_path, strs. revert l. induction q as [|a q IH]; intros l; cbn [map].
  - split; [intros F; inversion F; reflexivity|intros ->; constructor].
  - split.
    + intros F. inversion F as [|? [x y] ? l' [F1 F2] F']; subst. cbn [fst snd] in *. apply H in F1, F2. subst x y. f_equal. apply IH. exact F'.
    + intros ->. constructor; [cbn [fst snd]; split; apply H; reflexivity|]. apply IH. reflexivity.
Qed.

(** * Acyclic transducers *)
Lemma trail_prefix t s q u x : tpath t s q u -> In x (trail s q) -> exists r, tpath t s r x.
Proof.
  induction 1 as [s|s a q u I P IH]; unfold trail; cbn [map In].
  - intros [->|[]]. exists []. constructor.
  - intros [->|K]; [exists []; constructor|]. destruct (IH K) as (r & Pr). exists (a :: r). econstructor; eassumption.
Qed.
Lemma acyclic_trail t s0 : acyclic t -> t_start t = Some s0 -> forall q u, tpath t s0 q u -> NoDup (trail s0 q).
Proof.
  intros A Hs. assert (G : forall s q u p, tpath t s0 p s -> tpath t s q u -> NoDup (trail s q)).
  { intros s q u p Pp P. revert p Pp. induction P as [s|s a q u I P IH]; intros p Pp; unfold trail; cbn [map]; [constructor; [easy|constructor]|].
    constructor.
    - intros K. destruct (trail_prefix _ _ _ _ _ P K) as (r & Pr). assert (Hc : a :: r = []); [|discriminate].
      apply (A s0 s p (a :: r) Hs Pp). econstructor; eassumption.
    - apply (IH (p ++ [a])). apply tpath_snoc with (u := s); assumption. }
  intros q u P. apply (G s0 q u []); [constructor|exact P].
Qed.

(** * The whole search *)
Definition bounded (t : tfst) (c : Z) : Prop := (0 <= c < 65535)%Z \/ (c < 0)%Z /\ acyclic t.
Definition cap_of (c : Z) : nat := if (c <? 0)%Z then 1 else Z.to_nat c + 1.
Definition enough_fuel (t : tfst) (c : Z) : nat := length (t_states t) * cap_of c + 2.
Lemma tpath_det_nil (t : tfst) s u : tpath t s [] u -> u = s.
Proof. intros P. inversion P. reflexivity. Qed.

(** [flags]: the flag table is used. *)
Definition usable (t : tfst) (tab : option fdtable) (flags hide : bool) : Prop :=
  symbol_table_ok t /\
  match tab with
  | None => flags = false /\ hide = false
  | Some tb => flags = true /\ no_empty_values t /\ get_flag_diacritics t = Some tb /\
      (Z.of_nat (length (value_map tb)) <= 32767)%Z /\ (Z.of_nat (length (feature_map tb)) <= 65535)%Z
  end.
Lemma search_spec t c tab flags hide s0 fuel : usable t tab flags hide -> bounded t c -> t_start t = Some s0 -> enough_fuel t c <= fuel ->
  exists L, calls t c tab hide fuel s0 [] 0 (option_map fdstate_new tab) [] = Ok L /\
    forall r, In (r, true) L <-> reported t c flags hide r /\ snd r <> [].
Proof.
  intros [ST U] Bd Hs Fu.
  assert (HS : forall k x, shown t hide k x <-> x = str t tab hide k).
  { intros k x. destruct tab as [tb|].
    - destruct U as (_ & NE & Tb & Hv & Hf). apply (shown_str t tb ST NE Tb hide k).
    - destruct U as [_ ->]. apply shown_str_none. exact ST. }
  set (JJ := match tab with Some tb => J tb | None => fun _ => True end).
  assert (Safe : forall s a fd, In a (t_arcs t s) -> JJ fd -> exists o, follow tab a fd = Ok o /\ match o with Some fd' => JJ fd' | None => True end).
  { intros s a fd _ Hj. unfold JJ in *. destruct tab as [tb|].
    - destruct U as (_ & NE & Tb & Hv & Hf). apply (follow_safe t tb ST NE Tb Hv). exact Hj.
    - exists (Some fd). split; [reflexivity|exact I]. }
  assert (J0 : JJ (option_map fdstate_new tab)).
  { unfold JJ. destruct tab as [tb|]; [|exact I]. destruct U as (_ & NE & Tb & Hv & Hf). exists (fdstate_new tb), env0. split; [reflexivity|]. eauto using fd_rel_new, tb_ok. }
  assert (FA : forall q, (flags = true -> flags_allow t q) <-> exists fd', fd_run tab (option_map fdstate_new tab) q = Some fd').
  { intros q. destruct tab as [tb|].
    - destruct U as (-> & NE & Tb & Hv & Hf). cbn [option_map]. rewrite <- (flags_allow_spec t tb ST NE Tb Hv Hf q). intuition.
    - destruct U as [-> _]. split; [|discriminate]. intros _. cbn [option_map]. exists None. clear. induction q as [|a q IH]; [reflexivity|exact IH]. }
  destruct (calls_spec t c tab hide) with (J := JJ) (s0 := s0) (cap := cap_of c) (fuel := fuel) (s := s0) (h := @nil nat)
    (v := @nil (nat * N)) (w := 0%Z) (fd := option_map fdstate_new tab) (spv := @nil (bstr * bstr)) (q0 := @nil larc) as (L & E & SL).
  - intros Hh. destruct tab; [discriminate|]. destruct U as [_ ->]. discriminate.
  - exact Safe.
  - unfold cap_of. destruct Bd as [Bd|[Bd _]]; destruct (Z.ltb_spec c 0); lia.
  - intros q u P. unfold cap_of. destruct Bd as [Bd|[Bd A]]; [left; destruct (Z.ltb_spec c 0); lia|].
    right. split; [exact Bd|]. destruct (Z.ltb_spec c 0); [|lia]. intros x. apply NoDup_count_occ. exact (acyclic_trail t s0 A Hs q u P).
  - reflexivity.
  - intros x [].
  - intros x. cbn. lia.
  - constructor.
  - reflexivity.
  - exact Fu.
  - exact J0.
  - exists L. split; [exact E|]. intros r. rewrite SL. split.
    + intros (q & u & z & fd' & P & Fz & Rq & B & Ne & ->). cbn [app] in *. split; [|exact Ne].
      exists s0, q, u, (wsum q), z, (strs t tab hide q). split; [exact Hs|]. split; [exact P|]. split; [exact Fz|]. split; [reflexivity|].
      split; [apply (shown_path_strs t tab hide q _ HS); reflexivity|]. split; [exact B|]. split; [apply FA; exists fd'; exact Rq|]. f_equal.
    + intros [(s & q & u & w & z & l & Hs' & P & Fz & W & Sh & C & Fl & ->) Ne]. rewrite Hs in Hs'. injection Hs' as <-.
      apply (shown_path_strs t tab hide q _ HS) in Sh. subst l. unfold path_weight in W. subst w. apply FA in Fl as (fd' & Rq).
      exists q, u, z, fd'. split; [exact P|]. split; [exact Fz|]. split; [exact Rq|]. split; [exact C|]. split; [exact Ne|]. f_equal.
Qed.
(** The empty path. *)
Lemma reported_empty t c flags hide s0 w : t_start t = Some s0 -> reported t c flags hide (w, []) <-> t_final t s0 = Some w.
Proof.
  intros Hs. split.
  - intros (s & q & u & w' & z & l & Hs' & P & Fz & W & Sh & _ & _ & E). rewrite Hs in Hs'. injection Hs' as <-. injection E as -> <-.
    inversion Sh; subst. apply tpath_det_nil in P. subst u. unfold path_weight in W. cbn in W. subst w'. exact Fz.
  - intros Fz. exists s0, [], s0, 0%Z, w, []. split; [exact Hs|]. split; [constructor|]. split; [exact Fz|]. split; [reflexivity|]. split; [constructor|].
    split; [|split; [|reflexivity]].
    + intros C0 x. unfold trail. cbn. destruct (Nat.eq_dec s0 x); lia.
    + intros _. exists [], []. repeat split; constructor.
Qed.

Lemma extract_all_spec t c tab flags hide m fuel : usable t tab flags hide -> bounded t c -> enough_fuel t c <= fuel ->
  forall acc, exists R, extract_all t (strings_cb m) c tab hide fuel acc = Ok R /\
    incl acc R /\ (forall r, In r R -> In r acc \/ reported t c flags hide r) /\ (sorted_tlp acc -> sorted_tlp R) /\
    ((m < 1)%Z \/ (Z.of_nat (length R) < m)%Z -> forall r, reported t c flags hide r -> In r R) /\
    ((Z.of_nat (length acc) < m)%Z -> (Z.of_nat (length R) <= m + 1)%Z) /\
    ((Z.of_nat (length acc) < m)%Z -> (forall w, ~ reported t c flags hide (w, [])) -> (Z.of_nat (length R) <= m)%Z).
Proof.
  intros U Bd Fu acc. unfold extract_all. destruct (t_start t) as [s0|] eqn:Hs.
  2: { exists acc. split; [reflexivity|]. split; [apply incl_refl|]. split; [auto|]. split; [auto|]. split; [|split; intros; lia].
       intros _ r (s & q & u & w & z & l & Hs' & _). congruence. }
  destruct (search_spec t c tab flags hide s0 fuel U Bd Hs Fu) as (L & E & SL).
  rewrite (extract_calls t c tab hide m fuel _ _ _ _ _ _ acc E). cbn [rbind].
  destruct (process m L acc) as [cont acc1] eqn:Ep. cbn [snd]. destruct (process_spec m L acc cont acc1 Ep) as (I1 & I2 & I3 & I4 & I5 & I6 & I7).
  eexists. split; [reflexivity|].
  pose proof (reported_empty t c flags hide s0) as RE.
  assert (Fin : forall r, reported t c flags hide r -> In (r, true) L \/ exists z, t_final t s0 = Some z /\ r = (z, [])).
  { intros [w l] Rr. destruct l as [|p l]; [right; exists w; split; [apply (RE w Hs); exact Rr|reflexivity]|left; apply SL; split; [exact Rr|discriminate]]. }
  destruct (t_final t s0) as [z|] eqn:Fz.
  - unfold strings_cb. cbn [fst].
    assert (Ii : forall q, In q (sadd tlpcmp (z, []) acc1) <-> q = (z, []) \/ In q acc1) by (intros q; apply (In_sadd tlpcmp tlpcmp_eq)).
    pose proof (length_sadd tlpcmp (z, []) acc1) as Ls.
    split; [intros q Q; apply Ii; right; apply I1; exact Q|]. split.
    { intros r Q. apply Ii in Q as [->|Q]; [right; apply (RE z Hs); reflexivity|]. destruct (I2 r Q) as [K|K]; [auto|right; apply SL; exact K]. }
    split; [intros S1; apply sadd_sorted, I3, S1|]. split.
    { intros Hm r Rr. apply Ii. destruct (Fin r Rr) as [K|(z' & K & ->)]; [|injection K as <-; auto]. right. apply I4; [|exact K].
      destruct cont; [reflexivity|]. specialize (I5 eq_refl). lia. }
    split; [intros Hl; specialize (I6 Hl); lia|]. intros Hl N. exfalso. apply (N z). apply (RE z Hs). reflexivity.
  - split; [exact I1|]. split.
    { intros r Q. destruct (I2 r Q) as [K|K]; [auto|right; apply SL; exact K]. }
    split; [exact I3|]. split.
    { intros Hm r Rr. destruct (Fin r Rr) as [K|(z' & K & _)]; [|discriminate]. apply I4; [|exact K].
      destruct cont; [reflexivity|]. specialize (I5 eq_refl). lia. }
    split; [intros Hl; specialize (I6 Hl); lia|intros Hl _; auto].
Qed.

(** A table for every transducer with few symbols. *)
Lemma table_exists t : (Z.of_nat (length (t_syms t)) <= 32766)%Z -> exists tb, get_flag_diacritics t = Some tb /\
  (Z.of_nat (length (value_map tb)) <= 32767)%Z /\ (Z.of_nat (length (feature_map tb)) <= 65535)%Z.
Proof.
  intros Hl. unfold get_flag_diacritics. set (defs := filter _ _).
  assert (L : length defs <= length (t_syms t)) by (unfold defs; rewrite (filter_len (fun p => is_diacritic (snd p)) (t_syms t)); lia).
  destruct (define_all_total defs fd_empty) as (tb & E & L1 & L2).
  - apply Forall_forall. intros p I. apply filter_In in I. apply I.
  - cbn [fd_empty feature_map length]. lia.
  - cbn [fd_empty value_map length]. lia.
  - exists tb. split; [exact E|]. cbn [fd_empty feature_map value_map length] in *. lia.
Qed.

(** A self-loop and a limit of 65535: the 16-bit counter never exceeds it. *)
Lemma visits_small v s : (forall x, (visits_of v x < 65536)%N) -> forall x, (visits_of (visit v s) x < 65536)%N.
Proof.
  intros H x. destruct (Nat.eq_dec x s) as [->|N]; [rewrite visits_visit_same; apply N.mod_lt; discriminate|]. rewrite visits_visit_other by exact N. apply H.
Qed.
Definition loop_fst : tfst := TFst [(None, [LArc 1 1 0 0])] (Some 0) [(0, B "@_EPSILON_SYMBOL_@"); (1, B "a")].
Lemma loop_diverges fuel : forall v w spv acc, (forall x, (visits_of v x < 65536)%N) ->
  extract loop_fst (strings_cb 0) 65535 None false fuel 0 v w None spv acc = Diverge.
Proof.
  induction fuel as [|f IH]; intros v w spv acc H; [reflexivity|]. cbn [extract].
  destruct (65535 <? Z.of_N (visits_of v 0))%Z eqn:C; [apply Z.ltb_lt in C; specialize (H 0); lia|].
  rewrite Bool.andb_false_r.
  change (sorted_arcs (visit v 0) (t_arcs loop_fst 0)) with [LArc 1 1 0 0]. cbn [arc_loop follow rbind string_of l_in l_out l_to l_w].
  destruct spv as [|p spv]; [rewrite IH by (apply visits_small; exact H); reflexivity|].
  cbn [strings_cb t_final loop_fst]. change (t_final loop_fst 0) with (@None Z). cbn iota. cbn [strings_cb]. unfold strings_cb at 1. cbn iota.
  change (0 <? 1)%Z with true. cbn [orb negb].
  rewrite IH by (apply visits_small; exact H). reflexivity.
Qed.
