(** Proofs: renaming symbols in a transducer, missing flags. *)
From Verif Require Import Base Flags_Model Flags_Spec Flags_Proofs BT_Model BT_Spec BT_Proofs BT_Proofs3 BT_Props Harm_Model Harm_Spec Harm_Proofs Co_Spec Co_Proofs PU_Proofs4 Cr_Proofs FH_Spec FH_Model FH_Proofs.

(** * What labels stand for after renaming *)
Definition keeps_special (f : bstr -> bstr) : Prop := forall s, (f s = EPS <-> s = EPS) /\ (f s = UNK <-> s = UNK) /\ (f s = IDN <-> s = IDN).
Lemma means_back f al al' p q' : keeps_special f -> (forall s, outside al' s -> outside al s /\ f s = s) ->
  means al' (both f p) q' -> exists q, means al p q /\ q' = both f q.
Proof.
  intros F O M. destruct p as [i o]. unfold both in *. cbn [fst snd] in M. fold IDN UNK in *.
  assert (U : forall s, f s = UNK <-> s = UNK) by (intros s; apply F). assert (I : forall s, f s = IDN <-> s = IDN) by (intros s; apply F).
  remember (f i, f o) as p eqn:Ep. destruct M as [x X|x y X Y D|x o' X D|i' y Y D|i' o' D1 D2 D3];
    pose proof (f_equal fst Ep) as E1; pose proof (f_equal snd Ep) as E2; cbn [fst snd] in E1, E2; symmetry in E1, E2; clear Ep; fold IDN UNK in *.
  - apply (proj1 (I _)) in E1, E2. subst. exists (x, x). split; [apply means_identity, O, X|]. cbn [fst snd]. rewrite (proj2 (O x X)). reflexivity.
  - apply (proj1 (U _)) in E1, E2. subst. exists (x, y). split; [apply means_unknowns; [apply O, X|apply O, Y|exact D]|].
    cbn [fst snd]. rewrite (proj2 (O x X)), (proj2 (O y Y)). reflexivity.
  - apply (proj1 (U _)) in E1. subst. exists (x, o). split; [apply means_unknown_in; [apply O, X|fold UNK; rewrite <- U; exact D]|]. cbn [fst snd]. rewrite (proj2 (O x X)). reflexivity.
  - apply (proj1 (U _)) in E2. subst. exists (i, y). split; [apply means_unknown_out; [apply O, Y|fold UNK; rewrite <- U; exact D]|].
    cbn [fst snd]. rewrite (proj2 (O y Y)). reflexivity.
  - subst. exists (i, o). split; [|reflexivity]. apply means_itself; fold UNK IDN; [rewrite <- U; exact D1|rewrite <- U; exact D2|]. intros [K1 K2]. apply D3. split; apply (proj2 (I _)); assumption.
Qed.
Lemma means_forth f al al' p q : keeps_special f -> (forall s, s = fst q \/ s = snd q -> outside al s -> outside al' s /\ f s = s) ->
  means al p q -> means al' (both f p) (both f q).
Proof.
  intros F O M. assert (U : forall s, f s = UNK <-> s = UNK) by (intros s; apply F). assert (I : forall s, f s = IDN <-> s = IDN) by (intros s; apply F).
  destruct M as [x X|x y X Y D|x o' X D|i' y Y D|i' o' D1 D2 D3]; unfold both; cbn [fst snd] in *; fold UNK IDN in *;
    rewrite ?(proj2 (U UNK) eq_refl), ?(proj2 (I IDN) eq_refl).
  - destruct (O x (or_introl eq_refl) X) as [X' ->]. apply means_identity, X'.
  - destruct (O x (or_introl eq_refl) X) as [X' ->]. destruct (O y (or_intror eq_refl) Y) as [Y' ->]. apply means_unknowns; assumption.
  - destruct (O x (or_introl eq_refl) X) as [X' ->]. apply means_unknown_in; [exact X'|]. fold UNK. rewrite U. exact D.
  - destruct (O y (or_intror eq_refl) Y) as [Y' ->]. apply means_unknown_out; [exact Y'|]. fold UNK. rewrite U. exact D.
  - apply means_itself; fold UNK IDN; rewrite ?U, ?I; assumption.
Qed.
Section Renamed.
  Variables (f : bstr -> bstr) (g g' : graph).
  Hypothesis F : keeps_special f.
  Hypothesis A : forall l w, accepts g' l w <-> exists k, accepts g k w /\ l = map (both f) k.
  Lemma relation_back l w : (forall s, outside (alpha g') s -> outside (alpha g) s /\ f s = s) ->
    relation g' l w -> exists k, relation g k w /\ l = map (both f) k.
  Proof using F A.
    intros O (m & Am & M). apply A in Am. destruct Am as (k & Ak & ->).
    assert (Q : exists c, Forall2 (means (alpha g)) k c /\ l = map (both f) c).
    { clear Ak. revert l M. induction k as [|p k IH]; intros l M; cbn [map] in M; inversion M as [|? q ? l' Mp Ml]; subst; [exists []; auto|].
      destruct (IH l' Ml) as (c & C & ->). destruct (means_back f _ _ _ _ F O Mp) as (q' & Q & ->). exists (q' :: c). split; [constructor; assumption|reflexivity]. }
    destruct Q as (c & C & ->). exists c. split; [exists k; auto|reflexivity].
  Qed.
  Lemma relation_forth k w : (forall s, In s (map fst k) \/ In s (map snd k) -> outside (alpha g) s -> outside (alpha g') s /\ f s = s) ->
    relation g k w -> relation g' (map (both f) k) w.
  Proof using F A.
    intros O (m & Am & M). exists (map (both f) m). split; [apply A; exists m; auto|]. clear Am. induction M as [|p q m k Mp M IH]; [constructor|]. cbn [map]. constructor.
    - apply (means_forth f (alpha g)); [exact F| |exact Mp]. intros s Hs. apply O. cbn [map In]. destruct Hs as [->| ->]; auto.
    - apply IH. intros s Hs. apply O. cbn [map In]. destruct Hs; auto.
  Qed.
  Lemma eps_iff s : f s = EPS <-> s = EPS.
  Proof using F. apply F. Qed.
  Lemma map_both_fst k : map fst (map (both f) k) = map f (map fst k).
  Proof using. rewrite !map_map. reflexivity. Qed.
  Lemma map_both_snd k : map snd (map (both f) k) = map f (map snd k).
  Proof using. rewrite !map_map. reflexivity. Qed.
  Lemma related_back x y w : (forall s, outside (alpha g') s -> outside (alpha g) s /\ f s = s) ->
    related g' x y w -> exists x' y', related g x' y' w /\ x = map f x' /\ y = map f y'.
  Proof using F A.
    intros O (l & R & -> & ->). apply relation_back in R; [|exact O]. destruct R as (k & R & ->). exists (no_epsilons (map fst k)), (no_epsilons (map snd k)).
    split; [exists k; auto|]. rewrite map_both_fst, map_both_snd, !ne_map by (intros; apply eps_iff). auto.
  Qed.
  Lemma related_forth x y w : (forall s, In s x \/ In s y -> outside (alpha g) s -> outside (alpha g') s /\ f s = s) ->
    related g x y w -> related g' (map f x) (map f y) w.
  Proof using F A.
    intros O (k & R & -> & ->). exists (map (both f) k). split.
    - apply relation_forth; [|exact R]. intros s Hs Os. apply O; [|exact Os]. rewrite !In_ne. pose proof (proj1 (outside_ne _ _ Os)). tauto.
    - rewrite map_both_fst, map_both_snd, !ne_map by (intros; apply eps_iff). auto.
  Qed.
End Renamed.

(** * Copies *)
Lemma arcs_concat (ls : list (list arc)) a : In a (concat ls) <-> exists s, In a (nth s ls []).
Proof.
  rewrite in_concat. split.
  - intros (l & Hl & Ha). apply (In_nth _ _ []) in Hl. destruct Hl as (s & _ & E). exists s. rewrite E. exact Ha.
  - intros (s & Ha). exists (nth s ls []). split; [|exact Ha]. destruct (Nat.lt_ge_cases s (length ls)) as [L|L]; [apply nth_In, L|rewrite nth_overflow in Ha by exact L; destruct Ha].
Qed.
Lemma copy_alpha g ls x : In x (alpha (copy_of g ls)) <-> x = EPS \/ x = UNK \/ x = IDN \/ exists s a, In a (nth s ls []) /\ (x = isy a \/ x = osy a).
Proof.
  unfold copy_of. cbn [alpha]. rewrite add_pairs_alpha. assert (E : In x (alpha empty_graph) <-> x = EPS \/ x = UNK \/ x = IDN).
  { unfold empty_graph, initialize_alphabet. cbn [alpha]. rewrite !(In_sadd bcmp bcmp_eq). simpl. tauto. }
  rewrite E. split.
  - intros [(p & Hp & Q)|[K|[K|K]]]; auto. apply in_map_iff in Hp. destruct Hp as (a & <- & Ha). apply arcs_concat in Ha. destruct Ha as (s & Ha). right. right. right. exists s, a. auto.
  - intros [K|[K|[K|(s & a & Ha & Q)]]]; auto. left. exists (label a). split; [apply in_map, arcs_concat; exists s; exact Ha|exact Q].
Qed.

(** * rename_flag_diacritics *)
Lemma rename_accepts suf g l w : accepts (rename_flag_diacritics suf g) l w <-> exists k, accepts g k w /\ l = map (both (rename_symbol suf)) k.
Proof.
  apply (accepts_relabelled (both (rename_symbol suf))); [reflexivity|]. intros s. cbn [rename_flag_diacritics copy_of sts]. rewrite nth_map_nil by reflexivity. reflexivity.
Qed.
Lemma rename_other suf s : is_diacritic s = false -> rename_symbol suf s = s.
Proof. unfold rename_symbol. intros ->. reflexivity. Qed.
Lemma rename_diacritic suf s : no_dot suf -> is_diacritic (rename_symbol suf s) = is_diacritic s.
Proof.
  intros S. pose proof (with_suffix_flag suf s _ S (rename_with_suffix suf s)) as F. rewrite <- !flag_iff in F.
  destruct (is_diacritic s), (is_diacritic (rename_symbol suf s)); tauto || (symmetry; tauto).
Qed.
Lemma rename_special suf : no_dot suf -> keeps_special (rename_symbol suf).
Proof.
  intros S s. assert (Q : forall c, is_diacritic c = false -> (rename_symbol suf s = c <-> s = c)).
  { intros c C. split; [|intros ->; apply rename_other, C]. intros E. rewrite <- (rename_other suf s); [exact E|]. rewrite <- (rename_diacritic suf s S), E. exact C. }
  split; [|split]; apply Q; reflexivity.
Qed.
Lemma rename_used suf g x : used (rename_flag_diacritics suf g) x <-> exists y, used g y /\ x = rename_symbol suf y.
Proof.
  unfold used. cbn [rename_flag_diacritics copy_of sts]. split.
  - intros (s & a & Ha & E). rewrite nth_map_nil in Ha by reflexivity. apply in_map_iff in Ha. destruct Ha as (b & <- & Hb). cbn [isy osy] in E.
    destruct E as [->| ->]; [exists (isy b)|exists (osy b)]; (split; [exists s, b; split; [exact Hb|auto]|reflexivity]).
  - intros (y & (s & a & Ha & E) & ->). exists s, (Arc (tgt a) (rename_symbol suf (isy a)) (rename_symbol suf (osy a)) (wt a)). split.
    + rewrite nth_map_nil by reflexivity. apply in_map_iff. exists a. auto.
    + cbn [isy osy]. destruct E as [->| ->]; auto.
Qed.
Lemma rename_alpha suf g x : In x (alpha (rename_flag_diacritics suf g)) <-> special x \/ used (rename_flag_diacritics suf g) x.
Proof. unfold rename_flag_diacritics at 1. rewrite copy_alpha. unfold special, used. fold EPS UNK IDN. cbn [rename_flag_diacritics copy_of sts]. tauto. Qed.
Lemma rename_outside suf g s : no_dot suf -> outside (alpha (rename_flag_diacritics suf g)) s <-> ordinary s /\ ~ used g s.
Proof.
  intros S. unfold outside. rewrite rename_alpha, rename_used. split.
  - intros (O & N). split; [exact O|]. intros U. apply N. right. exists s. split; [exact U|]. symmetry. apply rename_other, O.
  - intros (O & N). split; [exact O|]. intros [K|(y & U & E)]; [exact (proj1 O K)|]. apply N. destruct O as (_ & D & _).
    assert (D' : is_diacritic y = false) by (rewrite <- (rename_diacritic suf y S), <- E; exact D). rewrite (rename_other suf y D') in E. subst. exact U.
Qed.
Lemma map_suffix_Forall2 suf l : Forall2 (with_suffix suf) l (map (rename_symbol suf) l).
Proof. induction l; constructor; auto using rename_with_suffix. Qed.
Lemma Forall2_suffix_map suf l l' : Forall2 (with_suffix suf) l l' -> l' = map (rename_symbol suf) l.
Proof. induction 1 as [|x y l l' H F IH]; [reflexivity|]. cbn [map]. f_equal; [apply with_suffix_fun; exact H|exact IH]. Qed.

(** * insert_freely_missing_flags_from *)
Lemma missing_In s another t : In s (missing_flags_in another t) <-> is_flag s /\ In s (alpha another) /\ ~ In s (alpha t).
Proof.
  unfold missing_flags_in. rewrite filter_In, andb_true_iff, negb_true_iff, flag_iff. rewrite <- not_true_iff_false, (smem_In bcmp bcmp_eq). tauto.
Qed.
Definition missing_pair (another t : graph) (p : bstr * bstr) : Prop := fst p = snd p /\ In (fst p) (missing_flags_in another t).
Lemma inserted_added ps k l u : inserted_path (fun m y => exists p, In p ps /\ m = [p] /\ y = 0%Z) k l u -> u = 0%Z /\ with_added (fun p => In p ps) k l.
Proof.
  induction 1 as [|q l l' w I [-> IH]|m v l l' w (p & Hp & -> & ->) I [-> IH]]; (split; [reflexivity|]); [constructor|constructor; exact IH|].
  cbn [app]. apply wa_add; assumption.
Qed.
Lemma added_inserted ps k l : with_added (fun p => In p ps) k l -> inserted_path (fun m y => exists p, In p ps /\ m = [p] /\ y = 0%Z) k l 0.
Proof.
  induction 1 as [|q k l I IH|p k l Hp I IH]; [constructor|constructor; exact IH|]. change 0%Z with (0 + 0)%Z. change (p :: l) with ([p] ++ l). apply ins_more; [|exact IH].
  exists p. auto.
Qed.
Lemma added_mono (P Q : bstr * bstr -> Prop) k l : (forall p, P p -> Q p) -> with_added P k l -> with_added Q k l.
Proof. intros H. induction 1; constructor; auto. Qed.
Lemma flag_nonempty s : is_diacritic s = true -> s <> [].
Proof. intros H ->. discriminate H. Qed.
Lemma missing_accepts another t l w : structure_ok t -> accepts (insert_freely_missing_flags_from another t) l w <->
  exists k, accepts t k w /\ with_added (missing_pair another t) k l.
Proof.
  intros S. unfold insert_freely_missing_flags_from. destruct (missing_flags_in another t) as [|m0 ms] eqn:E.
  - split; [intros A; exists l; split; [exact A|]; clear A; induction l; constructor; assumption|]. intros (k & A & W).
    assert (W' : k = l); [|subst; exact A]. clear A. induction W as [|p k l W IH|p k l [_ Hp] W IH]; [reflexivity|congruence|]. rewrite E in Hp. destruct Hp.
  - set (ms' := m0 :: ms) in *. set (ps := map (fun s => (s, s)) ms').
    assert (V : Forall (fun p : bstr * bstr => fst p <> [] /\ snd p <> []) ps).
    { apply Forall_forall. intros p Hp. apply in_map_iff in Hp. destruct Hp as (s & <- & Hs). cbn [fst snd]. rewrite <- E in Hs. apply missing_In, proj1, flag_iff, flag_nonempty in Hs. auto. }
    assert (I : insert_freely ps 0 t = Ok (with_sts (add_pairs t ps) (add_loops ps 0 0 (sts t)))).
    { destruct (C23_insert_freely_total t ps 0 V) as (g' & Eg). unfold insert_freely in *. destruct (existsb _ ps); [discriminate Eg|]. cbv zeta.
      rewrite (proj1 (add_pairs_sts t ps)). reflexivity. }
    rewrite (C23_insert_freely t ps 0 _ S I l w). assert (P : forall p, In p ps <-> missing_pair another t p).
    { intros [x y]. unfold ps. rewrite in_map_iff. unfold missing_pair. rewrite E. cbn [fst snd]. split; [intros (s & Es & Hs); injection Es as <- <-; auto|]. intros [-> H]. exists y. auto. }
    split.
    + intros (k & v & u & A & Ik & ->). apply inserted_added in Ik. destruct Ik as [-> W]. exists k. rewrite Z.add_0_r. split; [exact A|]. apply (added_mono (fun p => In p ps)); [intros p; apply P|exact W].
    + intros (k & A & W). exists k, w, 0%Z. split; [exact A|]. split; [|lia]. apply added_inserted. revert W. apply added_mono. intros p. apply P.
Qed.
Lemma missing_alpha another t s : In s (alpha (insert_freely_missing_flags_from another t)) <-> In s (alpha t) \/ In s (missing_flags_in another t).
Proof.
  unfold insert_freely_missing_flags_from. destruct (missing_flags_in another t) as [|m0 ms] eqn:E; [simpl; tauto|]. cbn [with_sts alpha]. rewrite add_pairs_alpha. split.
  - intros [(p & Hp & Q)|H]; [|auto]. apply in_map_iff in Hp. destruct Hp as (x & <- & Hx). cbn [fst snd] in Q. right. destruct Q as [->| ->]; exact Hx.
  - intros [H|H]; [auto|]. left. exists (s, s). split; [apply in_map_iff; exists s; auto|auto].
Qed.
Lemma missing_outside another t s : outside (alpha (insert_freely_missing_flags_from another t)) s <-> outside (alpha t) s.
Proof.
  unfold outside. rewrite missing_alpha, missing_In, <- flag_iff. split; intros ((O1 & O2 & O3) & N); (split; [repeat split; assumption|]); [tauto|].
  rewrite O2. intros [K|(K & _)]; [tauto|discriminate].
Qed.
Lemma flag_means al s q : is_diacritic s = true -> means al (s, s) q <-> q = (s, s).
Proof.
  intros D. apply means_plain. repeat split; intros ->; discriminate.
Qed.
Lemma missing_relation another t l w : structure_ok t -> relation (insert_freely_missing_flags_from another t) l w <->
  exists k, relation t k w /\ with_added (missing_pair another t) k l.
Proof.
  intros S. assert (O : forall p q, means (alpha (insert_freely_missing_flags_from another t)) p q <-> means (alpha t) p q).
  { intros p q. split; apply means_alpha; intros s _; apply missing_outside. }
  assert (MP : forall p q, missing_pair another t p -> means (alpha t) p q <-> q = p).
  { intros [x y] q [E M]. cbn [fst snd] in *. subst y. apply flag_means, flag_iff. apply missing_In in M. tauto. }
  split.
  - intros (m & A & M). apply missing_accepts in A; [|exact S]. destruct A as (k & A & W).
    assert (Q : exists c, Forall2 (means (alpha t)) k c /\ with_added (missing_pair another t) c l).
    { clear A. revert l M. induction W as [|p k m W IH|p k m Hp W IH]; intros l M; inversion M as [|? q ? l' Mp Ml]; subst.
      - exists []. split; constructor.
      - destruct (IH l' Ml) as (c & C & X). exists (q :: c). split; [constructor; [apply O, Mp|exact C]|apply wa_keep, X].
      - destruct (IH l' Ml) as (c & C & X). exists c. split; [exact C|]. apply O, (MP p q Hp) in Mp. subst q. apply wa_add; assumption. }
    destruct Q as (c & C & X). exists c. split; [exists k; auto|exact X].
  - intros (c & (k & A & M) & W).
    assert (Q : exists m, with_added (missing_pair another t) k m /\ Forall2 (means (alpha t)) m l).
    { clear A. revert k M. induction W as [|p c l W IH|p c l Hp W IH]; intros k M.
      - inversion M; subst. exists []. split; constructor.
      - inversion M as [|q ? k' ? Mp Mk]; subst. destruct (IH k' Mk) as (m & X & Y). exists (q :: m). split; [apply wa_keep, X|constructor; assumption].
      - destruct (IH k M) as (m & X & Y). exists (p :: m). split; [apply wa_add; assumption|]. constructor; [apply MP; auto|exact Y]. }
    destruct Q as (m & X & Y). exists m. split; [apply missing_accepts; [exact S|]; exists k; auto|]. clear - Y O. induction Y; constructor; auto. apply O. assumption.
Qed.
