(** Cross product: unknown symbols of the two sides kept apart, and the last steps. *)
From Verif Require Import Base Flags_Model BT_Model BT_Spec BT_Proofs BT_Proofs2 BT_Proofs3 BT_Proofs4 BT_Proofs5 BT_Props Harm_Model Harm_Spec Harm_Proofs Harm_Props Co_Spec Co_Model Co_Proofs Co_Proofs2 Co_Proofs3 Co_Proofs4 Co_Props
  PU_Spec PU_Model PU_Proofs PU_Proofs2 PU_Proofs3 PU_Proofs4 Cr_Spec Cr_Model Cr_Proofs Cr_Proofs2.

(** * Moving symbols *)
Lemma outside_dec al s : {outside al s} + {~ outside al s}.
Proof.
  destruct (bstr_eq_dec s EPS) as [->|Ns]; [right; intros K; apply outside_ne in K; tauto|].
  destruct (bstr_eq_dec s UNK) as [->|Nu]; [right; intros K; apply outside_ne in K; tauto|].
  destruct (bstr_eq_dec s IDN) as [->|Ni]; [right; intros K; apply outside_ne in K; tauto|].
  destruct (is_diacritic s) eqn:D; [right; intros [(_ & K & _) _]; congruence|].
  destruct (is_pmatch_special s) eqn:M; [right; intros [(_ & _ & K) _]; apply K, pmatch_special_spec, M|].
  destruct (in_dec bstr_eq_dec s al); [right; intros [_ K]; auto|left]. split; [|assumption]. split; [intros [K|[K|K]]; auto|].
  split; [exact D|]. intros K. apply pmatch_special_spec in K. congruence.
Qed.
Lemma letter_ordinary c s : c <> "@"%char -> ordinary (c :: s).
Proof.
  intros N. split; [|split].
  - intros [K|[K|K]]; injection K; intros; auto.
  - unfold is_diacritic. destruct (_ <? _); [reflexivity|]. destruct (negb _); [reflexivity|]. replace (at_is (c :: s) 0 "@") with false; [reflexivity|].
    symmetry. apply not_true_is_false. unfold at_is. cbn [nth_error]. intros K. apply Ascii.eqb_eq in K. auto.
  - intros [K|[(m & K)|[[(m & K) _]|[[(m & K)|(m & K)] _]]]]; try (injection K; intros; auto; fail).
    cbn [In] in K. repeat (destruct K as [K|K]; [injection K; intros; auto|]). destruct K.
Qed.
Section Moves.
  Variable al : list bstr.
  Hypothesis NM : ~ In MARK al.
  Definition mover (F : bstr -> bstr) : Prop := (forall s, outside al s -> outside al (F s)) /\ (forall s, ~ outside al s -> F s = s).
  Lemma mover_eps F s : mover F -> (F s = EPS <-> s = EPS).
  Proof using.
    intros [M1 M2]. destruct (outside_dec al s) as [O|O]; [|rewrite (M2 s O); tauto]. pose proof (proj1 (outside_ne _ _ O)). pose proof (proj1 (outside_ne _ _ (M1 s O))). tauto.
  Qed.
  Lemma mover_word g F x w : incl (alpha g) al -> sound g -> recognizer g -> mover F -> word g x w -> word g (map F x) w.
  Proof using.
    intros I ((_ & Y & _) & P & _) R [M1 M2]. apply word_rename; auto.
    - intros s O. destruct (outside_dec al s) as [K|K]; [|rewrite (M2 s K); exact O]. destruct (M1 s K) as [H1 H2]. split; [exact H1|auto].
    - intros s O. apply M2. intros [K1 K2]. apply O. split; auto.
  Qed.
  Definition size : nat := S (list_max (map (@length ascii) al)).
  Lemma longer s : size <= length s -> ~ In s al.
  Proof using.
    intros L H. assert (K : length s <= list_max (map (@length ascii) al)); [|unfold size in L; lia].
    assert (F : Forall (fun k => k <= list_max (map (@length ascii) al)) (map (@length ascii) al)) by (apply list_max_le; lia).
    rewrite Forall_forall in F. apply F, in_map, H.
  Qed.
  Definition push (c : ascii) (s : bstr) : bstr := if outside_dec al s then repeat c size ++ s else s.
  Definition strip (s : bstr) : bstr := if outside_dec al s then (if outside_dec al (skipn size s) then skipn size s else s) else s.
  Lemma push_move c s : outside al s -> push c s = c :: repeat c (pred size) ++ s.
  Proof using. intros O. unfold push. destruct (outside_dec al s); [reflexivity|tauto]. Qed.
  Lemma push_outside c s : c <> "@"%char -> outside al s -> outside al (push c s).
  Proof using.
    intros N O. rewrite push_move by exact O. split; [apply letter_ordinary, N|]. apply longer. cbn [length]. rewrite app_length, repeat_length. unfold size. lia.
  Qed.
  Lemma push_mover c : c <> "@"%char -> mover (push c).
  Proof using. intros N. split; [intros s; apply push_outside, N|]. intros s O. unfold push. destruct (outside_dec al s); [tauto|reflexivity]. Qed.
  Lemma push_mark c s : c <> "@"%char -> outside al s -> push c s <> MARK.
  Proof using. intros N O E. rewrite push_move in E by exact O. injection E. auto. Qed.
  Lemma strip_mover : mover strip.
  Proof using.
    split; intros s O; unfold strip; destruct (outside_dec al s) as [K|K]; try tauto. destruct (outside_dec al (skipn size s)); assumption.
  Qed.
  Lemma strip_push c s : c <> "@"%char -> strip (push c s) = s.
  Proof using.
    intros N. destruct (outside_dec al s) as [O|O].
    - unfold strip. destruct (outside_dec al (push c s)) as [_|K]; [|destruct (K (push_outside c s N O))].
      assert (E : skipn size (push c s) = s).
      { unfold push. destruct (outside_dec al s); [|tauto]. rewrite skipn_app, repeat_length, Nat.sub_diag. cbn [skipn]. rewrite skipn_all2; [reflexivity|rewrite repeat_length; lia]. }
      rewrite E. destruct (outside_dec al s); tauto.
    - unfold push. destruct (outside_dec al s); [tauto|]. apply strip_mover, O.
  Qed.
  Lemma push_plain c s : c <> "@"%char -> ordinary s -> plain (push c s).
  Proof using NM.
    intros N O. destruct (outside_dec al s) as [K|K]; [split; [apply push_outside; assumption|apply push_mark; assumption]|].
    rewrite (proj2 (push_mover c N) s K). split; [exact O|]. intros ->. apply K. split; assumption.
  Qed.
  Lemma push_apart c c' s s' : c <> "@"%char -> c' <> "@"%char -> c <> c' -> ordinary s -> ordinary s' -> push c s = push c' s' -> In (push c s) al.
  Proof using.
    intros N N' D O O' E. destruct (in_dec bstr_eq_dec s al) as [I|I].
    - rewrite (proj2 (push_mover c N)); [exact I|]. intros [_ K]. auto.
    - destruct (in_dec bstr_eq_dec s' al) as [I'|I'].
      + rewrite E, (proj2 (push_mover c' N')); [exact I'|]. intros [_ K]. auto.
      + rewrite !push_move in E by (split; assumption). injection E. intros. congruence.
  Qed.

  (** * The last two steps *)
  Variables h0 h : graph.
  Hypothesis Sh0 : sound h0.
  Hypothesis A0 : forall s, In s (alpha h0) <-> s = MARK \/ In s al.
  Hypothesis Ah : forall s, outside (alpha h) s <-> outside al s.
  Definition expanded (p q : bstr * bstr) : Prop := p = (UNK, UNK) /\ In q [(IDN, IDN); (UNK, UNK)] \/ p <> (UNK, UNK) /\ q = p.
  Hypothesis Eh : forall l' w, accepts h l' w <-> exists l, accepts h0 l w /\ Forall2 expanded l l'.
  Lemma outside0 s : outside (alpha h0) s <-> outside al s /\ s <> MARK.
  Proof using A0. unfold outside. rewrite A0. tauto. Qed.
  Lemma strip_known s : ~ outside (alpha h0) s -> s <> MARK -> strip s = s.
  Proof using A0. intros K N. apply strip_mover. intros O. apply K, outside0. auto. Qed.
  Lemma la : "a"%char <> "@"%char. Proof using. discriminate. Qed.
  Lemma lb : "b"%char <> "@"%char. Proof using. discriminate. Qed.
  Lemma push0 c s : c <> "@"%char -> outside al s -> outside (alpha h0) (push c s).
  Proof using A0. intros N O. apply outside0. split; [apply push_outside|apply push_mark]; assumption. Qed.
  Lemma step_back p0 p q : expanded p0 p -> paired p0 -> known (alpha h0) p0 -> means (alpha h) p q ->
    exists q', means (alpha h0) p0 q' /\ (fst q' <> MARK -> snd q' <> MARK -> both strip q' = q).
  Proof using A0 Ah.
    intros [[-> Q]|[N ->]] P K M.
    - assert (X : exists x y, q = (x, y) /\ outside al x /\ outside al y).
      { destruct Q as [<-|[<-|[]]]; inversion M; subst; try congruence; try (exfalso; tauto); eexists _, _; (split; [reflexivity|]); rewrite <- !Ah; auto. }
      destruct X as (x & y & -> & Ox & Oy). exists (push "a" x, push "b" y). split.
      + apply means_unknowns; [apply push0; [exact la|assumption]|apply push0; [exact lb|assumption]|]. rewrite !push_move by assumption. discriminate.
      + intros _ _. unfold both. cbn [fst snd]. rewrite !strip_push by discriminate. reflexivity.
    - destruct p0 as [i o]. destruct K as [K1 K2]. cbn [fst snd] in K1, K2. inversion M as [x O|x y Ox Oy D|x o' O D|i' y O D|i' o' D1 D2 D3]; subst.
      + exists (push "a" x, push "a" x). split; [apply means_identity, push0; [exact la|apply Ah, O]|]. intros _ _. unfold both. cbn [fst snd]. rewrite !strip_push by discriminate. reflexivity.
      + destruct (N eq_refl).
      + exists (push "a" x, o). split; [apply means_unknown_in; [apply push0; [exact la|apply Ah, O]|exact D]|]. cbn [fst snd]. intros _ H. unfold both. cbn [fst snd].
        rewrite strip_push by discriminate. rewrite strip_known by assumption. reflexivity.
      + exists (i, push "a" y). split; [apply means_unknown_out; [apply push0; [exact la|apply Ah, O]|exact D]|]. cbn [fst snd]. intros H _. unfold both. cbn [fst snd].
        rewrite strip_push by discriminate. rewrite strip_known by assumption. reflexivity.
      + exists (i, o). split; [apply means_itself; assumption|]. cbn [fst snd]. intros H1 H2. unfold both. cbn [fst snd]. rewrite !strip_known by assumption. reflexivity.
  Qed.
  Lemma step_forth p0 q : known (alpha h0) p0 -> means (alpha h0) p0 q -> fst q <> MARK -> snd q <> MARK ->
    exists p, expanded p0 p /\ means (alpha h) p (both strip q).
  Proof using A0 Ah.
    intros K M. destruct p0 as [i o]. destruct K as [K1 K2]. cbn [fst snd] in K1, K2.
    assert (T : forall s, outside (alpha h0) s -> outside (alpha h) (strip s)) by (intros s O; apply Ah, strip_mover; apply outside0 in O; apply O).
    inversion M as [x O|x y Ox Oy D|x o' O D|i' y O D|i' o' D1 D2 D3]; subst; cbn [fst snd]; intros H1 H2; unfold both; cbn [fst snd].
    - exists (IDN, IDN). split; [right; split; [discriminate|reflexivity]|]. apply means_identity, T, O.
    - destruct (bstr_eq_dec (strip x) (strip y)) as [E|E].
      + exists (IDN, IDN). split; [left; split; [reflexivity|left; reflexivity]|]. rewrite <- E. apply means_identity, T, Ox.
      + exists (UNK, UNK). split; [left; split; [reflexivity|right; left; reflexivity]|]. apply means_unknowns; auto.
    - exists (UNK, o). split; [right; split; [intros E; injection E; auto|reflexivity]|]. rewrite (strip_known o) by assumption. apply means_unknown_in; auto.
    - exists (i, UNK). split; [right; split; [intros E; injection E; auto|reflexivity]|]. rewrite (strip_known i) by assumption. apply means_unknown_out; auto.
    - exists (i, o). split; [right; split; [intros E; injection E; auto|reflexivity]|]. rewrite (strip_known o), (strip_known i) by assumption. apply means_itself; auto.
  Qed.
  Lemma strip_ne l : no_epsilons (map strip l) = map strip (no_epsilons l).
  Proof using. apply ne_map. intros s _. apply mover_eps, strip_mover. Qed.
  Lemma map_fst_both f (c : list (bstr * bstr)) : map fst (map (both f) c) = map f (map fst c).
  Proof using. rewrite !map_map. reflexivity. Qed.
  Lemma map_snd_both f (c : list (bstr * bstr)) : map snd (map (both f) c) = map f (map snd c).
  Proof using. rewrite !map_map. reflexivity. Qed.
  Lemma plain_path l : Forall plain (no_epsilons l) -> forall s, In s l -> s <> MARK.
  Proof using.
    intros F s H E. rewrite Forall_forall in F. assert (N : s <> EPS) by (intros K; rewrite E in K; discriminate K). destruct (F s (proj2 (In_ne s l) (conj H N))) as [_ D]. exact (D E).
  Qed.
  Lemma expand_forth x z w : related h0 x z w -> Forall plain x -> Forall plain z -> related h (map strip x) (map strip z) w.
  Proof using Sh0 A0 Ah Eh.
    intros (c & (k0 & Ac & F) & -> & ->) Fx Fz. pose proof (plain_path _ Fx) as Mx. pose proof (plain_path _ Fz) as Mz.
    destruct Sh0 as ((_ & Y & _) & P & _). pose proof (path_known h0 k0 w Y Ac) as K.
    assert (X : exists k, Forall2 expanded k0 k /\ Forall2 (means (alpha h)) k (map (both strip) c)).
    { clear Ac Fx Fz. induction F as [|p q k0 c M F IH]; [exists []; split; constructor|]. inversion K; subst.
      destruct (step_forth p q ltac:(assumption) M) as (p' & E & M'); [apply Mx; left; reflexivity|apply Mz; left; reflexivity|].
      destruct IH as (k & E' & F'); auto; [intros s Hs; apply Mx; right; exact Hs|intros s Hs; apply Mz; right; exact Hs|].
      exists (p' :: k). split; constructor; assumption. }
    destruct X as (k & E & F'). exists (map (both strip) c). split; [exists k; split; [apply Eh; eauto|exact F']|].
    rewrite map_fst_both, map_snd_both, !strip_ne. auto.
  Qed.
  Lemma expand_back x z w : related h x z w ->
    exists x' z', related h0 x' z' w /\ (Forall plain x' -> Forall plain z' -> x = map strip x' /\ z = map strip z').
  Proof using Sh0 A0 Ah Eh.
    intros (c & (k & Ac & F) & -> & ->). apply Eh in Ac. destruct Ac as (k0 & Ac & E). destruct Sh0 as ((_ & Y & _) & P & _).
    pose proof (path_known h0 k0 w Y Ac) as K. pose proof (path_paired h0 k0 w P Ac) as Pk.
    assert (X : exists c', Forall2 (means (alpha h0)) k0 c' /\ ((forall s, In s (map fst c') -> s <> MARK) -> (forall s, In s (map snd c') -> s <> MARK) -> map (both strip) c' = c)).
    { clear Ac. revert c F. induction E as [|p0 p k0 k e E IH]; intros c F; inversion F as [|? q ? c1 M F1]; subst; [exists []; split; [constructor|reflexivity]|].
      inversion K; inversion Pk; subst. destruct (step_back p0 p q e ltac:(assumption) ltac:(assumption) M) as (q' & M' & S).
      destruct (IH ltac:(assumption) ltac:(assumption) c1 F1) as (c' & F' & S'). exists (q' :: c'). split; [constructor; assumption|]. intros Q1 Q2. cbn [map]. f_equal.
      - apply S; [apply Q1|apply Q2]; left; reflexivity.
      - apply S'; intros s Hs; [apply Q1|apply Q2]; right; exact Hs. }
    destruct X as (c' & F' & S). exists (no_epsilons (map fst c')), (no_epsilons (map snd c')). split; [exists c'; split; [exists k0; auto|auto]|].
    intros Fx Fz. specialize (S (plain_path _ Fx) (plain_path _ Fz)). rewrite <- S, map_fst_both, map_snd_both, !strip_ne. auto.
  Qed.
End Moves.

(** * The expansion *)
Lemma expand_result h0 : exists h, expand h0 = Ok h /\ (forall l' w, accepts h l' w <-> exists l, accepts h0 l w /\ Forall2 expanded l l') /\
  (forall s, ~ special s -> In s (alpha h) <-> In s (alpha h0) /\ s <> MARK).
Proof.
  unfold expand. assert (X : exists g, substitute_pair_with_set (UNK, UNK) [(IDN, IDN); (UNK, UNK)] h0 = Ok g) by (eexists; reflexivity). destruct X as (g & E). rewrite E. cbn [rmap].
  exists (remove_symbol g MARK). split; [reflexivity|]. split.
  - intros l' w. assert (N : [(IDN, IDN); (UNK, UNK)] <> []) by discriminate. pose proof (C21_pair_to_set_partial h0 _ _ g N E l' w) as C. unfold expanded. rewrite <- C.
    split; apply accepts_same; reflexivity.
  - intros s Ns. unfold remove_symbol. cbn [with_alpha alpha]. rewrite (In_sdel bcmp bcmp_eq). assert (Q : In s (alpha g) <-> In s (alpha h0)); [|rewrite Q; tauto].
    unfold substitute_pair_with_set in E. change (negb (valid_pair (UNK, UNK)) || existsb (fun p => negb (valid_pair p)) [(IDN, IDN); (UNK, UNK)]) with false in E.
    cbv iota in E. apply (f_equal (fun r => match r with Ok x => x | _ => h0 end)) in E. cbv iota beta in E. rewrite <- E. unfold substitute_pair_set_.
    match goal with |- context [prune_after ?x _] => set (g2 := x) end. rewrite prune_after_alpha.
    assert (U : ~ In s [UNK; UNK]) by (intros [<-|[<-|[]]]; apply Ns; right; left; reflexivity). cbn [fst snd].
    assert (Q : In s (alpha g2) <-> In s (alpha h0)); [|tauto]. unfold g2. destruct (existsb _ _); [|reflexivity]. rewrite add_pairs_alpha. cbn [with_sts alpha].
    split; [|tauto]. intros [(p & [<-|[<-|[]]] & [->| ->])|H]; auto; exfalso; apply Ns; unfold special; auto.
Qed.
