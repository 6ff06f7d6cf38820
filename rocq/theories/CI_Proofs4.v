(** Proofs about compose-intersect: query histories, lists of rules, joined paths. *)
From Coq Require Import Sorted Permutation.
From Verif Require Import Base OrdMap Flags_Model BT_Model BT_Spec BT_Proofs Isect_Model Isect_Proofs CI_Model CI_Spec CI_Proofs CI_Proofs2 CI_Proofs3.

(** * The intersection *)
Lemma follows_both T1 T2 l : forall p1 p2 w q, follows (Both T1 T2) (AtBoth p1 p2) l w q <->
  exists w1 w2 q1 q2, follows T1 p1 l w1 q1 /\ follows T2 p2 l w2 q2 /\ w = (w1 + w2)%Z /\ q = AtBoth q1 q2.
Proof.
  induction l as [|[x y] l IH]; intros p1 p2 w q.
  - split.
    + intros H. inversion H; subst. exists 0%Z, 0%Z, p1, p2. repeat split; constructor.
    + intros (w1 & w2 & q1 & q2 & H1 & H2 & -> & ->). inversion H1; subst. inversion H2; subst. constructor.
  - split.
    + intros H. inversion H as [|? ? ? w0 q0 ? v ? R F]; subst. inversion R as [| |? ? ? ? ? ? a b pa pb R1 R2]; subst.
      apply IH in F. destruct F as (w1 & w2 & q1 & q2 & F1 & F2 & -> & ->).
      exists (a + w1)%Z, (b + w2)%Z, q1, q2. split; [econstructor; eassumption|]. split; [econstructor; eassumption|]. split; [lia|reflexivity].
    + intros (w1 & w2 & q1 & q2 & F1 & F2 & -> & ->). inversion F1 as [|? ? ? a pa ? v1 ? R1 G1]; subst. inversion F2 as [|? ? ? b pb ? v2 ? R2 G2]; subst.
      replace (a + v1 + (b + v2))%Z with ((a + b) + (v1 + v2))%Z by lia. econstructor; [constructor; eassumption|].
      apply IH. exists v1, v2, q1, q2. auto.
Qed.
Lemma rules_accept_both T1 T2 l w : rules_accept (Both T1 T2) l w <-> exists w1 w2, rules_accept T1 l w1 /\ rules_accept T2 l w2 /\ w = (w1 + w2)%Z.
Proof.
  split.
  - intros (p & v & f & F & S & ->). cbn [start] in F. apply follows_both in F. destruct F as (w1 & w2 & q1 & q2 & F1 & F2 & -> & ->).
    simpl in S. destruct (stops T1 q1) as [a|] eqn:S1; [|discriminate]. destruct (stops T2 q2) as [b|] eqn:S2; [|discriminate]. injection S as <-.
    exists (w1 + a)%Z, (w2 + b)%Z. split; [exists q1, w1, a; auto|]. split; [exists q2, w2, b; auto|]. lia.
  - intros (w1 & w2 & (q1 & v1 & a & F1 & S1 & ->) & (q2 & v2 & b & F2 & S2 & ->) & ->).
    exists (AtBoth q1 q2), (v1 + v2)%Z, (a + b)%Z. split; [apply follows_both; exists v1, v2, q1, q2; auto|]. split; [simpl; rewrite S1, S2; reflexivity|]. lia.
Qed.
Lemma rule_tree_fold gs : forall T l w, rules_accept (fold_left (fun r h => Both (One h) r) gs T) l w <->
  exists w0 ws, rules_accept T l w0 /\ Forall2 (fun g v => rules_accept (One g) l v) gs ws /\ w = (w0 + sum ws)%Z.
Proof.
  induction gs as [|g gs IH]; intros T l w; simpl.
  - split.
    + intros H. exists w, []. split; [exact H|]. split; [constructor|simpl; lia].
    + intros (w0 & ws & H & F & ->). inversion F; subst. simpl. rewrite Z.add_0_r. exact H.
  - rewrite IH. split.
    + intros (w0 & ws & H & F & ->). apply rules_accept_both in H. destruct H as (a & b & H1 & H2 & ->).
      exists b, (a :: ws). split; [exact H2|]. split; [constructor; assumption|simpl; lia].
    + intros (w0 & ws & H & F & ->). inversion F as [|? a ? ws' Ha Fs]; subst. exists (a + w0)%Z, ws'.
      split; [apply rules_accept_both; exists a, w0; auto|]. split; [exact Fs|simpl; lia].
Qed.
Lemma rule_tree_accept g gs l w : rules_accept (rule_tree g gs) l w <->
  exists ws, Forall2 (fun h v => rules_accept (One h) l v) (g :: gs) ws /\ w = sum ws.
Proof.
  destruct gs as [|g2 gs]; unfold rule_tree.
  - split.
    + intros H. exists [w]. split; [constructor; [exact H|constructor]|simpl; lia].
    + intros (ws & F & ->). inversion F as [|? a ? ws' Ha Fs]; subst. inversion Fs; subst. simpl. rewrite Z.add_0_r. exact Ha.
  - rewrite rule_tree_fold. split.
    + intros (w0 & ws & H & F & ->). apply rules_accept_both in H. destruct H as (a & b & H1 & H2 & ->).
      exists (a :: b :: ws). split; [constructor; [exact H1|constructor; [exact H2|exact F]]|simpl; lia].
    + intros (ws & F & ->). inversion F as [|? a ? ws1 Ha F1]; subst. inversion F1 as [|? b ? ws2 Hb F2]; subst.
      exists (a + b)%Z, ws2. split; [apply rules_accept_both; exists a, b; auto|]. split; [exact F2|simpl; lia].
Qed.
Lemma every_fold P gs : forall T, every P (fold_left (fun r h => Both (One h) r) gs T) <-> every P T /\ Forall P gs.
Proof.
  induction gs as [|g gs IH]; intros T; simpl; [split; [auto|tauto]|]. rewrite IH. simpl. split.
  - intros ((H1 & H2) & H3). auto.
  - intros (H1 & H2). inversion H2; subst. auto.
Qed.
Lemma every_tree P g gs : every P (rule_tree g gs) <-> Forall P (g :: gs).
Proof.
  destruct gs as [|g2 gs]; unfold rule_tree.
  - simpl. split; [auto|]. intros H. inversion H; assumption.
  - rewrite every_fold. simpl. split.
    + intros ((H1 & H2) & H3). auto.
    + intros H. inversion H as [|? ? H1 H2]; subst. inversion H2; subst. auto.
Qed.
Lemma usable_fit T : usable T -> okT T /\ fitT T.
Proof. intros [H1 H2]. split; [exact H1|]. destruct T; exact H2. Qed.

(** * Joined paths *)
Section Joined.
  Variable g : graph.
  Variable T : rules.
  Lemma composed_joined : forall x p l w, composed g T x p l w ->
    exists pl pr v1 t f1 v2 u f2, run g x pl v1 t /\ mget Nat.compare t (fin g) = Some f1 /\ follows T p pr v2 u /\ stops T u = Some f2
      /\ joined T pl pr l /\ w = (v1 + f1 + (v2 + f2))%Z.
  Proof.
    intros x p l w C. induction C as [x p f v Hf Hv|x p i o w x' p' l v M C IH].
    - exists [], [], 0%Z, x, f, 0%Z, p, v. split; [constructor|]. split; [exact Hf|]. split; [constructor|]. split; [exact Hv|]. split; [constructor|lia].
    - destruct IH as (pl & pr & v1 & t & f1 & v2 & u & f2 & R & F1 & Fo & F2 & J & ->).
      inversion M as [? ? a Ha U|? ? a y v ? Ha U Rd|? ? y ? ? Rd]; subst.
      + exists ((isy a, osy a) :: pl), pr, (wt a + v1)%Z, t, f1, v2, u, f2. split; [constructor; assumption|]. do 3 (split; [assumption|]).
        split; [constructor; assumption|lia].
      + exists ((isy a, osy a) :: pl), ((osy a, o) :: pr), (wt a + v1)%Z, t, f1, (v + v2)%Z, u, f2. split; [constructor; assumption|]. split; [assumption|].
        split; [econstructor; eassumption|]. split; [assumption|]. split; [constructor; assumption|lia].
      + exists pl, ((B "@_EPSILON_SYMBOL_@", o) :: pr), v1, t, f1, (w + v2)%Z, u, f2. split; [assumption|]. split; [assumption|].
        split; [econstructor; eassumption|]. split; [assumption|]. split; [constructor; assumption|lia].
  Qed.
  Lemma joined_composed : forall pl pr l, joined T pl pr l -> forall x p v1 t f1 v2 u f2, run g x pl v1 t -> mget Nat.compare t (fin g) = Some f1 ->
    follows T p pr v2 u -> stops T u = Some f2 -> composed g T x p l (v1 + f1 + (v2 + f2)).
  Proof.
    intros pl pr l J. induction J as [|i o pl pr l U J IH|i z y pl pr l U J IH|y pl pr l J IH]; intros x p v1 t f1 v2 u f2 R F1 Fo F2.
    - inversion R; subst. inversion Fo; subst. replace (0 + f1 + (0 + f2))%Z with (f1 + f2)%Z by lia. constructor; assumption.
    - inversion R as [|? a ? v ? Ha R']; subst. replace (wt a + v + f1 + (v2 + f2))%Z with (wt a + (v + f1 + (v2 + f2)))%Z by lia.
      econstructor; [apply move_lexicon; eassumption|]. eapply IH; eassumption.
    - inversion R as [|? a ? v ? Ha R']; subst. inversion Fo as [|? ? ? w q ? v' ? Rd Fo']; subst.
      replace (wt a + v + f1 + (w + v' + f2))%Z with (wt a + w + (v + f1 + (v' + f2)))%Z by lia.
      econstructor; [apply move_together; eassumption|]. eapply IH; eassumption.
    - inversion Fo as [|? ? ? w q ? v' ? Rd Fo']; subst.
      replace (v1 + f1 + (w + v' + f2))%Z with (w + (v1 + f1 + (v' + f2)))%Z by lia.
      econstructor; [apply move_rules; eassumption|]. eapply IH; eassumption.
  Qed.
  Lemma composed_iff l w : composed g T 0 (start T) l w <->
    exists pl pr w1 w2, accepts g pl w1 /\ rules_accept T pr w2 /\ joined T pl pr l /\ w = (w1 + w2)%Z.
  Proof.
    split.
    - intros C. apply composed_joined in C. destruct C as (pl & pr & v1 & t & f1 & v2 & u & f2 & R & F1 & Fo & F2 & J & ->).
      exists pl, pr, (v1 + f1)%Z, (v2 + f2)%Z. split; [exists t, v1, f1; auto|]. split; [exists u, v2, f2; auto|]. auto.
    - intros (pl & pr & w1 & w2 & (t & v1 & f1 & R & F1 & ->) & (u & v2 & f2 & Fo & F2 & ->) & J & ->). eapply joined_composed; eassumption.
  Qed.
End Joined.

(** * Query histories *)
Section P.
  Variable num : bstr -> nat.
  Variable sym : nat -> bstr.
  Hypothesis sym_num : forall x, sym (num x) = x.
  Variable T : rules.
  Hypothesis OK : okT T.
  Hypothesis FT : fitT T.
  Let num_inj := num_inj num sym sym_num.

  Lemma get_den r s k r' set : inv num T r -> get_transitions num r s k = Ok (r', set) -> exists p, den r s = Some p.
  Proof.
    intros I G. destruct T as [g|T1 T2], r as [c sy|d r1 r2]; try contradiction; cbn [get_transitions] in G.
    - unfold fst_transitions in G. destruct (nth_error (c_maps c) s) eqn:E; [|discriminate]. exists (At s). cbn [den].
      destruct (Nat.ltb_spec s (length (c_maps c))); [reflexivity|]. apply nth_error_None in H. congruence.
    - destruct (nth_error (p_pairs d) s) as [[q1 q2]|] eqn:E; [|discriminate]. destruct I as (_ & _ & (_ & _ & _ & D) & _).
      destruct (D q1 q2 (nth_error_In _ _ E)) as [D1 D2]. cbn [den]. rewrite E. destruct (den r1 q1); [|congruence]. destruct (den r2 q2); [|congruence]. eauto.
  Qed.
  Lemma query_keeps r s x r' set : inv num T r -> get_transitions num r s (num x) = Ok (r', set) -> inv num T r' /\ ext r r'
    /\ forall p, den r s = Some p -> set_ok num T r' p x set.
  Proof.
    intros I G. destruct (get_den _ _ _ _ _ I G) as (p & D).
    destruct (get_spec num sym sym_num T OK FT r s p x I D) as (r1 & set1 & G1 & I1 & E1 & S1). rewrite G in G1. injection G1 as <- <-.
    split; [exact I1|]. split; [exact E1|]. intros p' D'. rewrite D in D'. injection D' as <-. exact S1.
  Qed.
  Lemma queried_keeps r r' : queried num r r' -> inv num T r -> inv num T r' /\ ext r r'.
  Proof.
    induction 1 as [r|r s x r1 set r2 G Q IH]; intros I; [split; [exact I|apply ext_refl]|].
    destruct (query_keeps _ _ _ _ _ I G) as (I1 & E1 & _). destruct (IH I1) as [I2 E2]. split; [exact I2|eapply ext_trans; eassumption].
  Qed.
  Lemma walks_sound r s l v r' u : walks num r s l v r' u -> inv num T r -> forall p, den r s = Some p ->
    exists p', inv num T r' /\ ext r r' /\ den r' u = Some p' /\ follows T p l v p'.
  Proof.
    induction 1 as [r s|r s x y r1 set t l v r2 u G Ht Hy W IH|r r1 s l v r2 u Q W IH]; intros I p D.
    - exists p. split; [exact I|]. split; [apply ext_refl|]. split; [exact D|constructor].
    - destruct (query_keeps _ _ _ _ _ I G) as (I1 & E1 & S1). destruct (S1 p D) as (_ & A & _).
      destruct (A t Ht) as (z & p' & R & _ & O & Dt). rewrite Hy in O. apply num_inj in O. subst z.
      destruct (IH I1 p' Dt) as (p2 & I2 & E2 & D2 & F). exists p2. split; [exact I2|]. split; [eapply ext_trans; eassumption|]. split; [exact D2|].
      econstructor; eassumption.
    - destruct (queried_keeps _ _ Q I) as [I1 E1]. destruct (IH I1 p (E1 _ _ D)) as (p2 & I2 & E2 & D2 & F).
      exists p2. split; [exact I2|]. split; [eapply ext_trans; eassumption|]. auto.
  Qed.
  Lemma walks_complete l : forall p v p', follows T p l v p' -> forall r s, inv num T r -> den r s = Some p ->
    exists r' u, walks num r s l v r' u /\ inv num T r' /\ den r' u = Some p'.
  Proof.
    induction l as [|[x y] l IH]; intros p v p' F r s I D.
    - inversion F; subst. exists r, s. split; [constructor|]. auto.
    - inversion F as [|? ? ? w q ? v' ? R F']; subst. destruct (get_spec num sym sym_num T OK FT r s p x I D) as (r1 & set & G & I1 & E1 & (_ & _ & C)).
      destruct (C y w q R) as (s' & Hs & Ds). destruct (IH q v' p' F' r1 s' I1 Ds) as (r' & u & W & I' & D').
      exists r', u. split; [|auto]. exact (walks_step num r s x y r1 set (Trn (num x) (num y) w s') l v' r' u G Hs eq_refl W).
  Qed.
  Lemma object_accepts_iff r l w : queried num (rule_object num T) r -> object_accepts num r l w <-> rules_accept T l w.
  Proof.
    intros Q. destruct (build_inv num sym sym_num T OK) as [I0 D0]. destruct (queried_keeps _ _ Q I0) as [I E]. apply E in D0. split.
    - intros (r' & s & v & f & W & Ff & ->). destruct (walks_sound _ _ _ _ _ _ W I _ D0) as (p & I' & _ & D & F).
      rewrite (final_spec num T r' s p I' D) in Ff. injection Ff as Ff. exists p, v, f. auto.
    - intros (p & v & f & F & Ff & ->). destruct (walks_complete _ _ _ _ F r 0 I D0) as (r' & u & W & I' & D).
      exists r', u, v, f. split; [exact W|]. split; [rewrite (final_spec num T r' u p I' D), Ff; reflexivity|reflexivity].
  Qed.
  Lemma walks_safe r l v s x : walks num (rule_object num T) 0 l v r s ->
    (exists r2 set, get_transitions num r s (num x) = Ok (r2, set)) /\ exists f, rule_final_weight r s = Ok f.
  Proof.
    intros W. destruct (build_inv num sym sym_num T OK) as [I0 D0]. destruct (walks_sound _ _ _ _ _ _ W I0 _ D0) as (p & I' & _ & D & F). split.
    - destruct (get_spec num sym sym_num T OK FT r s p x I' D) as (r1 & set & G & _). eauto.
    - rewrite (final_spec num T r s p I' D). eauto.
  Qed.
  Theorem composition g r fuel eps : well_formed g -> identity_outputs g -> no_flags_in_pairs T -> queried num (rule_object num T) r ->
    length (sts g) * places T < fuel ->
    exists h, compose_with_rules num sym fuel (make_lexicon num g) eps r = Ok h /\ structure_ok h /\
      forall l w, accepts h l w <-> exists pl pr w1 w2, accepts g pl w1 /\ rules_accept T pr w2 /\ joined T pl pr l /\ w = (w1 + w2)%Z.
  Proof.
    intros WF IO NF Q Hf. destruct (build_inv num sym sym_num T OK) as [I0 D0]. destruct (queried_keeps _ _ Q I0) as [I E]. apply E in D0.
    destruct (compose_with_rules_spec num sym sym_num g T WF IO OK FT NF fuel eps r I D0 Hf) as (h & Eh & Sh & A).
    exists h. split; [exact Eh|]. split; [exact Sh|]. intros l w. rewrite A. apply composed_iff.
  Qed.
End P.
