(** Properties C30, C31, C62, C63: lookup in basic transducers. *)
From Verif Require Import Base Flags_Model BT_Model BT_Spec BT_Proofs BT_Proofs3 An_Model An_Spec An_Proofs An_Proofs2 An_Props LK_Model LK_Spec LK_Proofs.

(** A recursion bound that is always enough. *)
Definition lookup_bound (g : graph) (cutoff : nat) (input : list bstr) : nat :=
  (length input + 1) * (cutoff * (length (sts g) + 1) + length (sts g) + 1).

Lemma heavy_iff lim w : too_heavy lim w = false <-> within (max_weight lim) w.
Proof. unfold too_heavy, within. destruct (max_weight lim); [apply Z.ltb_ge|tauto]. Qed.
Lemma ok_weights_light lim r : ok_weights lim 0 r <-> light (max_weight lim) r.
Proof.
  unfold ok_weights, light. destruct (max_weight lim) as [m|] eqn:E.
  - split; intros H r1 r2 Er; specialize (H r1 r2 Er); [apply heavy_iff in H; unfold within in H; rewrite E in H; exact H|apply heavy_iff; unfold within; rewrite E; exact H].
  - split; [auto|]. intros _ r1 r2 _. apply heavy_iff. unfold within. rewrite E. exact I.
Qed.
Lemma gen_answer g lim cutoff input e :
  gen g lim cutoff input 0 [] 0 (new_handler cutoff) e <->
  exists r, answer g input r (fst e) (snd e) /\ within (max_weight lim) (fst e) /\ light (max_weight lim) r /\ Forall (cycles_at_most cutoff) (segments 0 r).
Proof.
  split.
  - intros (r & t & fw & M & F & Ep & Ew & H & O). exists r. split; [exists t, fw; split; [exact M|]; split; [exact F|]; split; [exact Ep|rewrite Ew; lia]|].
    split; [apply heavy_iff; exact H|]. apply (okrun_iff g lim cutoff r [] 0 0 0 (Nat.le_0_l _)) in O. rewrite segs_fresh, ok_weights_light in O. tauto.
  - intros (r & (t & fw & M & F & Ep & Ew) & H & L & S). exists r, t, fw. split; [exact M|]. split; [exact F|]. split; [exact Ep|]. split; [rewrite Ew; lia|].
    split; [apply heavy_iff; exact H|]. apply (okrun_iff g lim cutoff r [] 0 0 0 (Nat.le_0_l _)). rewrite segs_fresh, ok_weights_light. tauto.
Qed.
Lemma lookup_spec g lim cutoff input fuel : structure_ok g -> lookup_bound g cutoff input < fuel ->
  exists res, lookup fuel g lim cutoff input = Ok res /\ post lim (gen g lim cutoff input 0 [] 0 (new_handler cutoff)) [] res.
Proof.
  intros G Hf. unfold lookup. apply (lookup_from_spec g G lim cutoff); [apply hinv_new|exact (n_pos g G)|].
  unfold pot. cbn [new_handler cycles epsilon_path length]. unfold lookup_bound in Hf. lia.
Qed.

(** C30 and C31: without limits on weight and number, lookup(s) returns, and its results
    are exactly the weights and symbol pairs of the accepting runs over s that close at
    most [cutoff] epsilon cycles between two consumed symbols. *)
Theorem C30_lookup_exact g cutoff input fuel : structure_ok g -> lookup_bound g cutoff input < fuel ->
  exists res, lookup fuel g (Limits None None) cutoff input = Ok res /\
    forall w ps, In (w, ps) res <-> exists r, answer g input r w ps /\ Forall (cycles_at_most cutoff) (segments 0 r).
Proof.
  intros G Hf. destruct (lookup_spec g (Limits None None) cutoff input fuel G Hf) as (res & E & (_ & _ & P3 & P4 & _)). exists res. split; [exact E|]. intros w ps. split.
  - intros H. destruct (P3 _ H) as [[]|K]. apply gen_answer in K. destruct K as (r & A & _ & _ & S). exists r. auto.
  - intros (r & A & S). apply (P4 eq_refl). apply gen_answer. exists r. split; [exact A|]. split; [exact I|]. split; [exact I|exact S].
Qed.
Print Assumptions C30_lookup_exact.
(** Soundness under any limits: every result is an accepted run over the input with its
    weight, within the weight limit. *)
Theorem C30_lookup_sound g lim cutoff input fuel res : structure_ok g -> lookup_bound g cutoff input < fuel ->
  lookup fuel g lim cutoff input = Ok res -> forall w ps, In (w, ps) res -> exists r, answer g input r w ps /\ within (max_weight lim) w.
Proof.
  intros G Hf E w ps H. destruct (lookup_spec g lim cutoff input fuel G Hf) as (res' & E' & (_ & _ & P3 & _)). rewrite E in E'. injection E' as <-.
  destruct (P3 _ H) as [[]|K]. apply gen_answer in K. destruct K as (r & A & W & _). exists r. auto.
Qed.
Print Assumptions C30_lookup_sound.

(** ** C31: what the limit on epsilon cycles means *)
(** Every non-empty state sequence has exactly one number of cycles. *)
Lemma walk_on_total : forall v p k, exists p' k', walk_on p k v p' k'.
Proof.
  induction v as [|t v IH]; intros p k; [exists p, k; constructor|]. pose proof (cut_after_spec t p) as H. destruct (cut_after t p) as [q|].
  - destruct H as (p1 & p2 & -> & -> & N). destruct (IH (p1 ++ [t]) (k + 1)) as (p' & k' & W). exists p', k'. apply wo_back; assumption.
  - destruct (IH (p ++ [t]) k) as (p' & k' & W). exists p', k'. apply wo_new; assumption.
Qed.
Lemma walk_on_fun p k v p1 k1 : walk_on p k v p1 k1 -> forall p2 k2, walk_on p k v p2 k2 -> p1 = p2 /\ k1 = k2.
Proof.
  induction 1 as [p k|p k t v p' k' N W IH|q1 t q2 k v p' k' N W IH]; intros p2 k2 W2.
  - inversion W2; subst. auto.
  - apply walk_on_inv in W2. destruct W2 as [(_ & W2)|(r1 & r2 & -> & _)]; [exact (IH _ _ W2)|]. exfalso. apply N, in_app_iff. right. left. reflexivity.
  - apply walk_on_inv in W2. destruct W2 as [(K & _)|(r1 & r2 & E & Nr & W2)]; [exfalso; apply K, in_app_iff; right; left; reflexivity|].
    pose proof (split_first _ _ _ _ _ E N Nr) as <-. exact (IH _ _ W2).
Qed.
Theorem C31_cycle_count_exists v : v <> [] -> exists p k, trail v p k /\ forall p' k', trail v p' k' -> p' = p /\ k' = k.
Proof.
  destruct v as [|s v]; [congruence|]. intros _. destruct (walk_on_total v [s] 0) as (p & k & W). exists p, k. split; [exact (walk_on_trail [s] [s] 0 v p k (tr_start s) W)|].
  intros p' k' T. apply trail_walk_on in T. destruct T as (s' & u & E & W'). injection E as <- <-. exact (walk_on_fun _ _ _ _ _ W' _ _ W).
Qed.
Print Assumptions C31_cycle_count_exists.
(** No cycle is counted exactly when no state is repeated, so acyclic epsilon paths are
    never cut, whatever the limit. *)
Lemma trail_nodup v : NoDup v -> v <> [] -> trail v v 0.
Proof.
  induction v as [|t v IH] using rev_ind; intros ND N; [congruence|]. destruct v as [|s v]; [apply tr_start|].
  assert (ND' : NoDup (s :: v)) by exact (NoDup_app_l _ _ ND). apply tr_new; [apply IH; [exact ND'|discriminate]|].
  apply NoDup_remove_2 in ND. rewrite app_nil_r in ND. exact ND.
Qed.
Theorem C31_no_cycle_iff v : v <> [] -> (cycles_at_most 0 v <-> NoDup v).
Proof.
  intros N. split.
  - intros (p & k & T & L). assert (K : forall v p k, trail v p k -> k = 0 -> v = p).
    { clear. induction 1 as [s|v p k t T IH Np|v p1 t p2 k T IH]; intros E; [reflexivity|rewrite (IH E); reflexivity|lia]. }
    rewrite (K _ _ _ T) by lia. exact (proj1 (proj2 (trail_nonempty _ _ _ T))).
  - intros ND. exists v, 0. split; [apply trail_nodup; assumption|lia].
Qed.
Print Assumptions C31_no_cycle_iff.
Theorem C31_acyclic_never_cut g cutoff input fuel r w ps : structure_ok g -> lookup_bound g cutoff input < fuel ->
  answer g input r w ps -> Forall (@NoDup nat) (segments 0 r) ->
  exists res, lookup fuel g (Limits None None) cutoff input = Ok res /\ In (w, ps) res.
Proof.
  intros G Hf A S. destruct (C30_lookup_exact g cutoff input fuel G Hf) as (res & E & R). exists res. split; [exact E|]. apply R. exists r. split; [exact A|].
  assert (NE : Forall (fun v : list nat => v <> []) (segments 0 r)).
  { clear. generalize 0 as s. induction r as [|[a [x|]] r IH]; intros s; simpl; [repeat constructor; discriminate|constructor; [discriminate|apply IH]|].
    specialize (IH (tgt a)). destruct (segments (tgt a) r); [repeat constructor; discriminate|]. inversion IH; subst. constructor; [discriminate|assumption]. }
  apply Forall_forall. intros v Hv. rewrite Forall_forall in S, NE. destruct (proj2 (C31_no_cycle_iff v (NE v Hv)) (S v Hv)) as (p & k & T & L). exists p, k. split; [exact T|lia].
Qed.
Print Assumptions C31_acyclic_never_cut.
(** With at most n cycles a stretch of epsilons is at most (n + 1) times the number of
    states long. *)
Theorem C31_stretch_bound n q v : cycles_at_most n v -> (forall x, In x v -> x < q) -> length v <= (n + 1) * q.
Proof.
  intros (p & k & T & L) B.
  assert (K : (forall x, In x p -> In x v) /\ length v <= length p + k * q).
  { clear L. induction T as [s|v p k t T IH N|v p1 t p2 k T IH].
    - split; [auto|simpl; lia].
    - destruct IH as [I1 I2]; [intros x Hx; apply B, in_app_iff; auto|]. split; [|rewrite !app_length; simpl; lia]. intros x Hx. apply in_app_iff in Hx. apply in_app_iff. destruct Hx; auto.
    - destruct IH as [I1 I2]; [intros x Hx; apply B, in_app_iff; auto|]. split.
      + intros x Hx. apply in_app_iff in Hx. apply in_app_iff. destruct Hx as [Hx|Hx]; [left; apply I1, in_app_iff; auto|auto].
      + pose proof (trail_nonempty _ _ _ T) as (_ & ND & _). pose proof (incl_bound _ q ND) as Bd. rewrite !app_length in *. cbn [length] in *.
        assert (length p1 + S (length p2) <= q) by (apply Bd; intros x Hx; apply B, in_app_iff; left; apply I1; exact Hx). lia. }
  destruct K as [K1 K2]. pose proof (trail_nonempty _ _ _ T) as (_ & ND & _).
  pose proof (incl_bound p q ND (fun x Hx => B x (K1 x Hx))) as K3. nia.
Qed.
Print Assumptions C31_stretch_bound.
(** C30, completeness without cycles: in a transducer without cycles of input-epsilon (or
    flag) transitions every accepted run over the input is returned, with any limit. *)
Lemma segment_path g s r input t : matches g s r input t -> forall v, In v (segments s r) -> forall v1 x v2 y v3, v = v1 ++ x :: v2 ++ y :: v3 ->
  exists c, c <> [] /\ path g x c y /\ Forall free_arc c.
Proof.
  assert (Head : forall r s input t, matches g s r input t -> forall v1 y v2, segments s r = (v1 ++ y :: v2) :: tl (segments s r) -> v1 <> [] ->
    exists c, c <> [] /\ path g s c y /\ Forall free_arc c).
  { clear. induction r as [|[a o] r IH]; intros s input t M v1 y v2 E N; simpl in E.
    - destruct v1 as [|z v1]; [congruence|]. injection E as _ E. destruct v1; discriminate.
    - destruct o as [x|].
      + injection E as E. destruct v1 as [|z [|? v1]]; try congruence; injection E as _ E; discriminate.
      + inversion M as [|? ? ? ? ? Ha Fa Hn M'|]; subst. destruct (segments_head (tgt a) r) as (u & us & Eu). rewrite Eu in E. cbn [tl] in E. injection E as E. destruct v1 as [|z v1]; [congruence|]. injection E as <- E.
        destruct v1 as [|z v1].
        * injection E as <- _. exists [a]. split; [discriminate|]. split; [constructor; [exact Ha|constructor]|]. constructor; [exact Fa|constructor].
        * injection E as <- E. destruct (IH (tgt a) input t M' (tgt a :: v1) y v2) as (c & Nc & P & F); [rewrite Eu; cbn [tl app]; rewrite E; reflexivity|discriminate|].
          exists (a :: c). split; [discriminate|]. split; [constructor; assumption|]. constructor; assumption. }
  intros M. induction M as [s|s a r input t Ha Fa Hn M IH|s a x r input t Ha Rx M IH]; intros v Hv v1 z v2 y v3 E.
  - simpl in Hv. destruct Hv as [<-|[]]. destruct v1 as [|? [|? ?]]; try discriminate. injection E as _ E. destruct v2; discriminate.
  - simpl in Hv. destruct (segments_head (tgt a) r) as (u & us & Eu). rewrite Eu in Hv, IH. destruct Hv as [<-|Hv].
    + destruct v1 as [|s' v1].
      * injection E as <- E. destruct (Head ((a, None) :: r) s input t (ma_free _ _ _ _ _ _ Ha Fa Hn M) (s :: v2) y v3) as (c & K); [|discriminate|exists c; exact K].
        simpl. rewrite Eu. cbn [tl app]. rewrite E. reflexivity.
      * injection E as <- E. exact (IH _ (or_introl eq_refl) _ _ _ _ _ E).
    + exact (IH _ (or_intror Hv) _ _ _ _ _ E).
  - simpl in Hv. destruct Hv as [<-|Hv]; [|exact (IH _ Hv _ _ _ _ _ E)]. destruct v1 as [|? [|? ?]]; try discriminate. injection E as _ E. destruct v2; discriminate.
Qed.
Theorem C30_complete_without_cycles g cutoff input fuel r w ps : structure_ok g -> lookup_bound g cutoff input < fuel ->
  (forall s c, ~ cycle free_arc g s c) -> answer g input r w ps ->
  exists res, lookup fuel g (Limits None None) cutoff input = Ok res /\ In (w, ps) res.
Proof.
  intros G Hf NC A. apply (C31_acyclic_never_cut g cutoff input fuel r); auto. apply Forall_forall. intros v Hv. destruct A as (t & fw & M & _).
  destruct (ListDec.NoDup_dec Nat.eq_dec v) as [D|D]; [exact D|exfalso]. apply not_NoDup_split in D. destruct D as (x & v1 & v2 & v3 & ->).
  destruct (segment_path g 0 r input t M _ Hv v1 x v2 x v3 eq_refl) as (c & N & P & F). apply (NC x c). split; [exact N|]. split; assumption.
Qed.
Print Assumptions C30_complete_without_cycles.

(** ** C62: the weight limit *)
(** With non-negative weights, lookup with a maximum weight returns exactly the results of
    at most that weight. *)
Theorem C62_max_weight_partial g cutoff input m fuel : structure_ok g -> lookup_bound g cutoff input < fuel ->
  (forall s a, In a (nth s (sts g) []) -> (0 <= wt a)%Z) -> (forall s w, mget Nat.compare s (fin g) = Some w -> (0 <= w)%Z) ->
  exists res, lookup fuel g (Limits (Some m) None) cutoff input = Ok res /\
    forall w ps, In (w, ps) res <-> (w <= m)%Z /\ exists r, answer g input r w ps /\ Forall (cycles_at_most cutoff) (segments 0 r).
Proof.
  intros G Hf Wa Wf. destruct (lookup_spec g (Limits (Some m) None) cutoff input fuel G Hf) as (res & E & (_ & _ & P3 & P4 & _)). exists res. split; [exact E|]. intros w ps. split.
  - intros H. destruct (P3 _ H) as [[]|K]. apply gen_answer in K. destruct K as (r & A & W & _ & S). split; [exact W|]. exists r. auto.
  - intros (W & r & A & S). apply (P4 eq_refl). apply gen_answer. exists r. split; [exact A|]. split; [exact W|]. split; [|exact S].
    cbn [fst snd] in A. destruct A as (t & fw & M & F & _ & Ew). cbn [max_weight light]. intros r1 r2 ->.
    assert (K : forall s r input t, matches g s r input t -> Forall (fun p => (0 <= wt (fst p))%Z) r).
    { clear - Wa. induction 1 as [s|s a r input t Ha Fa Hn M IH|s a x r input t Ha Rx M IH]; constructor; cbn [fst]; eauto. }
    apply K in M. apply Forall_app in M. destruct M as [_ M]. assert (K2 : (0 <= run_weight r2)%Z).
    { clear - M. induction M as [|p r Hp M IH]; [unfold run_weight; simpl; lia|]. rewrite run_weight_cons. lia. }
    unfold run_weight in *. rewrite map_app, path_weight_app in Ew. pose proof (Wf _ _ F). unfold step in *. lia.
Qed.
Print Assumptions C62_max_weight_partial.
(** With negative weights later on the path a result within the limit can be lost. *)
Definition neg_tail : graph :=
  Graph [[Arc 1 (B "a") (B "a") 5]; [Arc 2 (B "b") (B "b") (-4)]; []] [(2, 0%Z)] [B "@_EPSILON_SYMBOL_@"; B "@_IDENTITY_SYMBOL_@"; B "@_UNKNOWN_SYMBOL_@"; B "a"; B "b"].
Theorem C62_negative_weights_refuted :
  exists g input m w ps r, structure_ok g /\ answer g input r w ps /\ (w <= m)%Z /\ (forall s c, ~ cycle free_arc g s c) /\
    forall fuel cutoff res, lookup_bound g cutoff input < fuel -> lookup fuel g (Limits (Some m) None) cutoff input = Ok res -> ~ In (w, ps) res.
Proof.
  exists neg_tail, [B "a"; B "b"], 2%Z, 1%Z, [(B "a", B "a"); (B "b", B "b")], [(Arc 1 (B "a") (B "a") 5, Some (B "a")); (Arc 2 (B "b") (B "b") (-4), Some (B "b"))].
  assert (G : structure_ok neg_tail) by (apply small_structure; [reflexivity|discriminate]).
  split; [exact G|]. split; [|split; [lia|split]].
  - exists 2, 0%Z. split; [|split; [reflexivity|split; reflexivity]]. apply ma_read; [left; reflexivity|left; reflexivity|]. apply ma_read; [left; reflexivity|left; reflexivity|]. apply ma_nil.
  - intros s c (N & P & F). destruct c as [|a c]; [congruence|]. inversion P as [|? ? ? ? Ha _]; subst. inversion F as [|? ? Fa _]; subst. apply epsilon_like_iff in Fa.
    destruct s as [|[|[|s]]]; simpl in Ha; [destruct Ha as [<-|[]]|destruct Ha as [<-|[]]|destruct Ha|destruct s; destruct Ha]; discriminate.
  - intros fuel cutoff res Hf E H. destruct (lookup_spec neg_tail (Limits (Some 2%Z) None) cutoff [B "a"; B "b"] fuel G Hf) as (res' & E' & (_ & _ & P3 & _)).
    rewrite E in E'. injection E' as <-. destruct (P3 _ H) as [[]|K]. apply gen_answer in K. destruct K as (r & (t & fw & M & _) & _ & L & _).
    cbn [max_weight light] in L. inversion M as [|? a ? ? ? Ha Fa Hn M'|? a x ? ? ? Ha Rx M']; subst.
    + apply epsilon_like_iff in Fa. simpl in Ha. destruct Ha as [<-|[]]. discriminate.
    + simpl in Ha. destruct Ha as [<-|[]]. specialize (L [(Arc 1 (B "a") (B "a") 5, Some (B "a"))] r0 eq_refl). unfold run_weight in L. simpl in L. lia.
Qed.
Print Assumptions C62_negative_weights_refuted.

(** ** C63: the limit on the number of results *)
Theorem C63_max_number g mw cutoff input m fuel : structure_ok g -> lookup_bound g cutoff input < fuel ->
  exists res all, lookup fuel g (Limits mw (Some m)) cutoff input = Ok res /\ lookup fuel g (Limits mw None) cutoff input = Ok all /\
    length res <= m /\ incl res all /\ (length res < m -> incl all res).
Proof.
  intros G Hf. destruct (lookup_spec g (Limits mw (Some m)) cutoff input fuel G Hf) as (res & E & (_ & _ & P3 & P4 & P5)).
  destruct (lookup_spec g (Limits mw None) cutoff input fuel G Hf) as (all & Ea & (_ & _ & Q3 & Q4 & _)). exists res, all. split; [exact E|]. split; [exact Ea|].
  assert (K : forall e, gen g (Limits mw (Some m)) cutoff input 0 [] 0 (new_handler cutoff) e <-> gen g (Limits mw None) cutoff input 0 [] 0 (new_handler cutoff) e).
  { intros e. rewrite !gen_answer. cbn [max_weight]. tauto. }
  split; [apply (P5 m eq_refl); simpl; lia|]. split.
  - intros e He. destruct (P3 e He) as [[]|H]. apply (Q4 eq_refl), K. exact H.
  - intros L e He. destruct (Q3 e He) as [[]|H]. apply P4; [|apply K; exact H]. unfold enough. cbn [max_number]. apply Nat.leb_gt. exact L.
Qed.
Print Assumptions C63_max_number.

(** ** Witnesses *)
(** 0 -a:b-> 1, 1 -eps:x-> 1 (loop), 1 -id-> 2 final. *)
Definition lk_ex : graph :=
  Graph [[Arc 1 (B "a") (B "b") 1]; [Arc 1 (B "@_EPSILON_SYMBOL_@") (B "x") 2; Arc 2 (B "@_IDENTITY_SYMBOL_@") (B "@_IDENTITY_SYMBOL_@") 0]; []] [(2, 3%Z)]
        [B "@_EPSILON_SYMBOL_@"; B "@_IDENTITY_SYMBOL_@"; B "@_UNKNOWN_SYMBOL_@"; B "a"; B "b"; B "x"].
Example C30_witness :
  structure_ok lk_ex /\
  lookup 100 lk_ex (Limits None None) 1 [B "a"; B "q"] =
    Ok [(4%Z, [(B "a", B "b"); (B "q", B "q")]); (6%Z, [(B "a", B "b"); (B "@_EPSILON_SYMBOL_@", B "x"); (B "q", B "q")])] /\
  lookup 100 lk_ex (Limits None None) 1 [B "a"; B "b"] = Ok [] /\
  exists r, answer lk_ex [B "a"; B "q"] r 6 [(B "a", B "b"); (B "@_EPSILON_SYMBOL_@", B "x"); (B "q", B "q")] /\ Forall (cycles_at_most 1) (segments 0 r).
Proof.
  split; [apply small_structure; [reflexivity|discriminate]|]. split; [vm_compute; reflexivity|]. split; [vm_compute; reflexivity|].
  exists [(Arc 1 (B "a") (B "b") 1, Some (B "a")); (Arc 1 (B "@_EPSILON_SYMBOL_@") (B "x") 2, None); (Arc 2 (B "@_IDENTITY_SYMBOL_@") (B "@_IDENTITY_SYMBOL_@") 0, Some (B "q"))].
  split.
  - exists 2, 3%Z. split; [|split; [reflexivity|split; reflexivity]].
    apply ma_read; [left; reflexivity|left; reflexivity|]. apply ma_free; [left; reflexivity|left; reflexivity|intros x i E; injection E as <- <-; discriminate|].
    apply ma_read; [right; left; reflexivity|right; split; [right; reflexivity|]|apply ma_nil]. intros K. apply (smem_In bcmp bcmp_eq) in K. vm_compute in K. discriminate.
  - repeat constructor.
    + exists [0], 0. split; [apply tr_start|lia].
    + exists ([] ++ [1]), (0 + 1). split; [exact (tr_back [1] [] 1 [] 0 (tr_start 1))|lia].
    + exists [2], 0. split; [apply tr_start|lia].
Qed.
Example C31_witness : trail [0; 1; 2; 1; 2; 0] [0] 2 /\ ~ cycles_at_most 1 [0; 1; 2; 1; 2; 0].
Proof.
  assert (T : trail [0; 1; 2; 1; 2; 0] [0] 2).
  { apply (tr_back [0; 1; 2; 1; 2] [] 0 [1; 2] 1). apply (tr_new [0; 1; 2; 1] [0; 1] 1 2); [|simpl; intuition discriminate]. apply (tr_back [0; 1; 2] [0] 1 [2] 0).
    apply (tr_new [0; 1] [0; 1] 0 2); [|simpl; intuition discriminate]. apply (tr_new [0] [0] 0 1); [apply tr_start|simpl; intuition discriminate]. }
  split; [exact T|]. intros (p & k & T' & L). destruct (C31_cycle_count_exists [0; 1; 2; 1; 2; 0]) as (p0 & k0 & _ & U); [discriminate|].
  destruct (U _ _ T) as [_ E1]. destruct (U _ _ T') as [_ E2]. lia.
Qed.
Example C62_witness : lookup 100 lk_ex (Limits (Some 5%Z) None) 3 [B "a"; B "q"] = Ok [(4%Z, [(B "a", B "b"); (B "q", B "q")])].
Proof. vm_compute. reflexivity. Qed.
Example C63_witness : rmap (@length tlp) (lookup 100 lk_ex (Limits None (Some 2)) 5 [B "a"; B "q"]) = Ok 2 /\ rmap (@length tlp) (lookup 100 lk_ex (Limits None None) 5 [B "a"; B "q"]) = Ok 6.
Proof. split; vm_compute; reflexivity. Qed.
