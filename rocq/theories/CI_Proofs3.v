(** Proofs about compose-intersect: the composition of a lexicon with rules. *)
From Coq Require Import Sorted Permutation.
From Verif Require Import Base OrdMap Flags_Model BT_Model BT_Spec BT_Proofs BT_Proofs3 BT_Proofs4 BT_Proofs5 Isect_Model Isect_Proofs CI_Model CI_Spec CI_Proofs CI_Proofs2.

Lemma npcmp_refl p : npcmp p p = Eq. Proof. apply npcmp_eq. reflexivity. Qed.
Lemma length_mset_new {V} p (v : V) m : mget npcmp p m = None -> length (mset npcmp p v m) = S (length m).
Proof.
  induction m as [|[k w] m IH]; simpl; [reflexivity|]. destruct (npcmp p k) eqn:E; simpl; [discriminate|reflexivity|]. intros H. rewrite IH by exact H. reflexivity.
Qed.

(** * State-level composition *)
(** One step of the composition. *)
Inductive move (g : graph) (r : rules) : nat -> place -> bstr -> bstr -> Z -> nat -> place -> Prop :=
| move_lexicon s p a : In a (nth s (sts g) []) -> unseen r (osy a) ->
    move g r s p (isy a) (osy a) (wt a) (tgt a) p
| move_together s p a y w q : In a (nth s (sts g) []) -> ~ unseen r (osy a) -> reads r p (osy a) y w q ->
    move g r s p (isy a) y (wt a + w) (tgt a) q
| move_rules s p y w q : reads r p (B "@_EPSILON_SYMBOL_@") y w q ->
    move g r s p (B "@_EPSILON_SYMBOL_@") y w s q.
Inductive composed (g : graph) (r : rules) : nat -> place -> list (bstr * bstr) -> Z -> Prop :=
| composed_end s p f v : mget Nat.compare s (fin g) = Some f -> stops r p = Some v -> composed g r s p [] (f + v)
| composed_move s p i o w s' p' l v : move g r s p i o w s' p' -> composed g r s' p' l v ->
    composed g r s p ((i, o) :: l) (w + v).


Section P.
  Variable num : bstr -> nat.
  Variable sym : nat -> bstr.
  Hypothesis sym_num : forall x, sym (num x) = x.
  Let num_inj := num_inj num sym sym_num.

  Record item := Item { j_in : nat; j_out : nat; j_w : Z; j_to : nat * nat }.
  Fixpoint emits (origin : nat) (l : list item) (st : lstate) : res lstate :=
    match l with
    | [] => Ok st
    | j :: l => rbind (emit sym origin (j_in j) (j_out j) (j_w j) (j_to j) st) (emits origin l)
    end.
  Lemma emits_app origin l l' st : emits origin (l ++ l') st = rbind (emits origin l st) (emits origin l').
  Proof.
    revert st. induction l as [|j l IH]; intros st; simpl; [reflexivity|].
    destruct (emit _ _ _ _ _ _ _); simpl; auto.
  Qed.
  Lemma lexicon_skip_emits l q origin st : lexicon_skip sym l q origin st = emits origin (map (fun t => Item (t_in t) (t_out t) (t_w t) (t_to t, q)) l) st.
  Proof. revert st. induction l as [|t l IH]; intros st; simpl; [reflexivity|]. destruct (emit _ _ _ _ _ _ _); simpl; auto. Qed.
  Lemma rule_skip_emits l x origin st : rule_skip sym l x origin st = emits origin (map (fun t => Item (t_in t) (t_out t) (t_w t) (x, t_to t)) l) st.
  Proof. revert st. induction l as [|t l IH]; intros st; simpl; [reflexivity|]. destruct (emit _ _ _ _ _ _ _); simpl; auto. Qed.
  Lemma compose_one_emits t rs origin st : compose_one sym t rs origin st
    = emits origin (map (fun u => Item (t_in t) (t_out u) (t_w t + t_w u) (t_to t, t_to u)) rs) st.
  Proof. revert st. induction rs as [|u rs IH]; intros st; simpl; [reflexivity|]. destruct (emit _ _ _ _ _ _ _); simpl; auto. Qed.
  Lemma compose_emits ls rs origin st : compose sym ls rs origin st
    = emits origin (flat_map (fun t => map (fun u => Item (t_in t) (t_out u) (t_w t + t_w u) (t_to t, t_to u)) rs) ls) st.
  Proof.
    revert st. induction ls as [|t ls IH]; intros st; simpl; [reflexivity|]. rewrite emits_app, compose_one_emits.
    destruct (emits _ _ _); simpl; auto.
  Qed.

  (** The pairs of the composition; [l_agenda] aside. *)
  Definition linv (st : lstate) : Prop :=
    NoDup (l_pairs st)
    /\ (forall p s, mget npcmp p (l_map st) = Some s <-> nth_error (l_pairs st) s = Some p)
    /\ length (l_map st) = length (l_pairs st)
    /\ length (sts (l_result st)) = length (l_pairs st)
    /\ nth_error (l_pairs st) 0 = Some (0, 0)
    /\ (forall s, s < length (l_pairs st) -> smem Nat.compare s (l_eps st) = true)
    /\ fin (l_result st) = [].

  Lemma emit_spec origin j st : linv st -> origin < length (l_pairs st) ->
    exists st' t more, emit sym origin (j_in j) (j_out j) (j_w j) (j_to j) st = Ok st' /\ linv st'
      /\ l_pairs st' = l_pairs st ++ more /\ l_agenda st' = l_agenda st ++ seq (length (l_pairs st)) (length more)
      /\ nth_error (l_pairs st') t = Some (j_to j) /\ (forall p, In p more -> p = j_to j)
      /\ (forall u, arcs (l_result st') u = if u =? origin then arcs (l_result st) u ++ [Arc t (sym (j_in j)) (sym (j_out j)) (j_w j)] else arcs (l_result st) u).
  Proof.
    intros I Ho. pose proof I as (N & M & Lm & Lr & Z & Ep & F). unfold emit, lex_state.
    destruct (mget npcmp (j_to j) (l_map st)) as [t|] eqn:G.
    - cbn [rmap]. assert (Nt : nth_error (l_pairs st) t = Some (j_to j)) by (apply M, G).
      assert (Ht : t < length (l_pairs st)) by (apply nth_error_Some; congruence).
      eexists _, t, []. split; [reflexivity|]. cbn [l_map l_pairs l_agenda l_result l_eps]. split; [|].
      + split; [exact N|]. split; [exact M|]. split; [exact Lm|]. cbn [l_map l_pairs l_agenda l_result l_eps].
        split; [rewrite length_add_transition; cbn [tgt]; lia|]. split; [exact Z|]. split; [exact Ep|]. rewrite fin_add_transition. exact F.
      + simpl seq. rewrite !app_nil_r. split; [reflexivity|]. split; [reflexivity|]. split; [exact Nt|]. split; [intros p []|].
        intros u. rewrite arcs_add_transition. destruct (Nat.eqb_spec u origin) as [-> |]; reflexivity.
    - unfold map_state.
      assert (NZ : (fst (j_to j) =? 0) && (snd (j_to j) =? 0) = false).
      { apply not_true_iff_false. intros K. apply andb_true_iff in K. destruct K as [K1 K2]. apply Nat.eqb_eq in K1, K2.
        assert (E : j_to j = (0, 0)) by (destruct (j_to j); simpl in *; congruence). rewrite E in G. apply M in Z. congruence. }
      rewrite NZ. cbn [add_state]. rewrite Lr, Lm, Nat.eqb_refl. cbn [negb rmap]. set (n := length (l_pairs st)) in *.
      assert (X : ~ In (j_to j) (l_pairs st)). { intros H. apply In_nth_error in H. destruct H as (i & H). apply M in H. congruence. }
      set (ga := with_sts (l_result st) (sts (l_result st) ++ [[]])).
      assert (La : length (sts ga) = S n) by (unfold ga; cbn [sts with_sts]; rewrite app_length; simpl; lia).
      eexists _, n, [j_to j]. split; [reflexivity|]. cbn [l_map l_pairs l_agenda l_result l_eps]. split; [|].
      + split; [apply NoDup_snoc; assumption|]. cbn [l_map l_pairs l_agenda l_result l_eps]. split; [|split; [|split; [|split; [|split]]]].
        * intros p t. rewrite nth_error_snoc. fold n. destruct (npcmp p (j_to j)) eqn:Q.
          1: { apply npcmp_eq in Q. subst p. rewrite (mget_mset_same _ npcmp_eq). split.
               - intros K. injection K as <-. auto.
               - intros [K|[-> _]]; [|reflexivity]. apply M in K. congruence. }
          all: assert (Np : p <> j_to j) by (intros ->; rewrite npcmp_refl in Q; discriminate).
          all: rewrite (mget_mset_other _ npcmp_eq) by exact Np; rewrite M; split; [auto|intros [K|[_ K]]; [exact K|contradiction]].
        * rewrite length_mset_new by exact G. rewrite app_length. simpl. fold n. lia.
        * rewrite length_add_transition, app_length. cbn [tgt length]. fold n. fold ga. rewrite La. lia.
        * rewrite nth_error_app1 by (fold n; lia). exact Z.
        * intros s Hs. rewrite app_length in Hs. simpl in Hs. fold n in Hs. apply (smem_In _ Nat.compare_eq_iff), (In_sadd _ Nat.compare_eq_iff).
          destruct (Nat.eq_dec s n) as [-> |]; [auto|]. right. apply (smem_In _ Nat.compare_eq_iff), Ep. lia.
        * rewrite fin_add_transition. exact F.
      + split; [reflexivity|]. split; [reflexivity|]. split; [apply nth_error_snoc; auto|]. split; [intros p [<-|[]]; reflexivity|].
        intros u. rewrite arcs_add_transition. fold ga.
        assert (Aa : forall u, arcs ga u = arcs (l_result st) u) by (intros v; apply (arcs_add_state (l_result st) v)).
        rewrite !Aa. destruct (Nat.eqb_spec u origin) as [-> |]; reflexivity.
  Qed.

  Lemma emits_spec origin l : forall st, linv st -> origin < length (l_pairs st) ->
    exists st' news more, emits origin l st = Ok st' /\ linv st'
      /\ l_pairs st' = l_pairs st ++ more /\ l_agenda st' = l_agenda st ++ seq (length (l_pairs st)) (length more)
      /\ (forall p, In p more -> exists j, In j l /\ p = j_to j)
      /\ (forall u, arcs (l_result st') u = if u =? origin then arcs (l_result st) u ++ news else arcs (l_result st) u)
      /\ Forall2 (fun j a => isy a = sym (j_in j) /\ osy a = sym (j_out j) /\ wt a = j_w j /\ nth_error (l_pairs st') (tgt a) = Some (j_to j)) l news.
  Proof.
    induction l as [|j l IH]; intros st I Ho.
    - exists st, [], []. simpl. rewrite !app_nil_r. split; [reflexivity|]. split; [exact I|]. split; [reflexivity|]. split; [reflexivity|].
      split; [intros p []|]. split; [intros u; destruct (u =? origin); rewrite ?app_nil_r; reflexivity|constructor].
    - destruct (emit_spec origin j st I Ho) as (st1 & t & more & E & I1 & P1 & A1 & T1 & M1 & R1).
      destruct (IH st1 I1) as (st2 & news & more2 & E2 & I2 & P2 & A2 & M2 & R2 & F2). { rewrite P1, app_length. lia. }
      exists st2, (Arc t (sym (j_in j)) (sym (j_out j)) (j_w j) :: news), (more ++ more2). simpl. rewrite E. simpl.
      split; [exact E2|]. split; [exact I2|]. split; [rewrite P2, P1, app_assoc; reflexivity|].
      split; [rewrite A2, A1, P1, !app_length, seq_app, app_assoc; reflexivity|]. split; [|split].
      + intros p Hp. apply in_app_iff in Hp. destruct Hp as [Hp|Hp]; [exists j; auto|]. destruct (M2 p Hp) as (j' & Hj & ->). exists j'. auto.
      + intros u. rewrite R2, R1. destruct (u =? origin); [rewrite <- app_assoc|]; reflexivity.
      + constructor; [|exact F2]. cbn [isy osy wt tgt]. do 3 (split; [reflexivity|]). rewrite P2, nth_error_app1; [exact T1|].
        apply nth_error_Some. congruence.
  Qed.

  Section Lex.
    Variable g : graph.
    Variable T : rules.
    Hypothesis WF : well_formed g.
    Hypothesis NI : identity_outputs g.
    Hypothesis OK : okT T.
    Hypothesis FT : fitT T.
    Hypothesis NF : no_flags_in_pairs T.
    Let lex := make_cfst num false g.

    Lemma lex_maps x : x < length (sts g) -> exists m, nth_error (c_maps lex) x = Some m /\
      (forall k set t, In (k, set) m -> In t set -> exists a, In a (nth x (sts g) []) /\ k = num (osy a) /\ t = trn_of num a)
      /\ (forall a, In a (nth x (sts g) []) -> isy a <> IDN -> exists set, In (num (osy a), set) m /\ In (trn_of num a) set)
      /\ (forall k set, In (k, set) m -> exists y, k = num y).
    Proof.
      intros Hx. destruct (make_cfst_spec num sym sym_num false g) as (_ & L & C & _). fold lex in L, C.
      exists (nth x (c_maps lex) []). split; [apply nth_error_nth'; lia|]. specialize (C x Hx).
      destruct C as (KS & C1 & C2). set (m := nth x (c_maps lex) []) in *.
      assert (ND : NoDup (map fst m)).
      { unfold ksorted in KS. clear -KS. induction KS as [|k l S IH F]; [constructor|]. constructor; [|exact IH]. intros H.
        rewrite Forall_forall in F. apply F in H. unfold klt in H. rewrite Nat.compare_refl in H. discriminate. }
      assert (G : forall k set, In (k, set) m -> mget Nat.compare k m = Some set) by (intros k set H; apply (mget_sorted_In _ Nat.compare_eq_iff); assumption).
      split; [|split].
      - intros k set t H Ht. destruct (C1 k set (G _ _ H)) as (y & -> & _ & F). apply F in Ht. destruct Ht as (a & Ha & _ & <- & ->). exists a. auto.
      - intros a Ha Na. destruct (mget Nat.compare (num (osy a)) m) as [set|] eqn:E; [|destruct (C2 a Ha Na E)].
        exists set. split; [apply (mget_In _ Nat.compare_eq_iff), E|]. destruct (C1 _ _ E) as (y & K & _ & F). apply num_inj in K. subst y.
        apply F. exists a. split; [exact Ha|]. split; [exact Na|]. auto.
      - intros k set H. destruct (C1 k set (G _ _ H)) as (y & -> & _). exists y. reflexivity.
    Qed.

    Lemma no_read_identity T0 : okT T0 -> forall p y w q, ~ reads T0 p IDN y w q.
    Proof.
      induction T0 as [h|T1 IH1 T2 IH2]; intros O p y w q R.
      - destruct O as ((_ & _ & _ & _ & S3) & _). inversion R as [? ? a Ha Na E|? ? a ? Ha Ia Nx E|]; subst; [apply Na; assumption|apply Nx, S3].
      - destruct O as [O1 O2]. inversion R; subst. eapply IH1; eassumption.
    Qed.
    Lemma unseen_identity : ~ unseen T IDN.
    Proof. intros [H|[H _]]; vm_compute in H; discriminate. Qed.

    Definition skips (r : rule) (k : nat) : bool := (k =? num EPS) || (is_diacritic (sym k) && negb (known_symbol sym r k)).
    Lemma skips_spec r x : inv num T r -> skips r (num x) = true <-> unseen T x.
    Proof.
      intros I. unfold skips, unseen. rewrite orb_true_iff, andb_true_iff, negb_true_iff, Nat.eqb_eq, sym_num.
      assert (K : is_diacritic x = true -> (known_symbol sym r (num x) = false <-> ~ knows T x)).
      { intros D. destruct T as [h|T1 T2], r as [c sy|d r1 r2]; try contradiction.
        - destruct I as [_ ->]. cbn [known_symbol knows]. rewrite sym_num, <- not_true_iff_false.
          rewrite (smem_In _ bcmp_eq). reflexivity.
        - cbn [known_symbol]. split; [intros _; exact (NF x D)|reflexivity]. }
      split; (intros [H|[H1 H2]]; [left|right]).
      - apply num_inj in H. exact H. - split; [exact H1|]. apply K; assumption.
      - change (B "@_EPSILON_SYMBOL_@") with EPS in H. congruence. - split; [exact H1|]. apply K; assumption.
    Qed.

    Definition takes (r' : rule) (q : nat) (p : place) (m : list (nat * list trn)) (items : list item) : Prop :=
      (forall j, In j items -> exists y set t, In (num y, set) m /\ In t set /\ j_in j = t_in t /\ fst (j_to j) = t_to t /\
         (unseen T y /\ j_out j = t_out t /\ j_w j = t_w t /\ snd (j_to j) = q
          \/ ~ unseen T y /\ exists z v p', reads T p y z v p' /\ j_out j = num z /\ j_w j = (t_w t + v)%Z /\ den r' (snd (j_to j)) = Some p'))
      /\ (forall y set t, In (num y, set) m -> In t set -> unseen T y -> In (Item (t_in t) (t_out t) (t_w t) (t_to t, q)) items)
      /\ (forall y set t z v p', In (num y, set) m -> In t set -> ~ unseen T y -> reads T p y z v p' ->
            exists q', In (Item (t_in t) (num z) (t_w t + v) (t_to t, q')) items /\ den r' q' = Some p').
    Lemma compute_symbols_spec q p origin : forall m r, inv num T r -> den r q = Some p -> (forall k set, In (k, set) m -> exists y, k = num y) ->
      exists r' items, inv num T r' /\ ext r r' /\ (forall st, compute_symbols num sym m q origin true r st = rmap (pair r') (emits origin items st))
        /\ takes r' q p m items.
    Proof.
      induction m as [|[k set] m IH]; intros r I D K.
      - exists r, []. split; [exact I|]. split; [apply ext_refl|]. split; [reflexivity|]. split; [intros j []|]. split; [intros ? ? ? []|intros ? ? ? ? ? ? []].
      - destruct (K k set (or_introl eq_refl)) as (y & ->). assert (K' : forall k set, In (k, set) m -> exists y, k = num y) by (intros; eapply K; right; eassumption).
        destruct (skips r (num y)) eqn:S.
        + destruct (IH r I D K') as (r' & items & I' & E & C & T1 & T2 & T3). pose proof (proj1 (skips_spec r y I) S) as U.
          exists r', (map (fun t => Item (t_in t) (t_out t) (t_w t) (t_to t, q)) set ++ items). split; [exact I'|]. split; [exact E|]. split; [|split; [|split]].
          * intros st. rewrite emits_app. cbn [compute_symbols]. unfold skips in S. destruct (num y =? num EPS); cbn [orb] in S; [|rewrite S].
            all: rewrite lexicon_skip_emits; destruct (emits origin (map _ set) st); cbn [rbind rmap]; auto.
          * intros j Hj. apply in_app_iff in Hj. destruct Hj as [Hj|Hj].
            -- apply in_map_iff in Hj. destruct Hj as (t & <- & Ht). exists y, set, t. cbn [j_in j_out j_w j_to fst snd]. split; [left; reflexivity|]. auto 8.
            -- destruct (T1 j Hj) as (y' & set' & t & Hm & R). exists y', set', t. split; [right; exact Hm|exact R].
          * intros y' set' t [Hm|Hm] Ht U'; apply in_app_iff; [left|right; eauto].
            injection Hm as Ey <-. apply in_map_iff. exists t. auto.
          * intros y' set' t z v p' [Hm|Hm] Ht U' R.
            -- injection Hm as Ey <-. apply num_inj in Ey. subst y'. contradiction.
            -- destruct (T3 y' set' t z v p' Hm Ht U' R) as (q' & Hi & Dq). exists q'. split; [apply in_app_iff; auto|exact Dq].
        + assert (U : ~ unseen T y). { intros U. apply (skips_spec r y I) in U. congruence. }
          destruct (get_spec num sym sym_num T OK FT r q p y I D) as (r1 & rset & G & I1 & E1 & (_ & S1 & S2)).
          destruct (IH r1 I1 (E1 _ _ D) K') as (r' & items & I' & E & C & T1 & T2 & T3).
          exists r', (flat_map (fun t => map (fun u => Item (t_in t) (t_out u) (t_w t + t_w u) (t_to t, t_to u)) rset) set ++ items).
          split; [exact I'|]. split; [eapply ext_trans; eassumption|]. split; [|split; [|split]].
          * intros st. rewrite emits_app. cbn [compute_symbols]. unfold skips in S. apply orb_false_iff in S. destruct S as [-> ->].
            rewrite G. cbn [rbind]. rewrite compose_emits. destruct (emits origin (flat_map _ set) st); cbn [rbind rmap]; auto.
          * intros j Hj. apply in_app_iff in Hj. destruct Hj as [Hj|Hj].
            -- apply in_flat_map in Hj. destruct Hj as (t & Ht & Hj). apply in_map_iff in Hj. destruct Hj as (u & <- & Hu).
               destruct (S1 u Hu) as (z & p' & R & _ & O & Dq). exists y, set, t. cbn [j_in j_out j_w j_to fst snd].
               split; [left; reflexivity|]. split; [exact Ht|]. split; [reflexivity|]. split; [reflexivity|]. right. split; [exact U|].
               exists z, (t_w u), p'. auto.
            -- destruct (T1 j Hj) as (y' & set' & t & Hm & R). exists y', set', t. split; [right; exact Hm|exact R].
          * intros y' set' t [Hm|Hm] Ht U'; apply in_app_iff; [|right; eauto].
            injection Hm as Ey <-. apply num_inj in Ey. subst y'. contradiction.
          * intros y' set' t z v p' [Hm|Hm] Ht U' R.
            -- injection Hm as Ey <-. apply num_inj in Ey. subst y'. destruct (S2 z v p' R) as (q' & Hq & Dq). exists q'.
               split; [|exact (E _ _ Dq)]. apply in_app_iff. left. apply in_flat_map. exists t. split; [exact Ht|]. apply in_map_iff. exists (Trn (num y) (num z) v q'). auto.
            -- destruct (T3 y' set' t z v p' Hm Ht U' R) as (q' & Hi & Dq). exists q'. split; [apply in_app_iff; auto|exact Dq].
    Qed.

    Definition moves (r : rule) (x : nat) (p : place) (items : list item) : Prop :=
      (forall j, In j items -> exists p', den r (snd (j_to j)) = Some p' /\ move g T x p (sym (j_in j)) (sym (j_out j)) (j_w j) (fst (j_to j)) p')
      /\ (forall i o w x' p', move g T x p i o w x' p' -> exists j, In j items /\ sym (j_in j) = i /\ sym (j_out j) = o /\ j_w j = w
            /\ fst (j_to j) = x' /\ den r (snd (j_to j)) = Some p').
    Lemma unseen_dec r x : inv num T r -> unseen T x \/ ~ unseen T x.
    Proof. intros I. destruct (skips r (num x)) eqn:E; [left|right; intros U]; [apply (skips_spec r x I), E|apply (skips_spec r x I) in U; congruence]. Qed.
    Lemma compute_state_spec r st s x q p : inv num T r -> linv st -> nth_error (l_pairs st) s = Some (x, q) -> x < length (sts g) -> den r q = Some p ->
      exists r' items, inv num T r' /\ ext r r' /\ moves r' x p items
        /\ compute_state num sym lex s r st = rmap (pair r') (emits s items st).
    Proof.
      intros I L N Hx D. destruct (lex_maps x Hx) as (m & Em & M1 & M2 & M3).
      destruct (compute_symbols_spec q p s m r I D M3) as (r1 & items & I1 & E1 & C & T1 & T2 & T3).
      destruct (get_spec num sym sym_num T OK FT r1 q p EPS I1 (E1 _ _ D)) as (r2 & set & G & I2 & E2 & (_ & S1 & S2)).
      exists r2, (items ++ map (fun t => Item (t_in t) (t_out t) (t_w t) (x, t_to t)) set).
      split; [exact I2|]. split; [eapply ext_trans; eassumption|]. split; [split|].
      - intros j Hj. apply in_app_iff in Hj. destruct Hj as [Hj|Hj].
        + destruct (T1 j Hj) as (y & st0 & t & Hm & Ht & Ji & Jt & R). destruct (M1 _ _ _ Hm Ht) as (a & Ha & Ky & ->). apply num_inj in Ky.
          cbn [trn_of t_in t_out t_w t_to] in *. rewrite Ji, Jt, sym_num. subst y. destruct R as [(U & -> & -> & ->)|(U & z & v & p' & R & -> & -> & Dq)].
          * rewrite sym_num. exists p. split; [apply E2, E1, D|]. constructor; assumption.
          * rewrite sym_num. exists p'. split; [apply E2, Dq|]. econstructor; eassumption.
        + apply in_map_iff in Hj. destruct Hj as (t & <- & Ht). destruct (S1 t Ht) as (z & p' & R & Ti & To & Dq).
          cbn [j_in j_out j_w j_to fst snd]. rewrite Ti, To, !sym_num. exists p'. split; [exact Dq|]. apply (move_rules g T x p z (t_w t) p' R).
      - intros i o w x' p' Mv. inversion Mv as [? ? a Ha U|? ? a z v ? Ha U R|? ? z ? ? R]; subst.
        + assert (Na : isy a <> IDN). { intros K. apply (NI x a Ha) in K. rewrite K in U. exact (unseen_identity U). }
          destruct (M2 a Ha Na) as (st0 & Hm & Ht). pose proof (T2 _ _ _ Hm Ht U) as Hi. eexists. split; [apply in_app_iff; left; exact Hi|].
          cbn [j_in j_out j_w j_to fst snd trn_of t_in t_out t_w t_to]. rewrite !sym_num. do 4 (split; [reflexivity|]). apply E2, E1, D.
        + assert (Na : isy a <> IDN). { intros K. apply (NI x a Ha) in K. rewrite K in R. exact (no_read_identity T OK _ _ _ _ R). }
          destruct (M2 a Ha Na) as (st0 & Hm & Ht). destruct (T3 _ _ _ _ _ _ Hm Ht U R) as (q' & Hi & Dq).
          eexists. split; [apply in_app_iff; left; exact Hi|].
          cbn [j_in j_out j_w j_to fst snd trn_of t_in t_out t_w t_to]. rewrite !sym_num. do 4 (split; [reflexivity|]). apply E2, Dq.
        + destruct (S2 _ _ _ R) as (q' & Hq & Dq). eexists. split; [apply in_app_iff; right; apply in_map_iff; eexists; split; [reflexivity|exact Hq]|].
          cbn [j_in j_out j_w j_to fst snd trn_of t_in t_out t_w t_to]. rewrite !sym_num. do 4 (split; [reflexivity|]). exact Dq.
      - unfold compute_state. rewrite N, Em.
        assert (Al : smem Nat.compare s (l_eps st) = true). { destruct L as (_ & _ & _ & _ & _ & Ep & _). apply Ep. apply nth_error_Some. congruence. }
        rewrite Al, C, emits_app. destruct (emits s items st) as [st1| | |]; cbn [rbind rmap]; [|reflexivity|reflexivity|reflexivity].
        rewrite G. cbn [rbind]. rewrite rule_skip_emits. reflexivity.
    Qed.

    (** The loop *)
    Definition arcs_ok (r : rule) (pairs : list (nat * nat)) (l : list arc) (x : nat) (p : place) : Prop :=
      (forall a, In a l -> exists x' q' p', nth_error pairs (tgt a) = Some (x', q') /\ den r q' = Some p' /\ move g T x p (isy a) (osy a) (wt a) x' p')
      /\ (forall i o w x' p', move g T x p i o w x' p' -> exists a q', In a l /\ isy a = i /\ osy a = o /\ wt a = w
            /\ nth_error pairs (tgt a) = Some (x', q') /\ den r q' = Some p').
    Lemma arcs_ok_mono r r' pairs more l x p : ext r r' -> arcs_ok r pairs l x p -> arcs_ok r' (pairs ++ more) l x p.
    Proof.
      intros E [A C].
      assert (N : forall s v, nth_error pairs s = Some v -> nth_error (pairs ++ more) s = Some v).
      { intros s v H. rewrite nth_error_app1; [exact H|]. apply nth_error_Some. congruence. }
      split.
      - intros a Ha. destruct (A a Ha) as (x' & q' & p' & N1 & D & M). exists x', q', p'. auto.
      - intros i o w x' p' M. destruct (C i o w x' p' M) as (a & q' & Ha & H1 & H2 & H3 & H4 & H5). exists a, q'. auto 8.
    Qed.
    Definition sinv (n : nat) (r : rule) (st : lstate) : Prop :=
      inv num T r /\ linv st
      /\ (forall x q, In (x, q) (l_pairs st) -> x < length (sts g) /\ den r q <> None)
      /\ den r 0 = Some (start T)
      /\ n <= length (l_pairs st) /\ l_agenda st = seq n (length (l_pairs st) - n)
      /\ (forall s, n <= s -> arcs (l_result st) s = [])
      /\ (forall s x q p, s < n -> nth_error (l_pairs st) s = Some (x, q) -> den r q = Some p -> arcs_ok r (l_pairs st) (arcs (l_result st) s) x p).
    Lemma move_range x p i o w x' p' : x < length (sts g) -> move g T x p i o w x' p' -> x' < length (sts g).
    Proof. destruct WF as ((_ & W & _) & _). intros Hx M. inversion M; subst; eauto. Qed.
    Lemma pairs_bound n r st : sinv n r st -> length (l_pairs st) <= length (sts g) * places T.
    Proof.
      intros (I & (N & _) & V & _).
      replace (length (sts g) * places T) with (length (list_prod (seq 0 (length (sts g))) (seq 0 (places T)))) by (rewrite prod_length, !seq_length; reflexivity).
      apply NoDup_incl_length; [exact N|]. intros [x q] H. destruct (V x q H) as [Hx D]. apply in_prod; apply in_seq; [lia|].
      destruct (den r q) as [p|] eqn:E; [|congruence]. apply den_size in E. pose proof (size_bound num T r I). lia.
    Qed.
    Lemma Forall2_In_l {A B} (R : A -> B -> Prop) l l' x : Forall2 R l l' -> In x l -> exists y, In y l' /\ R x y.
    Proof. induction 1 as [|u v l l' H F IH]; intros []; [subst; exists v; simpl; auto|]. destruct (IH H0) as (y & Hy & Ry). exists y. simpl. auto. Qed.
    Lemma Forall2_In_r {A B} (R : A -> B -> Prop) l l' y : Forall2 R l l' -> In y l' -> exists x, In x l /\ R x y.
    Proof. induction 1 as [|u v l l' H F IH]; intros []; [subst; exists u; simpl; auto|]. destruct (IH H0) as (x & Hx & Rx). exists x. simpl. auto. Qed.

    Lemma loop_spec : forall fuel n r st, sinv n r st -> length (sts g) * places T < n + fuel ->
      exists r' st', composition_loop num sym fuel lex r st = Ok (r', st') /\ sinv (length (l_pairs st')) r' st'.
    Proof.
      induction fuel as [|fuel IH]; intros n r st S Hf.
      - exfalso. pose proof (pairs_bound _ _ _ S) as Pb. destruct S as (_ & _ & _ & _ & Ln & _). lia.
      - pose proof S as (I & L & V & D0 & Ln & Ag & Em & Ar). cbn [composition_loop].
        destruct (Nat.eq_dec n (length (l_pairs st))) as [En|Nn].
        + rewrite Ag. replace (length (l_pairs st) - n) with 0 by lia. cbn [seq]. exists r, st. split; [reflexivity|]. rewrite <- En. exact S.
        + assert (Hn : n < length (l_pairs st)) by lia.
          destruct (nth_error (l_pairs st) n) as [[x q]|] eqn:Nx; [|apply nth_error_None in Nx; lia].
          destruct (V x q (nth_error_In _ _ Nx)) as [Hx Dx]. destruct (den r q) as [p|] eqn:Dq; [|congruence].
          replace (length (l_pairs st) - n) with (Datatypes.S (length (l_pairs st) - Datatypes.S n)) in Ag by lia. cbn [seq] in Ag. rewrite Ag.
          set (st0 := Lstate (l_map st) (l_pairs st) (seq (Datatypes.S n) (length (l_pairs st) - Datatypes.S n)) (l_result st) (l_eps st)).
          assert (L0 : linv st0) by exact L.
          destruct (compute_state_spec r st0 n x q p I L0 Nx Hx Dq) as (r1 & items & I1 & E1 & (Mv1 & Mv2) & C).
          destruct (emits_spec n items st0 L0 Hn) as (st1 & news & more & Ee & L1 & P1 & A1 & M1 & R1 & F1).
          rewrite C, Ee. cbn [rmap rbind]. apply (IH (Datatypes.S n)); [|lia].
          change (l_pairs st0) with (l_pairs st) in P1, A1. change (l_result st0) with (l_result st) in R1. cbn [st0 l_agenda] in A1.
          split; [exact I1|]. split; [exact L1|]. split; [|split; [|split; [|split; [|split]]]].
          * intros x' q' H. rewrite P1 in H. apply in_app_iff in H. destruct H as [H|H].
            -- destruct (V x' q' H) as [Hx' Dx']. split; [exact Hx'|]. destruct (den r q') as [p'|] eqn:Dq'; [|congruence]. rewrite (E1 _ _ Dq'). discriminate.
            -- destruct (M1 _ H) as (j & Hj & Ej). destruct (Mv1 j Hj) as (p' & Dj & Mj). rewrite <- Ej in Dj, Mj. cbn [fst snd] in *. split; [|congruence].
               exact (move_range _ _ _ _ _ _ _ Hx Mj).
          * apply E1, D0.
          * rewrite P1, app_length. lia.
          * rewrite A1, P1, app_length. replace (length (l_pairs st) + length more - Datatypes.S n) with ((length (l_pairs st) - Datatypes.S n) + length more) by lia.
            rewrite seq_app. f_equal. f_equal. lia.
          * intros s Hs. rewrite R1. destruct (Nat.eqb_spec s n); [lia|]. apply Em. lia.
          * intros s x' q' p' Hs Nx' Dq'. rewrite P1 in Nx'. rewrite nth_error_app1 in Nx' by lia. rewrite R1, P1.
            destruct (V x' q' (nth_error_In _ _ Nx')) as [_ Dold]. destruct (den r q') as [po|] eqn:Do; [|congruence].
            rewrite (E1 _ _ Do) in Dq'. injection Dq' as ->.
            destruct (Nat.eqb_spec s n) as [-> |Ns].
            -- rewrite Nx in Nx'. injection Nx' as <- <-. rewrite Dq in Do. injection Do as <-. rewrite (Em n) by lia. simpl app.
               rewrite P1 in F1. split.
               ++ intros a Ha. destruct (Forall2_In_r _ _ _ _ F1 Ha) as (j & Hj & H1 & H2 & H3 & H4). destruct (Mv1 j Hj) as (p' & Dj & Mj).
                  exists (fst (j_to j)), (snd (j_to j)), p'. rewrite H1, H2, H3. split; [rewrite H4; destruct (j_to j); reflexivity|]. auto.
               ++ intros i o w x' p' Mj. destruct (Mv2 _ _ _ _ _ Mj) as (j & Hj & <- & <- & <- & <- & Dj).
                  destruct (Forall2_In_l _ _ _ _ F1 Hj) as (a & Ha & H1 & H2 & H3 & H4). exists a, (snd (j_to j)).
                  do 4 (split; [assumption|]). split; [rewrite H4; destruct (j_to j); reflexivity|exact Dj].
            -- apply (arcs_ok_mono r r1); [exact E1|]. apply (Ar s x' q'); [lia|exact Nx'|exact Do].
    Qed.

    (** Final weights *)
    Definition both_final (r : rule) (x q : nat) : option Z :=
      match finw g x, (match den r q with Some p => stops T p | None => None end) with Some a, Some b => Some (a + b)%Z | _, _ => None end.
    Lemma final_weights_spec r : inv num T r -> forall l s h, s + length l <= length (sts h) ->
      (forall x q, In (x, q) l -> x < length (sts g) /\ den r q <> None) ->
      exists h', final_weights lex r s l h = Ok h' /\ sts h' = sts h
        /\ (forall t, t < s -> finw h' t = finw h t)
        /\ (forall i x q, nth_error l i = Some (x, q) -> finw h' (s + i) = match both_final r x q with Some v => Some v | None => finw h (s + i) end)
        /\ (forall t, s + length l <= t -> finw h' t = finw h t).
    Proof.
      intros I. destruct (make_cfst_spec num sym sym_num false g) as (_ & L & _ & Fi & _). fold lex in L, Fi.
      induction l as [|[x q] l IH]; intros s h Hs V.
      - exists h. split; [reflexivity|]. split; [reflexivity|]. split; [reflexivity|]. split; [intros [|i] ? ? H; discriminate|reflexivity].
      - destruct (V x q (or_introl eq_refl)) as [Hx D]. destruct (den r q) as [p|] eqn:Dq; [|congruence]. cbn [final_weights].
        unfold fst_final_weight. destruct (Nat.leb_spec (length (c_maps lex)) x); [lia|]. rewrite (Fi x Hx). cbn [rbind].
        rewrite (final_spec num T r q p I Dq). cbn [rbind].
        assert (Bf : both_final r x q = match finw g x, stops T p with Some a, Some b => Some (a + b)%Z | _, _ => None end) by (unfold both_final; rewrite Dq; reflexivity).
        set (h1 := match finw g x with Some a => match stops T p with Some b => set_final_weight h s (a + b) | None => h end | None => h end).
        simpl in Hs.
        assert (H1 : sts h1 = sts h /\ finw h1 s = match both_final r x q with Some v => Some v | None => finw h s end /\ forall t, t <> s -> finw h1 t = finw h t).
        { unfold h1. rewrite Bf. destruct (finw g x); [destruct (stops T p)|]; auto. rewrite set_final_in_range by lia.
          split; [reflexivity|]. unfold finw. cbn [fin with_fin]. split; [apply (mget_mset_same _ Nat.compare_eq_iff)|].
          intros t Nt. apply (mget_mset_other _ Nat.compare_eq_iff), Nt. }
        destruct H1 as (H1 & H2 & H3).
        destruct (IH (Datatypes.S s) h1) as (h' & E & S' & A & Bi & C). { rewrite H1. lia. } { intros; apply V; right; assumption. }
        exists h'. split; [exact E|]. split; [congruence|]. split; [|split].
        + intros t Ht. rewrite A by lia. apply H3. lia.
        + intros [|i] x' q' H'; simpl in H'.
          * injection H' as <- <-. rewrite Nat.add_0_r. rewrite A by lia. exact H2.
          * replace (s + Datatypes.S i) with (Datatypes.S s + i) by lia. rewrite (Bi _ _ _ H'). destruct (both_final r x' q'); [reflexivity|]. apply H3. lia.
        + intros t Ht. simpl in Ht. rewrite C by lia. apply H3. lia.
    Qed.

    Theorem compose_with_rules_spec fuel eps r0 : inv num T r0 -> den r0 0 = Some (start T) -> length (sts g) * places T < fuel ->
      exists h, compose_with_rules num sym fuel lex eps r0 = Ok h /\
        structure_ok h /\ forall l w, accepts h l w <-> composed g T 0 (start T) l w.
    Proof.
      intros I0 D0 Hf. unfold compose_with_rules.
      unfold map_state. cbn [fst snd Nat.eqb andb l_map length negb rbind l_pairs l_agenda l_result l_eps app].
      set (st0 := Lstate (mset npcmp (0, 0) 0 []) [(0, 0)] [0] empty_graph (sadd Nat.compare 0 eps)).
      destruct WF as ((NE & ST & FN) & _).
      assert (S0 : sinv 0 r0 st0).
      { split; [exact I0|]. split; [|split; [|split; [|split; [|split; [|split]]]]].
        - split; [constructor; [intros []|constructor]|]. cbn [st0 l_map l_pairs l_agenda l_result l_eps]. split; [|split; [|split; [|split; [|split]]]]; try reflexivity.
          + intros p s. split.
            * intros H. apply (mget_In _ npcmp_eq) in H. destruct H as [H|[]]. injection H as <- <-. reflexivity.
            * intros H. destruct s as [|[|s]]; simpl in H; try discriminate. injection H as <-. reflexivity.
          + intros s Hs. simpl in Hs. replace s with 0 by lia. apply (smem_In _ Nat.compare_eq_iff), (In_sadd _ Nat.compare_eq_iff). auto.
        - intros x q [H|[]]. injection H as <- <-. split; [destruct (sts g); [congruence|simpl; lia]|congruence].
        - exact D0.
        - simpl. lia.
        - reflexivity.
        - intros s _. destruct s as [|[|s]]; reflexivity.
        - intros s x q p Hs. lia. }
      destruct (loop_spec fuel 0 _ _ S0) as (r & st & E & S). { lia. }
      rewrite E. cbn [rbind]. destruct S as (I & L & V & Dr & _ & _ & Em & Ar).
      destruct L as (_ & _ & _ & Lr & Z & _ & F).
      destruct (final_weights_spec r I (l_pairs st) 0 (l_result st)) as (h & Eh & Sh & _ & Fh & Fo). { lia. } { exact V. }
      exists h. split; [exact Eh|].
      assert (Fin : forall s x q p, nth_error (l_pairs st) s = Some (x, q) -> den r q = Some p ->
        mget Nat.compare s (fin h) = match finw g x, stops T p with Some a, Some b => Some (a + b)%Z | _, _ => None end).
      { intros s x q p N D. change (mget Nat.compare s (fin h)) with (finw h (0 + s)). rewrite (Fh s x q N). unfold both_final. rewrite D.
        rewrite (eq_refl : finw (l_result st) (0 + s) = mget Nat.compare (0 + s) (fin (l_result st))), F. cbn [mget]. destruct (finw g x); [|reflexivity]. destruct (stops T p); reflexivity. }
      assert (AR : forall s x q p, nth_error (l_pairs st) s = Some (x, q) -> den r q = Some p -> arcs_ok r (l_pairs st) (nth s (sts h) []) x p).
      { intros s x q p N D. rewrite Sh. apply (Ar s x q p); [apply nth_error_Some; congruence|exact N|exact D]. }
      split; [|].
      { split; [|split].
        - rewrite Sh. intros K. rewrite K in Lr. destruct (l_pairs st); [discriminate|discriminate].
        - intros s a Ha. rewrite Sh. destruct (nth_error (l_pairs st) s) as [[x q]|] eqn:N.
          + destruct (V x q (nth_error_In _ _ N)) as [_ D]. destruct (den r q) as [p|] eqn:Dq; [|congruence].
            destruct (AR s x q p N Dq) as [A _]. destruct (A a Ha) as (x' & q' & p' & Na & _). rewrite Lr. apply nth_error_Some. congruence.
          + apply nth_error_None in N. rewrite nth_overflow in Ha; [destruct Ha|]. rewrite Sh. lia.
        - intros s w H. rewrite Sh, Lr. destruct (Nat.lt_ge_cases s (length (l_pairs st))) as [K|K]; [exact K|].
          change (finw h s = Some w) in H. rewrite Fo in H by (simpl; exact K). unfold finw in H. rewrite F in H. discriminate. }
      intros l w. split.
      - intros (t & v & f & R & Ff & ->).
        assert (G : forall s l v t, run h s l v t -> mget Nat.compare t (fin h) = Some f -> forall x q p, nth_error (l_pairs st) s = Some (x, q) -> den r q = Some p ->
          composed g T x p l (v + f)).
        { clear R Ff l v t. intros s l v t R Ff. induction R as [s|s a l v t Ha R IH]; intros x q p N D.
          - rewrite (Fin s x q p N D) in Ff. unfold finw in Ff. destruct (mget Nat.compare x (fin g)) as [fa|] eqn:Fa; [|discriminate].
            destruct (stops T p) as [fb|] eqn:Fb; [|discriminate]. injection Ff as <-. rewrite Z.add_0_l. constructor; assumption.
          - destruct (AR s x q p N D) as [A _]. destruct (A a Ha) as (x' & q' & p' & Na & Dq & M).
            rewrite <- Z.add_assoc. eapply composed_move; [exact M|]. eapply IH; eassumption. }
        exact (G _ _ _ _ R Ff 0 0 (start T) Z Dr).
      - intros C.
        assert (G : forall x p l w, composed g T x p l w -> forall s q, nth_error (l_pairs st) s = Some (x, q) -> den r q = Some p ->
          exists t v f, run h s l v t /\ mget Nat.compare t (fin h) = Some f /\ w = (v + f)%Z).
        { clear C l w. intros x p l w C. induction C as [x p f v Hf' Hv|x p i o w x' p' l v M C IH]; intros s q N D.
          - exists s, 0%Z, (f + v)%Z. split; [constructor|]. split; [|lia]. rewrite (Fin s x q p N D). unfold finw. rewrite Hf', Hv. reflexivity.
          - destruct (AR s x q p N D) as [_ A]. destruct (A _ _ _ _ _ M) as (a & q' & Ha & <- & <- & <- & Na & Dq).
            destruct (IH _ _ Na Dq) as (t & v' & f & R & Ff & ->). exists t, (wt a + v')%Z, f. split; [constructor; assumption|]. split; [exact Ff|lia]. }
        exact (G _ _ _ _ C 0 0 Z Dr).
    Qed.
  End Lex.
End P.
