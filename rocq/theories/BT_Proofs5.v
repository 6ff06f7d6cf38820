(** Lemmas behind BT_Props. *)
From Verif Require Import Base Flags_Model BT_Model BT_Spec BT_Proofs BT_Proofs2 BT_Proofs3 BT_Proofs4.
From Coq Require Import Permutation Sorted.

Lemma structure_empty : structure_ok empty_graph.
Proof. apply tree_empty. Qed.
Lemma al_empty : al_ok empty_graph.
Proof.
  split.
  - intros s a H. destruct s as [|[|s]]; destruct H.
  - unfold specials_ok. repeat split; vm_compute; tauto.
Qed.
Lemma structure_run_ops os : forall g g', structure_ok g -> run_ops g os = Ok g' -> structure_ok g'.
Proof.
  induction os as [|o os IH]; intros g g' H E; simpl in E; [injection E as <-; exact H|].
  destruct (run_op g o) as [g1| | |] eqn:E1; try discriminate. cbn [rbind] in E. eapply IH; [|exact E]. eapply structure_run_op; eassumption.
Qed.
Lemma map_ok_run_ops os : forall g g', map_ok g -> run_ops g os = Ok g' -> map_ok g'.
Proof.
  induction os as [|o os IH]; intros g g' H E; simpl in E; [injection E as <-; exact H|].
  destruct (run_op g o) as [g1| | |] eqn:E1; try discriminate. cbn [rbind] in E. eapply IH; [|exact E]. eapply map_ok_run_op; eassumption.
Qed.
Lemma al_run_ops os : forall g g', al_ok g -> safe_history g os -> run_ops g os = Ok g' -> al_ok g'.
Proof.
  induction os as [|o os IH]; intros g g' H S E; simpl in E; [injection E as <-; exact H|].
  destruct (run_op g o) as [g1| | |] eqn:E1; try discriminate. cbn [rbind] in E. inversion S as [|x y z S1 S2]; subst.
  eapply IH; [|apply S2; exact E1|exact E]. eapply al_run_op; eassumption.
Qed.

(** Substitution of a symbol *)
Lemma not_used_alpha g x : symbols_ok g -> smem bcmp x (alpha g) = false -> ~ used g x.
Proof. intros S E U. apply (proj1 (symbols_iff g) S) in U. apply (smem_In bcmp bcmp_eq) in U. congruence. Qed.
Lemma accepts_used g l w p : accepts g l w -> In p l -> used g (fst p) /\ used g (snd p).
Proof. intros (t & v & f & R & _) H. eapply run_used; eassumption. Qed.
Lemma map_id_in {A} (f : A -> A) l : (forall x, In x l -> f x = x) -> map f l = l.
Proof. induction l as [|x l IH]; intros H; simpl; [reflexivity|]. rewrite H by (left; reflexivity). f_equal. apply IH. intros y Hy. apply H. right; exact Hy. Qed.
Lemma replace_side_eqb (b : bool) x old new : (if b && bstr_eqb x old then new else x) = (if b then if bstr_eq_dec x old then new else x else x).
Proof. destruct b; simpl; [|reflexivity]. destruct (bstr_eqb_spec x old), (bstr_eq_dec x old); congruence. Qed.
Lemma substitute_symbol_accepts old new inp out g g' : symbols_ok g -> substitute_symbol old new inp out g = Ok g' ->
  forall l' w, accepts g' l' w <-> exists l, accepts g l w /\ l' = map (replace_on_sides old new inp out) l.
Proof.
  intros S E. unfold substitute_symbol in E. destruct (_ || _); [discriminate|].
  assert (Id : (forall x, used g x -> x = old -> new = old) -> forall l' w, accepts g l' w <-> exists l, accepts g l w /\ l' = map (replace_on_sides old new inp out) l).
  { intros K. assert (M : forall l w, accepts g l w -> map (replace_on_sides old new inp out) l = l).
    { intros l w A. apply map_id_in. intros [x y] Hp. apply (accepts_used _ _ _ _ A) in Hp. destruct Hp as [Ux Uy]. simpl in Ux, Uy.
      unfold replace_on_sides. cbn [fst snd].
      destruct inp, out; repeat (destruct (bstr_eq_dec _ _) as [->|]); try reflexivity;
        rewrite ?(K old Ux eq_refl), ?(K old Uy eq_refl); reflexivity. }
    intros l' w. split; [intros A; exists l'; rewrite (M _ _ A); auto|]. intros (l & A & ->). rewrite (M _ _ A). exact A. }
  destruct (bstr_eqb_spec old new) as [->|Ne]; [injection E as <-; apply Id; congruence|].
  destruct (smem bcmp old (alpha g)) eqn:Sm; cbn [negb] in E.
  - injection E as <-. apply accepts_relabelled; [destruct (existsb _ _), (_ && _); reflexivity|].
    intros s. cbn [sts with_sts]. rewrite nth_map_nil by reflexivity.
    match goal with |- map _ (nth s (sts ?x) []) = _ => assert (Es : sts x = sts g) by (destruct (existsb _ _), (_ && _); reflexivity); rewrite Es end.
    apply map_ext. intros a. unfold subst_symbol_arc, relabel, replace_on_sides, label. cbn [fst snd]. rewrite !replace_side_eqb. reflexivity.
  - injection E as <-. apply Id. intros x U ->. exfalso. exact (not_used_alpha _ _ S Sm U).
Qed.
Lemma substitute_symbols_accepts m g g' : substitute_symbols m g = Ok g' ->
  forall l' w, accepts g' l' w <-> exists l, accepts g l w /\ l' = map (fun p => (subst_map_symbol m (fst p), subst_map_symbol m (snd p))) l.
Proof.
  intros E. unfold substitute_symbols in E. destruct (existsb _ _); [discriminate|]. injection E as <-. destruct (add_symbols_sts g (flat_map (added_by_map m) (concat (sts g)))) as [Es Ef].
  apply accepts_relabelled; [exact Ef|]. intros s. cbn [sts with_sts]. rewrite nth_map_nil by reflexivity. rewrite Es. reflexivity.
Qed.
Lemma substitute_pairs_accepts m g g' : substitute_symbol_pairs m g = Ok g' ->
  forall l' w, accepts g' l' w <-> exists l, accepts g l w /\ l' = map (subst_map_pair m) l.
Proof.
  intros E. unfold substitute_symbol_pairs in E. destruct (existsb _ _); [discriminate|]. injection E as <-. destruct (add_symbols_sts g (flat_map (added_by_pairs m) (concat (sts g)))) as [Es Ef].
  apply accepts_relabelled; [exact Ef|]. intros s. cbn [sts with_sts]. rewrite nth_map_nil by reflexivity. rewrite Es. reflexivity.
Qed.
Lemma subst_set_arcs old new g g' : new <> [] -> substitute_pair_with_set old new g = Ok g' -> fin g' = fin g /\
  forall s a', In a' (nth s (sts g') []) <-> exists a q, In a (nth s (sts g) []) /\
     ((label a = old /\ In q new) \/ (label a <> old /\ q = label a)) /\ a' = relabel a q.
Proof.
  intros N E. unfold substitute_pair_with_set in E. destruct (_ || _); [discriminate|]. injection E as <-.
  unfold substitute_pair_set_. destruct new as [|q0 new]; [congruence|]. set (new' := q0 :: new) in *.
  match goal with |- context [prune_after ?x _] => set (g2 := x) end. destruct (prune_after_sts g2 [fst old; snd old]) as [Ep Fp]. rewrite Ep, Fp.
  assert (E2 : sts g2 = map (subst_set_state old new') (sts g) /\ fin g2 = fin g).
  { unfold g2. destruct (existsb _ _); [|auto]. destruct (add_pairs_sts (with_sts g (map (subst_set_state old new') (sts g))) new') as [-> ->]. auto. }
  destruct E2 as [-> ->]. split; [reflexivity|]. intros s a'. rewrite nth_map_nil by reflexivity. unfold subst_set_state, new'.
  rewrite in_app_iff, in_map_iff, in_flat_map. fold new'. split.
  - intros [(a & Ea & Ha)|(a & Ha & Ea)]; exists a; destruct (pair_eqb (label a) old) eqn:Ep0.
    + apply pair_eqb_eq in Ep0. exists q0. split; [exact Ha|]. split; [left; split; [exact Ep0|left; reflexivity]|congruence].
    + apply pair_eqb_neq in Ep0. exists (label a). split; [exact Ha|]. split; [right; auto|]. rewrite relabel_label. congruence.
    + apply pair_eqb_eq in Ep0. apply in_map_iff in Ea. destruct Ea as (q & <- & Hq). exists q. auto.
    + destruct Ea.
  - intros (a & q & Ha & [(El & Hq)|(El & ->)] & ->).
    + right. exists a. split; [exact Ha|]. rewrite (proj2 (pair_eqb_eq _ _) El). apply in_map. exact Hq.
    + left. exists a. split; [|exact Ha]. rewrite (proj2 (pair_eqb_neq _ _) El). symmetry. apply relabel_label.
Qed.
Lemma remove_loop_filter p : forall l, (forall l1 a b l2, l = l1 ++ a :: b :: l2 -> label a = p -> label b <> p) ->
  remove_loop p l = filter (fun a => negb (pair_eqb (label a) p)) l.
Proof.
  fix IH 1. intros [|a l] H; [reflexivity|]. cbn [remove_loop filter]. destruct (pair_eqb (label a) p) eqn:E; cbn [negb].
  - destruct l as [|b l]; [reflexivity|]. cbn [filter]. apply pair_eqb_eq in E.
    rewrite (proj2 (pair_eqb_neq (label b) p)) by (apply (H [] a b l eq_refl E)). cbn [negb]. f_equal. apply IH.
    intros l1 c d l2 -> Ec. apply (H (a :: b :: l1) c d l2 eq_refl Ec).
  - f_equal. apply IH. intros l1 c d l2 -> Ec. apply (H (a :: l1) c d l2 eq_refl Ec).
Qed.
Lemma run_filtered p g g' : (forall s a, In a (nth s (sts g') []) <-> In a (nth s (sts g) []) /\ label a <> p) ->
  forall s l w t, run g' s l w t <-> run g s l w t /\ ~ In p l.
Proof.
  intros A s l w t. split.
  - intros R. induction R as [s|s a l w t Ha R [IH1 IH2]]; [split; [constructor|tauto]|]. apply A in Ha. split; [constructor; tauto|].
    intros [K|K]; [apply (proj2 Ha); exact K|tauto].
  - intros [R N]. induction R as [s|s a l w t Ha R IH]; [constructor|]. constructor; [apply A; split; [exact Ha|]|apply IH]; intros K; apply N; [left|right]; exact K.
Qed.
Lemma substitute_func_arcs f g g' : substitute_func f g = Ok g' -> fin g' = fin g /\
  forall s a', In a' (nth s (sts g') []) <-> exists a q, In a (nth s (sts g) []) /\
     match f (label a) with None => q = label a | Some qs => In q qs end /\ a' = relabel a q.
Proof.
  intros E. unfold substitute_func in E. destruct (subst_func_states f (sts g)) as [[ls ps]| | |] eqn:E1; try discriminate.
  cbn [rmap] in E. injection E as <-. destruct (subst_func_states_spec _ _ _ _ E1) as (L & A & P).
  destruct (add_pairs_sts (with_sts g ls) ps) as [-> ->]. split; [reflexivity|]. intros s a'. cbn [sts with_sts]. rewrite A. split.
  - intros [[Ha Ef]|(b & qs & q & Hb & Ef & Hq & ->)].
    + exists a', (label a'). rewrite Ef, relabel_label. auto.
    + exists b, q. rewrite Ef. auto.
  - intros (a & q & Ha & Hq & ->). destruct (f (label a)) as [qs|] eqn:Ef.
    + right. exists a, qs, q. auto.
    + left. subst q. rewrite relabel_label. auto.
Qed.
Lemma replaced_none F l : (forall p, In p l -> F p = None) -> forall l' w, replaced_path F l l' w <-> l' = l /\ w = 0%Z.
Proof.
  intros H l' w. split.
  - intros R. induction R as [|q l l' w Eq R IH|q h m v l l' w Eq P R IH]; [auto| |].
    + destruct IH as [-> ->]; [intros p Hp; apply H; right; exact Hp|]. auto.
    + rewrite H in Eq by (left; reflexivity). discriminate.
  - intros [-> ->]. induction l as [|q l IH]; constructor; [apply H; left; reflexivity|]. apply IH. intros p Hp. apply H. right; exact Hp.
Qed.
Lemma unchanged_replaced F g : (forall p, used g (fst p) -> used g (snd p) -> F p = None) ->
  forall l' w, accepts g l' w <-> exists l v u, accepts g l v /\ replaced_path F l l' u /\ w = (v + u)%Z.
Proof.
  intros H l' w. split.
  - intros A. exists l', w, 0%Z. split; [exact A|]. split; [|lia]. apply replaced_none; [|auto]. intros p Hp. apply H; eapply accepts_used; eassumption.
  - intros (l & v & u & A & R & ->). apply replaced_none in R; [|intros p Hp; apply H; eapply accepts_used; eassumption].
    destruct R as [-> ->]. rewrite Z.add_0_r. exact A.
Qed.
Lemma substitute_graph_accepts_ok p h g : structure_ok g -> symbols_ok g -> map_ok h -> structure_ok h -> valid_pair p = true ->
  (forall s, length (matches p (arcs g s)) <= 1) ->
  exists g', substitute_graph p h g = Ok g' /\
    forall l' w, accepts g' l' w <-> exists l v u, accepts g l v /\ replaced_path (fun q => if pair_eqb q p then Some h else None) l l' u /\ w = (v + u)%Z.
Proof.
  intros G S Mh Sh V U. destruct (smem bcmp (fst p) (alpha g)) eqn:E1; [apply substitute_graph_accepts; auto|].
  destruct (smem bcmp (snd p) (alpha g)) eqn:E2; [apply substitute_graph_accepts; auto|].
  exists g. split.
  - unfold substitute_graph. rewrite V, E1, E2. reflexivity.
  - apply unchanged_replaced. intros q Uq _. rewrite (proj2 (pair_eqb_neq q p)); [reflexivity|]. intros ->. exact (not_used_alpha _ _ S E1 Uq).
Qed.
Lemma substitute_submap_accepts m g g' : structure_ok g -> symbols_ok g -> (forall x h, In (x, h) m -> map_ok h /\ structure_ok h) ->
  substitute_submap m g = Ok g' ->
  forall l' w, accepts g' l' w <-> exists l v u, accepts g l v /\ replaced_path (fun q => mget bcmp (fst q) m) l l' u /\ w = (v + u)%Z.
Proof.
  intros G S Hm E. unfold substitute_submap in E. destruct (existsb _ m); [discriminate|].
  destruct (existsb (fun e => smem bcmp (fst e) (alpha g)) m) eqn:Q; cbn [negb] in E.
  - destruct (negb (forallb _ _)) eqn:EF; [discriminate|]. injection E as <-.
    match goal with |- context [remove_symbols ?x ?y] => set (g1 := x); destruct (remove_symbols_sts g1 y) as [Es Ef]; set (g2 := remove_symbols g1 y) in * end.
    apply (accepts_substs (fun q => mget bcmp (fst q) m) (fun a => mget bcmp (isy a) m) g g2).
    + exact G.
    + rewrite Ef. reflexivity.
    + rewrite Es. apply map_length.
    + reflexivity.
    + intros a h _ Eh. apply (mget_In bcmp bcmp_eq) in Eh. exact (Hm _ _ Eh).
    + intros s a. unfold arcs at 1. rewrite Es. unfold g1. cbn [sts with_sts]. rewrite nth_map_nil by reflexivity. rewrite filter_In. fold (arcs g s).
      destruct (mget bcmp (isy a) m); split; intros [? ?]; split; auto; discriminate.
  - injection E as <-. apply unchanged_replaced. intros p U _. destruct (mget bcmp (fst p) m) as [h|] eqn:Eh; [|reflexivity]. exfalso.
    apply (mget_In bcmp bcmp_eq) in Eh. rewrite existsb_false in Q. apply Q in Eh. exact (not_used_alpha _ _ S Eh U).
Qed.
Lemma run_arcs_ext g g' : (forall s a, In a (nth s (sts g') []) <-> In a (nth s (sts g) [])) -> forall s l w t, run g' s l w t <-> run g s l w t.
Proof.
  intros E s l w t. split; intros R; induction R as [s|s a l w t Ha R IH]; try constructor; try exact IH; apply E; exact Ha.
Qed.
Lemma spliced_hrun g s1 s2 h : forall s l w t, spliced_run g s1 s2 h s l w t <-> hrun g [Subst s1 s2 0 h] s l w t.
Proof.
  intros s l w t. split.
  - intros R. induction R as [s|s a l w t Ha R IH|m v l w t P R IH].
    + constructor.
    + apply (hr_arc g _ s a); assumption.
    + replace (v + w)%Z with (0 + v + w)%Z by lia. apply (hr_sub g [Subst s1 s2 0 h] (Subst s1 s2 0 h)); [left; reflexivity|exact P|exact IH].
  - intros R. induction R as [s|s a l w t Ha R IH|y m v l w t [<-|[]] P R IH].
    + constructor.
    + apply (spl_arc g s1 s2 h s a); assumption.
    + cbn [s_origin s_weight s_target s_graph] in *. replace (0 + v + w)%Z with (v + w)%Z by lia. constructor; assumption.
Qed.
Lemma insert_transducer_run g s1 s2 h : structure_ok g -> map_ok h -> structure_ok h -> s1 < length (sts g) -> s2 < length (sts g) ->
  forall s l w t, s < length (sts g) -> t < length (sts g) -> (run (insert_transducer g s1 s2 h) s l w t <-> spliced_run g s1 s2 h s l w t).
Proof.
  intros G Mh Sh L1 L2 s l w t Hs Ht. rewrite spliced_hrun.
  rewrite <- (hrun_add_substitution g (Subst s1 s2 0 h) []); [|exact G|repeat split; auto; apply Sh|constructor|exact Hs|exact Ht].
  rewrite hrun_nil. apply run_arcs_ext. clear s l w t Hs Ht. intros t a. fold (arcs (insert_transducer g s1 s2 h) t). fold (arcs (add_substitution g (Subst s1 s2 0 h)) t).
  unfold insert_transducer, add_substitution, add_state. cbn [s_origin s_target s_weight s_graph]. rewrite arcs_add_transition.
  rewrite !arcs_leave_arcs, !arcs_copy_arcs, arcs_add_transition. destruct (Nat.eqb_spec t s1) as [->|N]; [|reflexivity]. rewrite !in_app_iff. tauto.
Qed.
Lemma fin_insert_transducer g s1 s2 h : fin (insert_transducer g s1 s2 h) = fin g.
Proof. unfold insert_transducer, add_state. rewrite fin_add_transition, fin_leave_arcs, fin_copy_arcs. reflexivity. Qed.

(** disjunct *)
Definition pairs_eq_dec (l l' : list (bstr * bstr)) : {l = l'} + {l <> l'}.
Proof. repeat decide equality. Defined.
Lemma disjuncts_accepts es : Forall (fun e => forallb valid_pair (fst e) = true) es ->
  forall g0 es0, tree g0 -> (forall l w, accepts g0 l w <-> min_weight es0 l w) ->
  exists g, disjuncts g0 es = Ok g /\ tree g /\ forall l w, accepts g l w <-> min_weight (es0 ++ es) l w.
Proof.
  induction es as [|[l0 w0] es IH]; intros V g0 es0 T A; cbn [disjuncts].
  - exists g0. rewrite app_nil_r. auto.
  - inversion V as [|x y V1 V2]; subst. cbn [fst] in V1. destruct (disjunct_accepts g0 l0 w0 T V1) as (g1 & E & T1 & B1 & B2). rewrite E. cbn [rbind].
    destruct (IH V2 g1 (es0 ++ [(l0, w0)]) T1) as (g & Eg & Tg & Ag).
    + intros l w. destruct (pairs_eq_dec l l0) as [->|N].
      * rewrite B2. split.
        -- intros [K1 K2].
           assert (D : (exists v, min_weight es0 l0 v) \/ forall v, ~ In (l0, v) es0).
           { clear. induction es0 as [|[l v] es0 IH]; [right; intros v []|].
             destruct IH as [(v' & I & M)|IH].
             - destruct (pairs_eq_dec l l0) as [->|N].
               + left. destruct (Z_lt_le_dec v v').
                 * exists v. split; [left; reflexivity|]. intros u [K|K]; [injection K as <-; lia|apply M in K; lia].
                 * exists v'. split; [right; exact I|]. intros u [K|K]; [injection K as <-; lia|apply M in K; lia].
               + left. exists v'. split; [right; exact I|]. intros u [K|K]; [congruence|apply M in K; lia].
             - destruct (pairs_eq_dec l l0) as [->|N].
               + left. exists v. split; [left; reflexivity|]. intros u [K|K]; [injection K as <-; lia|]. exfalso. exact (IH u K).
               + right. intros u [K|K]; [congruence|exact (IH u K)]. }
           destruct D as [(v & D)|D].
           ++ rewrite (K1 v) by (apply A; exact D). destruct D as [I M]. split.
              ** apply in_app_iff. destruct (Z.min_spec v w0) as [[_ ->]|[_ ->]]; [left; exact I|right; left; reflexivity].
              ** intros u Hu. apply in_app_iff in Hu. destruct Hu as [Hu|[Hu|[]]]; [apply M in Hu; lia|injection Hu as ->; lia].
           ++ rewrite K2 by (intros v Hv; apply A in Hv; exact (D v (proj1 Hv))). split; [apply in_app_iff; right; left; reflexivity|].
              intros u Hu. apply in_app_iff in Hu. destruct Hu as [Hu|[Hu|[]]]; [exfalso; exact (D u Hu)|injection Hu as ->; lia].
        -- intros [I M]. assert (Mw : (w <= w0)%Z) by (apply M; apply in_app_iff; right; left; reflexivity). split.
           ++ intros v Hv. apply A in Hv. destruct Hv as [Iv Mv]. assert (w <= v)%Z by (apply M; apply in_app_iff; left; exact Iv).
              apply in_app_iff in I. destruct I as [I|[I|[]]]; [apply Mv in I; lia|injection I as ->; lia].
           ++ intros K. apply in_app_iff in I. destruct I as [I|[I|[]]]; [|injection I as ->; reflexivity]. exfalso. apply (K w). apply A. split; [exact I|].
              intros u Hu. apply M. apply in_app_iff. left. exact Hu.
      * rewrite (B1 l w N), A. unfold min_weight. split; intros [I M]; split.
        -- apply in_app_iff; left; exact I.
        -- intros v Hv. apply M. apply in_app_iff in Hv. destruct Hv as [Hv|[Hv|[]]]; [exact Hv|congruence].
        -- apply in_app_iff in I. destruct I as [I|[I|[]]]; [exact I|congruence].
        -- intros v Hv. apply M. apply in_app_iff. left; exact Hv.
    + exists g. split; [exact Eg|]. split; [exact Tg|]. intros l w. rewrite Ag, <- app_assoc. reflexivity.
Qed.
Lemma tree_paths_unique g : tree g -> forall as1 as2 s t1 t2, path g s as1 t1 -> path g s as2 t2 -> map label as1 = map label as2 -> as1 = as2.
Proof.
  intros T. induction as1 as [|a as1 IH]; intros [|b as2] s t1 t2 P1 P2 E; try discriminate; [reflexivity|]. cbn [map] in E. injection E as El Eo Er.
  inversion P1 as [|? ? ? ? Ha Q1]; subst. inversion P2 as [|? ? ? ? Hb Q2]; subst.
  assert (a = b) by (apply (proj1 (proj2 (proj2 (proj2 T))) s a b Ha Hb); unfold label; congruence). subst b. f_equal. eapply IH; eassumption.
Qed.
