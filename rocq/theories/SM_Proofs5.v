(** Hopcroft's algorithm as a whole; the number of nodes of a minimal transducer. *)
From Verif Require Import Base SF_Spec SF_Model SF_Proofs SF_Proofs2 SF_Proofs3 SF_Proofs5 SF_Proofs6 SF_Proofs7 SF_Proofs8 SM_Model SM_Proofs SM_Proofs2 SM_Proofs3 SM_Proofs4.

(** The copy has only nodes that can be reached. *)
Lemma copy_full b t : trans_ok t -> exists r, copy b t = Ok r /\ forall n, n < length (nodes r) -> reachable (nodes r) 0 n.
Proof.
  intros T. destruct T as (G & _). unfold copy. set (h := nodes t) in *.
  destruct (copy_root_built h b G) as (v & g & m & E & HB & H0 & Hv).
  destruct (visit Nat.eqb (out_of h) (copy_enter_root h) nothing nothing3 (copy_after b) (S (length h)) 0 ([], Ok ([fresh], [(0, 0)]))) as [[v' s]| | |]; try discriminate.
  cbn [rbind snd] in *. subst s. cbn [rmap]. eexists. split; [reflexivity|]. cbn [nodes]. intros n Hn.
  destruct (b_surj _ _ _ _ _ _ _ _ HB n (Nat.le_0_l n) Hn) as (x & Hx). destruct (b_range _ _ _ _ _ _ _ _ HB _ _ Hx) as (Vx & _). apply Hv in Vx.
  assert (Vx' : kreach (fun x => map (recoded b) (out (node_at h x))) 0 x) by (apply kreach_map, kreach_reachable, Vx).
  destruct (built_reach_back _ _ _ _ _ _ _ _ HB _ _ 0 Vx' H0) as (i & Hi & Ri). rewrite Hx in Hi. injection Hi as <-. exact Ri.
Qed.
Lemma copy_flags b t t' : nodes t' = nodes t -> copy b t' = rmap (fun r => Trans (nodes r) (det t') (mini t') (insert_labels (map (recode_label b) (labels t')) [])) (copy b t).
Proof.
  intros E. unfold copy. rewrite E. destruct (visit _ _ _ _ _ _ _ _ _) as [[v s]| | |]; cbn [rbind rmap]; try reflexivity. destruct s as [[g m]| | |]; reflexivity.
Qed.

Definition trim (h : list node) : Prop := forall n l t, reachable h 0 n -> In (l, t) (out (node_at h n)) -> exists w, reads h t w.
Lemma trim_reads h : trim h -> (exists w, reads h 0 w) -> forall n, reachable h 0 n -> exists w, reads h n w.
Proof.
  intros T N n Hn. assert (Gen : forall a b, reachable h a b -> reachable h 0 a -> (exists w, reads h a w) -> exists w, reads h b w).
  { induction 1 as [a|a k m b Hi R IH]; intros Ra Na; [exact Na|]. apply IH; [exact (reachable_next h a k m Ra Hi)|exact (T a k m Ra Hi)]. }
  exact (Gen 0 n Hn (reach_here h 0) N).
Qed.
Definition accessible (h : list node) : Prop := forall n, n < length h -> reachable h 0 n.

Lemma minimiser_ok t : graph_ok (nodes t) -> deterministic (nodes t) -> trim (nodes t) -> ~ In (0, 0) (labels t) -> det t = true ->
  exists r, minimiser_result t = Ok r /\ graph_ok (nodes r) /\ minimal (nodes r) /\ accessible (nodes r) /\ det r = true /\ same_lang r t.
Proof.
  intros G D Tr Nl Dt. unfold minimiser_result. set (h := nodes t) in *.
  destruct (nodeindexing_result h G) as (ar & E & ND & HA). rewrite E. cbn [rbind]. set (arr := 0 :: ar) in *.
  assert (H0 : nth 0 arr 0 = 0) by reflexivity.
  destruct (Nat.eqb_spec (length arr) 1) as [E1|N1].
  - (* a single node *)
    assert (One : forall x, reachable h 0 x -> x = 0).
    { intros x Hx. apply HA in Hx. unfold arr in *. destruct ar; [|cbn in E1; lia]. destruct Hx as [<-|[]]. reflexivity. }
    assert (T' : trans_ok (Trans h true true (labels t))).
    { split; [exact G|]. split; [intros _; exact D|]. split; [|exact Nl]. intros _. split; [exact D|]. split.
      - intros n m Hn Hm _. rewrite (One n Hn), (One m Hm). reflexivity.
      - exact Tr. }
    destruct (copy_correct false _ T') as (r & Er & Tr' & Lr & Dr & Mr & _). destruct (copy_full false _ T') as (r' & Er' & Ar). rewrite Er in Er'. injection Er' as <-.
    rewrite (copy_flags false (Trans h true true (labels t)) t eq_refl), Er. cbn [rmap]. eexists. split; [reflexivity|]. cbn [nodes det].
    split; [apply Tr'|]. split; [apply Tr'; exact Mr|]. split; [exact Ar|]. split; [exact Dt|].
    intros w. unfold lang in *. cbn [nodes]. rewrite Lr, map_id. reflexivity.
  - destruct (minimiser_started h arr G D ND HA) as (st & inc & Es & SO). rewrite Es. cbn [rbind].
    set (N := length arr) in *.
    destruct (Nat.eqb_spec (length (members (group_at st 0))) 0) as [Z|NZ].
    + (* nothing is final *)
      assert (NF : forall x, reachable h 0 x -> final (node_at h x) = false).
      { intros x Hx. apply HA in Hx. destruct (In_nth _ _ 0 Hx) as (i & Li & Ni). destruct (final (node_at h x)) eqn:F; [|reflexivity]. exfalso.
        assert (C : In i (members (group_at st 0))) by (apply (so_mem _ _ _ _ _ SO); split; [exact Li|]; unfold fst_grp, nd; rewrite Ni, F; reflexivity).
        destruct (members (group_at st 0)); [destruct C|discriminate]. }
      exists (new_trans true). split; [reflexivity|]. unfold new_trans. cbn [nodes det].
      assert (NO : forall n, out (node_at [fresh] n) = [] /\ eps (node_at [fresh] n) = [] /\ arcs (node_at [fresh] n) = [] /\ final (node_at [fresh] n) = false).
      { intros [|[|n]]; repeat split. }
      assert (R0 : forall n, reachable [fresh] 0 n -> n = 0).
      { intros n Hn. inversion Hn as [|? l k ? Hi]; subst; [reflexivity|]. destruct Hi. }
      split; [split; [discriminate|]; intros n _; destruct (NO n) as (-> & _ & -> & _); split; [intros ? ? []|intros ? []]|].
      split.
      { split; [intros n _; destruct (NO n) as (_ & -> & -> & _); split; [reflexivity|constructor]|]. split.
        - intros n m Hn Hm _. rewrite (R0 n Hn), (R0 m Hm). reflexivity.
        - intros n l k Hn Hi. rewrite (R0 n Hn) in Hi. destruct Hi. }
      split; [intros n Hn; cbn in Hn; assert (n = 0) by lia; subst; constructor|]. split; [reflexivity|].
      intros w. unfold lang. cbn [nodes]. fold h. split; intros R; exfalso.
      * inversion R as [? F|? ? ? ? Hi]; subst; [discriminate|destruct Hi].
      * assert (Z' : forall n w, reads h n w -> reachable h 0 n -> False).
        { induction 1 as [n F|n l k u Hi R' IH]; intros Hn; [rewrite (NF n Hn) in F; discriminate|]. apply IH. exact (reachable_next h n l k Hn Hi). }
        exact (Z' 0 w R (reach_here h 0)).
    + set (st1 := if length (members (group_at st 1)) =? 0 then MState (removelast (groups st)) (group_of st) (agenda_add 0 (length (members (group_at st 0))) (agenda st))
                  else MState (groups st) (group_of st) (agenda_add 1 (length (members (group_at st 1))) (agenda_add 0 (length (members (group_at st 0))) (agenda st)))).
      assert (Gof : forall s, gof st1 s = gof st s) by (intros s; unfold st1; destruct (_ =? 0); reflexivity).
      assert (Gat : forall g, g < length (groups st1) -> group_at st1 g = group_at st g).
      { intros g. unfold st1. destruct (_ =? 0); [|reflexivity]. unfold group_at. cbn [groups]. pose proof (so_groups _ _ _ _ _ SO) as L2.
        destruct (groups st) as [|g0 [|g1 [|? ?]]]; cbn in L2; try discriminate. cbn. intros Hg. assert (g = 0) by lia. subst. reflexivity. }
      assert (Len : (length (members (group_at st 1)) = 0 /\ length (groups st1) = 1) \/ (length (members (group_at st 1)) <> 0 /\ length (groups st1) = 2)).
      { unfold st1. pose proof (so_groups _ _ _ _ _ SO) as L2. destruct (Nat.eqb_spec (length (members (group_at st 1))) 0) as [Z|NZ1]; [left|right]; (split; [assumption|]); cbn [groups].
        - destruct (groups st) as [|g0 [|g1 [|? ?]]]; cbn in L2; try discriminate. reflexivity.
        - exact L2. }
      assert (Ag : map snd (agenda st1) = if length (members (group_at st 1)) =? 0 then [0] else [1; 0]).
      { unfold st1. pose proof (so_ag _ _ _ _ _ SO) as A. destruct (_ =? 0); cbn [agenda]; rewrite A; reflexivity. }
      assert (Cases : forall s, s < N -> gof st1 s < length (groups st1)).
      { intros s Hs. rewrite Gof, (so_val _ _ _ _ _ SO s Hs). destruct Len as [[Z L]|[_ L]]; rewrite L.
        - destruct (fst_grp_cases h arr s) as [C|C]; rewrite C; [lia|]. exfalso.
          assert (I : In s (members (group_at st 1))) by (apply (so_mem _ _ _ _ _ SO); auto). destruct (members (group_at st 1)); [destruct I|discriminate].
        - destruct (fst_grp_cases h arr s) as [C|C]; rewrite C; lia. }
      assert (Over : forall g, length (groups st1) <= g -> group_at st1 g = Group [] []) by (intros g Hg; apply group_at_over, Hg).
      assert (P1 : parts N whole st1).
      { constructor.
        - unfold st1. destruct (_ =? 0); apply (so_gof _ _ _ _ _ SO).
        - intros g s. destruct (Nat.lt_ge_cases g (length (groups st1))) as [Lg|Lg].
          + rewrite (Gat g Lg), (so_mem _ _ _ _ _ SO). split.
            * intros [Hs <-]. split; [exact Hs|]. rewrite Gof. split; [apply (so_val _ _ _ _ _ SO s Hs)|reflexivity].
            * intros (Hs & Hg & _). split; [exact Hs|]. rewrite Gof in Hg. rewrite <- (so_val _ _ _ _ _ SO s Hs). exact Hg.
          + rewrite (Over g Lg). cbn. split; [intros []|]. intros (Hs & <- & _). pose proof (Cases s Hs). lia.
        - intros g s. destruct (Nat.lt_ge_cases g (length (groups st1))) as [Lg|Lg].
          + rewrite (Gat g Lg), (so_news _ _ _ _ _ SO). cbn. split; [intros []|]. intros (_ & _ & C). discriminate.
          + rewrite (Over g Lg). cbn. split; [intros []|]. intros (_ & _ & C). discriminate.
        - intros g. destruct (Nat.lt_ge_cases g (length (groups st1))) as [Lg|Lg].
          + rewrite (Gat g Lg), (so_news _ _ _ _ _ SO). split; [apply (so_nd _ _ _ _ _ SO)|constructor].
          + rewrite (Over g Lg). split; constructor.
        - intros g Hg. left. rewrite (Gat g Hg). destruct Len as [[Z L]|[NZ1 L]]; rewrite L in Hg.
          + assert (g = 0) by lia. subst. intros C. rewrite C in NZ. apply NZ. reflexivity.
          + intros C. assert (g = 0 \/ g = 1) as [->| ->] by lia; rewrite C in *; [apply NZ|apply NZ1]; reflexivity. }
      set (eqv := fun s s' => forall w, reads h (nth s arr 0) w <-> reads h (nth s' arr 0) w).
      assert (Fin : forall s s', s < N -> s' < N -> eqv s s' -> final (nd h arr s) = final (nd h arr s')).
      { intros s s' Hs Hs' Q. specialize (Q []). rewrite !(det_reads_nil h) in Q by (try assumption; apply (nd_reach h arr HA); assumption).
        unfold nd. destruct (final (node_at h (nth s arr 0))); destruct (final (node_at h (nth s' arr 0))); try reflexivity; [symmetry|]; apply Q; reflexivity. }
      assert (Gd : good N (fun s => final (nd h arr s)) eqv st1).
      { split; [exact P1|]. split; [|split].
        - split; [rewrite Ag; destruct (_ =? 0); repeat constructor; cbn; lia|]. rewrite Ag. intros g.
          destruct Len as [[Z L]|[NZ1 L]]; rewrite L; [rewrite Z|rewrite (proj2 (Nat.eqb_neq _ _) NZ1)]; cbn; lia.
        - intros s s' Hs Hs' Q. rewrite !Gof, !(so_val _ _ _ _ _ SO) by assumption. unfold fst_grp. rewrite (Fin s s' Hs Hs' Q). reflexivity.
        - intros s s' Hs Hs'. rewrite !Gof, !(so_val _ _ _ _ _ SO) by assumption. unfold fst_grp.
          destruct (final (nd h arr s)); destruct (final (nd h arr s')); try reflexivity; discriminate. }
      assert (Hop : hop N (dl h arr) st1 whole []).
      { intros s s' a Hs Hs' _ Dg. left.
        assert (On : forall g, g < length (groups st1) -> on_agenda st1 g).
        { intros g Hg. rewrite Ag. destruct Len as [[Z L]|[NZ1 L]]; rewrite L in Hg; [rewrite Z|rewrite (proj2 (Nat.eqb_neq _ _) NZ1)]; cbn; lia. }
        destruct (dl h arr s a) as [x|] eqn:Ex.
        - exists (gof st1 x). split; [apply On, Cases; exact (dl_lt h arr G D ND HA s a x Hs Ex)|]. cbn [inC]. rewrite Nat.eqb_refl.
          destruct (dl h arr s' a) as [y|] eqn:Ey; cbn [inC]; [|discriminate]. destruct (Nat.eqb_spec (gof st1 y) (gof st1 x)) as [C|]; [|discriminate].
          exfalso. apply Dg. cbn. rewrite C. reflexivity.
        - destruct (dl h arr s' a) as [y|] eqn:Ey; cbn [inC]; [|exfalso; apply Dg; reflexivity]. exists (gof st1 y).
          split; [apply On, Cases; exact (dl_lt h arr G D ND HA s' a y Hs' Ey)|]. rewrite Nat.eqb_refl. discriminate. }
      assert (All_read : forall n, reachable h 0 n -> exists w, reads h n w).
      { apply (trim_reads h Tr).
        destruct (members (group_at st 0)) as [|f r] eqn:Em; [exfalso; apply NZ; reflexivity|].
        assert (If : In f (members (group_at st 0))) by (rewrite Em; left; reflexivity). apply (so_mem _ _ _ _ _ SO) in If. destruct If as [Lf Ff].
        assert (Rf : reads h (nth f arr 0) []) by (constructor; unfold fst_grp, nd in Ff; destruct (final (node_at h (nth f arr 0))); [reflexivity|discriminate]).
        assert (Back : forall n m, reachable h n m -> (exists w, reads h m w) -> exists w, reads h n w).
        { induction 1 as [n|n l k m Hj R IH]; [auto|]. intros Hm. destruct (IH Hm) as [w Hw]. exists (emit l w). econstructor; eauto. }
        exact (Back 0 (nth f arr 0) (nd_reach h arr HA f Lf) (ex_intro _ [] Rf)). }
      assert (Lag : length (agenda st1) <= 2).
      { rewrite <- (map_length snd), Ag. destruct (_ =? 0); cbn; lia. }
      destruct (refine_result N inc (dl h arr) (fun s => final (nd h arr s)) eqv) with (fuel := 2 * N + 2) (st := st1) (C := whole) as (st2 & E2 & (P2 & A2 & Co2 & Fi2) & S2); try assumption.
      * intros x s a Hx. rewrite (so_in _ _ _ _ _ SO x s a Hx). split; intros [Hs Hi]; (split; [exact Hs|]).
        -- apply (dl_out h arr G D ND HA s a x Hs). auto.
        -- apply (dl_out h arr G D ND HA s a x Hs) in Hi. tauto.
      * exact (so_ind _ _ _ _ _ SO).
      * exact (dl_lt h arr G D ND HA).
      * assert (Half : forall s s' a x, s < N -> s' < N -> eqv s s' -> dl h arr s a = Some x -> exists y, dl h arr s' a = Some y).
        { intros s s' a x Hs Hs' Q Ex. apply (dl_out h arr G D ND HA s a x Hs) in Ex. destruct Ex as [Lx Hi].
          destruct (nd_out h arr G D HA s Hs) as (Eo & _). rewrite Eo in Hi. 
          pose proof (All_read _ (nd_reach h arr HA x Lx)) as NE.
          destruct NE as [w Hw]. assert (R1 : reads h (nth s arr 0) (a :: w)) by (apply (det_reads_cons h _ a w G D (nd_reach h arr HA s Hs)); exists (nth x arr 0); auto).
          apply Q in R1. apply (det_reads_cons h _ a w G D (nd_reach h arr HA s' Hs')) in R1. destruct R1 as (y & Hy & _).
          assert (Hy' : In (a, y) (out (nd h arr s'))) by (unfold out; apply in_app_iff; right; exact Hy).
          destruct (nd_target h arr HA s' (a, y) Hs' Hy') as [y' Ey]. cbn [snd] in Ey. apply position_nth in Ey. destruct Ey as [Ly Ny]. rewrite <- Ny in Hy'.
          exists y'. apply (dl_out h arr G D ND HA s' a y' Hs'). auto. }
        intros s s' a Hs Hs' Q. destruct (dl h arr s a) as [x|] eqn:Ex.
        -- destruct (Half s s' a x Hs Hs' Q Ex) as [y Ey]. rewrite Ey. intros w.
           apply (dl_out h arr G D ND HA s a x Hs) in Ex. apply (dl_out h arr G D ND HA s' a y Hs') in Ey. destruct Ex as [Lx Hx], Ey as [Ly Hy].
           destruct (nd_out h arr G D HA s Hs) as (Eo & N2 & _). destruct (nd_out h arr G D HA s' Hs') as (Eo' & N2' & _). rewrite Eo in Hx. rewrite Eo' in Hy.
           assert (One : forall k u v, In (a, u) (arcs (nd h arr k)) -> In (a, v) (arcs (nd h arr k)) -> NoDup (map fst (arcs (nd h arr k))) -> u = v).
           { intros k u v H1 H2 H3. apply (In_target_node _ _ _ H3) in H1, H2. congruence. }
           split; intros R.
           ++ assert (R1 : reads h (nth s arr 0) (a :: w)) by (apply (det_reads_cons h _ a w G D (nd_reach h arr HA s Hs)); exists (nth x arr 0); auto).
              apply Q, (det_reads_cons h _ a w G D (nd_reach h arr HA s' Hs')) in R1. destruct R1 as (y' & Hy' & R1). rewrite (One s' _ _ Hy Hy' N2'). exact R1.
           ++ assert (R1 : reads h (nth s' arr 0) (a :: w)) by (apply (det_reads_cons h _ a w G D (nd_reach h arr HA s' Hs')); exists (nth y arr 0); auto).
              apply Q, (det_reads_cons h _ a w G D (nd_reach h arr HA s Hs)) in R1. destruct R1 as (y' & Hy' & R1). rewrite (One s _ _ Hx Hy' N2). exact R1.
        -- destruct (dl h arr s' a) as [y|] eqn:Ey; [|exact I].
           assert (Q' : eqv s' s) by (intros w; symmetry; apply Q). destruct (Half s' s a y Hs' Hs Q' Ey) as [x Ex']. congruence.
      * lia.
      * rewrite E2. cbn [rbind].
        destruct (built_right h arr G D ND HA H0 st2 P2 S2 Fi2) as (g & Eg & Lg & Gg & Dg & Rg & Sg & Ac). rewrite Eg. cbn [rmap]. eexists. split; [reflexivity|]. cbn [nodes det].
        split; [exact Gg|].
        assert (Rlt : forall n, reachable g 0 n -> n < length g) by (intros n Hn; exact (reachable_lt g 0 n Gg (graph_root g Gg) Hn)).
        split; [|split; [exact Ac|split; [reflexivity|]]].
        -- split; [intros n Hn; apply Dg, Rlt, Hn|]. split.
           ++ intros n m Hn Hm Q. destruct (Sg n (Rlt n Hn)) as (s & Hs & ->). destruct (Sg m (Rlt m Hm)) as (s' & Hs' & ->).
              f_equal. apply Co2; [exact Hs|exact Hs'|]. intros w. rewrite <- (proj2 (Rg s Hs)), <- (proj2 (Rg s' Hs')). apply Q.
           ++ intros n l k Hn Hi. destruct (Sg k (Rlt k (reachable_next g n l k Hn Hi))) as (s & Hs & ->).
              destruct (All_read (nth s arr 0) (nd_reach h arr HA s Hs)) as (w & C). exists w. apply (Rg s Hs), C.
        -- intros w. unfold lang. cbn [nodes]. fold h. assert (H00 : 0 < N) by (unfold N, arr; cbn; lia). pose proof (proj2 (Rg 0 H00) w) as R. rewrite number_root, H0 in R. exact R.
Qed.
