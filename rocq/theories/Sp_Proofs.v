(** Proofs about the spell checker: input, table walks, breadth-first search. *)
From Coq Require Import Permutation NArith.
From Verif Require Import Base OrdMap Flags_Model Flags_Spec Flags_Proofs BT_Model BT_Spec OLF_Model OLC_Model OLC_Spec OLL_Model OLL_Spec OLL_Proofs OLL_Proofs2 OLL_Proofs3 Sp_Model Sp_Spec.
From Verif Require Import Tok_Model Tok_Spec Tok_Proofs.

Lemma run_of_refine test q l : forall es, run_of test l = Ok es -> (forall e, In e es -> q e = true) -> run_of (fun e => test e && q e) l = Ok es.
Proof.
  induction l as [|e l IH]; intros es H Q; simpl in *; [discriminate|]. destruct (test e) eqn:T; [|injection H as <-; reflexivity].
  destruct (run_of test l) as [r| | |]; cbn [rmap rbind] in H; try discriminate. injection H as <-. rewrite (Q e (or_introl eq_refl)). cbn [andb].
  rewrite (IH r eq_refl); [reflexivity|]. intros e' H'. apply Q. right. exact H'.
Qed.
Lemma run_of_ext t1 t2 l : (forall e, t1 e = t2 e) -> run_of t1 l = run_of t2 l.
Proof. intros H. induction l as [|e l IH]; simpl; [reflexivity|]. rewrite H, IH. reflexivity. Qed.

Lemma Forall2_In_l {A B} (R : A -> B -> Prop) l l' x : Forall2 R l l' -> In x l -> exists y, In y l' /\ R x y.
Proof. induction 1 as [|u v l l' H F IH]; intros []; [subst; exists v; simpl; auto|]. destruct (IH H0) as (y & Hy & Ry). exists y. simpl. auto. Qed.
Lemma Forall2_In_r {A B} (R : A -> B -> Prop) l l' y : Forall2 R l l' -> In y l' -> exists x, In x l /\ R x y.
Proof. induction 1 as [|u v l l' H F IH]; intros []; [subst; exists u; simpl; auto|]. destruct (IH H0) as (x & Hx & Rx). exists x. simpl. auto. Qed.

(** * Breadth-first search *)
Section Bfs.
  Variables (N C : Type) (visit : N -> res (bool * list N)).
  Fixpoint bfs (fuel : nat) (q : list N) : res bool :=
    match q with
    | [] => Ok false
    | n :: q' => match fuel with
                 | O => Diverge
                 | S f => rbind (visit n) (fun '(b, cs) => if b then Ok true else bfs f (q' ++ cs))
                 end
    end.
  Variables (rel : N -> C -> Prop) (final : C -> Prop) (succ : C -> C -> Prop).
  Hypothesis V : forall n c, rel n c -> exists b cs, visit n = Ok (b, cs) /\ (b = true <-> final c)
    /\ (b = false -> (forall m, In m cs -> exists c', succ c c' /\ rel m c') /\ (forall c', succ c c' -> exists m, In m cs /\ rel m c')).
  Inductive accept : C -> Prop :=
  | ac_final c : final c -> accept c
  | ac_succ c c' : succ c c' -> accept c' -> accept c.
  Definition good (q : list N) : Prop := forall n, In n q -> exists c, rel n c.

  Lemma good_app q cs n c : good (n :: q) -> rel n c -> (forall m, In m cs -> exists c', succ c c' /\ rel m c') -> good (q ++ cs).
  Proof.
    intros G R K m Hm. apply in_app_or in Hm. destruct Hm as [Hm|Hm]; [apply G; right; exact Hm|]. destruct (K m Hm) as (c' & _ & H). eauto.
  Qed.
  Lemma accept_same c : accept c -> forall n c', rel n c -> rel n c' -> accept c'.
  Proof.
    induction 1 as [c F|c c1 Sc A IH]; intros n c' R R'; destruct (V n c R) as (b & cs & Ev & Fb & K), (V n c' R') as (b' & cs' & Ev' & Fb' & K'); rewrite Ev in Ev'; injection Ev' as <- <-.
    - apply ac_final, Fb', Fb, F.
    - destruct b; [apply ac_final, Fb'; reflexivity|]. destruct (proj2 (K eq_refl) c1 Sc) as (m & Hm & Rm).
      destruct (proj1 (K' eq_refl) m Hm) as (c2 & S2 & R2). exact (ac_succ c' c2 S2 (IH m c2 Rm R2)).
  Qed.
  Lemma bfs_correct fuel : forall q b, good q -> bfs fuel q = Ok b -> (b = true <-> exists n c, In n q /\ rel n c /\ accept c).
  Proof.
    induction fuel as [|f IH]; intros [|n q] b G E; simpl in E; try discriminate.
    - injection E as <-. split; [discriminate|intros (n & c & [] & _)].
    - injection E as <-. split; [discriminate|intros (n & c & [] & _)].
    - destruct (G n (or_introl eq_refl)) as (c & R). destruct (V n c R) as (b0 & cs & Ev & F & K). rewrite Ev in E. cbn [rbind] in E. destruct b0.
      + injection E as <-. split; [intros _|auto]. exists n, c. split; [left; reflexivity|]. split; [exact R|]. apply ac_final, F. reflexivity.
      + destruct (K eq_refl) as (K1 & K2). rewrite (IH _ _ (good_app q cs n c G R K1) E). split.
        * intros (m & c' & Hm & Rm & A). apply in_app_or in Hm. destruct Hm as [Hm|Hm]; [exists m, c'; split; [right; exact Hm|auto]|].
          exists n, c. split; [left; reflexivity|]. split; [exact R|]. destruct (K1 m Hm) as (c1 & S1 & R1). exact (ac_succ c c1 S1 (accept_same c' A m c1 Rm R1)).
        * intros (m & c' & [<- |Hm] & Rm & A); [|exists m, c'; split; [apply in_or_app; left; exact Hm|auto]].
          pose proof (accept_same c' A n c Rm R) as A'. inversion A' as [? Fc|? c2 S2 A2]; subst; [apply F in Fc; discriminate|].
          destruct (K2 c2 S2) as (m & Hm & Rm2). exists m, c2. split; [apply in_or_app; right; exact Hm|auto].
  Qed.

  (** Whatever is accepted is found, even if the search is infinite. *)
  Lemma bfs_found c : accept c -> forall p q n, good q -> nth_error q p = Some n -> rel n c -> exists fuel, bfs fuel q = Ok true.
  Proof.
    induction 1 as [c F|c c1 Sc A IH]; induction p as [|p IHp]; intros [|n0 q] n G E R; simpl in E; try discriminate.
    - injection E as ->. destruct (V n c R) as (b & cs & Ev & Fb & _). exists 1. simpl. rewrite Ev. cbn [rbind]. rewrite (proj2 Fb F). reflexivity.
    - destruct (G n0 (or_introl eq_refl)) as (c0 & R0). destruct (V n0 c0 R0) as (b & cs & Ev & _ & K). destruct b.
      + exists 1. simpl. rewrite Ev. reflexivity.
      + destruct (IHp (q ++ cs) n) as (f & Ef); [apply (good_app q cs n0 c0 G R0), (proj1 (K eq_refl))|rewrite nth_error_app1; [exact E|apply nth_error_Some; congruence]|exact R|].
        exists (S f). simpl. rewrite Ev. exact Ef.
    - injection E as ->. destruct (V n c R) as (b & cs & Ev & _ & K). destruct b.
      + exists 1. simpl. rewrite Ev. reflexivity.
      + destruct (K eq_refl) as (K1 & K2). destruct (K2 c1 Sc) as (m & Hm & Rm). apply In_nth_error in Hm. destruct Hm as (j & Ej).
        destruct (IH (length q + j) (q ++ cs) m) as (f & Ef); [exact (good_app q cs n c G R K1)|rewrite nth_error_app2 by lia; replace (length q + j - length q) with j by lia; exact Ej|exact Rm|].
        exists (S f). simpl. rewrite Ev. exact Ef.
    - destruct (G n0 (or_introl eq_refl)) as (c0 & R0). destruct (V n0 c0 R0) as (b & cs & Ev & _ & K). destruct b.
      + exists 1. simpl. rewrite Ev. reflexivity.
      + destruct (IHp (q ++ cs) n) as (f & Ef); [apply (good_app q cs n0 c0 G R0), (proj1 (K eq_refl))|rewrite nth_error_app1; [exact E|apply nth_error_Some; congruence]|exact R|].
        exists (S f). simpl. rewrite Ev. exact Ef.
  Qed.

  (** All chains of successors from [c] have at most [d] steps. *)
  Fixpoint low (d : nat) (c : C) : Prop :=
    match d with O => forall c', ~ succ c c' | S d' => forall c', succ c c' -> low d' c' end.
  Lemma bfs_ends d : forall q q2, (forall n, In n q -> exists c, rel n c /\ low d c) ->
    (match d with O => q2 = [] | S d' => forall n, In n q2 -> exists c, rel n c /\ low d' c end) -> exists fuel b, bfs fuel (q ++ q2) = Ok b.
  Proof.
    induction d as [|d IHd]; induction q as [|n q IHq]; intros q2 H H2.
    - subst q2. exists 0, false. reflexivity.
    - subst q2. destruct (H n (or_introl eq_refl)) as (c & R & L). destruct (V n c R) as (b & cs & Ev & _ & K). destruct b.
      + exists 1, true. simpl. rewrite Ev. reflexivity.
      + destruct (K eq_refl) as (K1 & _).
        assert (cs = []) as -> by (destruct cs as [|m cs]; [reflexivity|]; destruct (K1 m (or_introl eq_refl)) as (c' & S' & _); destruct (L c' S')).
        destruct (IHq []) as (f & b & E); [intros m Hm; apply H; right; exact Hm|reflexivity|]. exists (S f), b. simpl. rewrite Ev. cbn [rbind].
        rewrite !app_nil_r in *. exact E.
    - simpl. destruct (IHd q2 []) as (f & b & E); [exact H2| |].
      + destruct d; [reflexivity|intros n []].
      + rewrite app_nil_r in E. eauto.
    - destruct (H n (or_introl eq_refl)) as (c & R & L). destruct (V n c R) as (b & cs & Ev & _ & K). destruct b.
      + exists 1, true. simpl. rewrite Ev. reflexivity.
      + destruct (K eq_refl) as (K1 & _). destruct (IHq (q2 ++ cs)) as (f & b & E).
        * intros m Hm. apply H. right. exact Hm.
        * intros m Hm. apply in_app_or in Hm. destruct Hm as [Hm|Hm]; [apply H2, Hm|]. destruct (K1 m Hm) as (c' & S' & R'). exists c'. split; [exact R'|]. exact (L c' S').
        * exists (S f), b. simpl. rewrite Ev. cbn [rbind]. rewrite <- app_assoc. exact E.
  Qed.
  Lemma low_more d : forall c k, low d c -> low (d + k) c.
  Proof.
    induction d as [|d IH]; intros c k L; simpl.
    - destruct k; [exact L|]. intros c' S'. destruct (L c' S').
    - intros c' S'. apply IH, L, S'.
  Qed.
End Bfs.

(** * Walking the tables *)
Section Walk.
  Variables (dec : N -> Z) (tr : transducer) (g : graph) (addr : nat -> N).
  Hypothesis R : represents dec tr g addr.
  Hypothesis SM : small tr.
  Let names := a_table (tr_alphabet tr).
  Let T := tr_tables tr.
  Let al := tr_alphabet tr.
  Hypothesis Hsmall : (N.of_nat (length names) < 32767)%N.

  Lemma output_name a e : stands_for dec names addr a e -> negb (te_output e =? OLF_Model.NO_SYMBOL)%N = true.
  Proof.
    intros (_ & H & _). apply negb_true_iff, N.eqb_neq. intros E. assert (L : N.to_nat (te_output e) < length names) by (apply nth_error_Some; congruence).
    rewrite E in L. change OLF_Model.NO_SYMBOL with 65535%N in L. lia.
  Qed.
  Lemma outputs_named arcs es : Forall2 (stands_for dec names addr) arcs es -> forall e, In e es -> negb (te_output e =? OLF_Model.NO_SYMBOL)%N = true.
  Proof. induction 1 as [|a e arcs es H _ IH]; intros e' []; [subst; exact (output_name _ _ H)|auto]. Qed.

  Lemma index_state s : s < length (sts g) -> (TA_OFFSET <=? addr s)%N = false -> (TA_OFFSET <=? addr s + 1)%N = false.
  Proof.
    intros Hs E. pose proof (rep_final _ _ _ _ R s Hs) as F. unfold final_weight in F. rewrite E in F. unfold get_index in F.
    destruct (nth_error (t_index (tr_tables tr)) (table_pos (addr s))) as [x|] eqn:X; [|discriminate].
    assert (L : table_pos (addr s) < length (t_index (tr_tables tr))) by (apply nth_error_Some; congruence).
    apply N.leb_gt in E. apply N.leb_gt. unfold table_pos in L. rewrite (proj2 (N.ltb_lt _ _) E) in L. destruct SM as (SM1 & _). unfold TA_OFFSET in *. lia.
  Qed.
  Lemma skipn_cons {A} n (l : list A) e r : skipn n l = e :: r -> nth_error l n = Some e.
  Proof. revert l. induction n as [|n IH]; intros [|x l] E; simpl in *; try discriminate; [congruence|]. apply IH, E. Qed.

  Lemma free_arcs_of s hit es : s < length (sts g) -> free_entries al T (addr s) = Ok (hit, es) ->
    (forall e, In e es -> negb (te_output e =? OLF_Model.NO_SYMBOL)%N = true) -> free_arcs al T (addr s) = Ok es.
  Proof.
    intros Hs H O. unfold free_arcs, has_epsilons_or_flags, next, take_while. unfold free_entries in H. destruct (TA_OFFSET <=? addr s)%N eqn:E.
    - assert (E1 : (TA_OFFSET <=? addr s + 1)%N = true) by (apply N.leb_le; apply N.leb_le in E; lia). rewrite E1.
      replace (addr s + 1 - TA_OFFSET)%N with (addr s - TA_OFFSET + 1)%N by (apply N.leb_le in E; lia).
      unfold transitions_from in *. unfold get_transition. set (p := table_pos _) in *.
      destruct (run_of (free_entry al) (skipn p (t_trans T))) as [r| | |] eqn:X; cbn [rmap rbind] in H; try discriminate. injection H as <- <-.
      destruct (skipn p (t_trans T)) as [|e0 l0] eqn:Sk; [discriminate|]. rewrite (skipn_cons _ _ _ _ Sk). cbn [rmap rbind].
      pose proof (run_of_refine _ _ _ _ X O) as Y. destruct (free_entry al e0) eqn:F0.
      + fold p. rewrite Sk. exact Y.
      + simpl in X. rewrite F0 in X. exact X.
    - rewrite (index_state s Hs E). destruct (get_index T (addr s + 1)) as [e| | |] eqn:GI; cbn [rbind rmap] in *; try discriminate.
      destruct (ie_input e =? 0)%N; [|injection H as <- <-; reflexivity]. replace (addr s + 1 + 0)%N with (addr s + 1)%N by lia. rewrite GI. cbn [rbind rmap].
      destruct (run_of (free_entry al) _) as [r| | |] eqn:X; cbn [rmap rbind] in H; try discriminate. injection H as <- <-. exact (run_of_refine _ _ _ _ X O).
  Qed.
  Lemma symbol_arcs_of s x hit es : s < length (sts g) -> x <> OLF_Model.NO_SYMBOL -> symbol_entries T (addr s) x = Ok (hit, es) ->
    (forall e, In e es -> negb (te_output e =? OLF_Model.NO_SYMBOL)%N = true) -> symbol_arcs T (addr s) x = Ok es.
  Proof.
    intros Hs Nx H O. unfold symbol_arcs, has_transitions, next, take_while. unfold symbol_entries in H.
    assert (Ext : forall e, entry_with x e = (te_input e =? x)%N).
    { intros e. unfold entry_with. destruct (N.eqb_spec (te_input e) x) as [Y|Y]; [|apply andb_false_r]. rewrite Y. apply N.eqb_neq in Nx. rewrite Nx. reflexivity. }
    rewrite (run_of_ext (entry_with x) (fun e => te_input e =? x)%N) in H by exact Ext.
    destruct (TA_OFFSET <=? addr s)%N eqn:E.
    - assert (E1 : (TA_OFFSET <=? addr s + 1)%N = true) by (apply N.leb_le; apply N.leb_le in E; lia). rewrite E1.
      replace (addr s + 1 - TA_OFFSET)%N with (addr s - TA_OFFSET + 1)%N by (apply N.leb_le in E; lia).
      unfold transitions_from in *. unfold get_transition. set (p := table_pos _) in *.
      destruct (run_of _ (skipn p (t_trans T))) as [r| | |] eqn:X; cbn [rmap rbind] in H; try discriminate. injection H as <- <-.
      destruct (skipn p (t_trans T)) as [|e0 l0] eqn:Sk; [discriminate|]. rewrite (skipn_cons _ _ _ _ Sk). cbn [rmap rbind].
      pose proof (run_of_refine _ _ _ _ X O) as Y. destruct (te_input e0 =? x)%N eqn:F0.
      + fold p. rewrite Sk. exact Y.
      + simpl in X. rewrite F0 in X. exact X.
    - rewrite (index_state s Hs E). destruct (get_index T (addr s + 1 + x)) as [e| | |] eqn:GI; cbn [rbind rmap] in *; try discriminate.
      destruct (ie_input e =? x)%N; [|injection H as <- <-; reflexivity].
      rewrite (run_of_ext (entry_with x) (fun e => te_input e =? x)%N) in H by exact Ext.
      destruct (run_of _ _) as [r| | |] eqn:X; cbn [rmap rbind] in H; try discriminate. injection H as <- <-. exact (run_of_refine _ _ _ _ X O).
  Qed.

  Lemma free_arcs_spec s : s < length (sts g) -> exists es l, free_arcs al T (addr s) = Ok es
    /\ Permutation l (filter (fun a => free_input (isy a)) (nth s (sts g) [])) /\ Forall2 (stands_for dec names addr) l es.
  Proof.
    intros Hs. destruct (rep_free _ _ _ _ R s Hs) as (hit & es & l & E & P & F & _). exists es, l. split; [|auto].
    apply (free_arcs_of s hit es Hs E). exact (outputs_named l es F).
  Qed.
  Lemma symbol_arcs_spec s k x : s < length (sts g) -> nth_error names (N.to_nat k) = Some x -> input_symbol g x -> exists es,
    symbol_arcs T (addr s) k = Ok es /\ Forall2 (stands_for dec names addr) (filter (fun a => bstr_eqb (isy a) x) (nth s (sts g) [])) es.
  Proof.
    intros Hs E I. destruct (symbol_found dec tr g addr R s (N.to_nat k) x Hs E I) as (hit & es & E1 & F). rewrite N2Nat.id in E1. exists es. split; [|exact F].
    apply (symbol_arcs_of s k hit es Hs); [|exact E1|exact (outputs_named _ es F)].
    intros ->. assert (L : N.to_nat OLF_Model.NO_SYMBOL < length names) by (apply nth_error_Some; congruence). change OLF_Model.NO_SYMBOL with 65535%N in L. lia.
  Qed.
  Lemma final_index_spec s : s < length (sts g) ->
    final_index T (addr s) = Ok (match mget Nat.compare s (fin g) with Some _ => true | None => false end).
  Proof.
    intros Hs. pose proof (rep_final _ _ _ _ R s Hs) as F. unfold final_weight, final_index in *. fold T in F. destruct (TA_OFFSET <=? addr s)%N.
    - destruct (get_transition T _) as [e| | |]; cbn [rmap rbind] in *; try discriminate. injection F as <-. destruct (trans_final e); reflexivity.
    - destruct (get_index T _) as [e| | |]; cbn [rmap rbind] in *; try discriminate. injection F as <-. destruct (index_final e); reflexivity.
  Qed.
  Lemma final_weight_spec s w : s < length (sts g) -> mget Nat.compare s (fin g) = Some w -> final_weight_at dec T (addr s) = Ok w.
  Proof.
    intros Hs M. pose proof (rep_final _ _ _ _ R s Hs) as F. rewrite M in F. unfold final_weight, final_weight_at in *. fold T in F. destruct (TA_OFFSET <=? addr s)%N.
    - destruct (get_transition T _) as [e| | |]; cbn [rmap rbind] in *; try discriminate. destruct (trans_final e); [|discriminate]. injection F as <-. reflexivity.
    - destruct (get_index T _) as [e| | |]; cbn [rmap rbind] in *; try discriminate. destruct (index_final e); [|discriminate]. injection F as <-. reflexivity.
  Qed.

  (** ** Free steps *)
  Hypothesis HA : alphabet_of_table names = Ok (tr_alphabet tr).
  Hypothesis HW : t_wclass (tr_tables tr) = true.
  Hypothesis Hdef : ~ In DEFAULT names.
  Hypothesis Hval : forall x f, In x names -> denotes x f -> nonempty_value f.
  Hypothesis Hin : N.to_nat (h_input_symbols (tr_header tr)) <= length names.
  Let F := a_fd (tr_alphabet tr).

  Definition free_step (e : fenv) (a : arc) (e' : fenv) : Prop :=
    isy a = EPSILON /\ e' = e \/ exists x, denotes (isy a) x /\ snd (Flags_Spec.step x e) = true /\ e' = fst (Flags_Spec.step x e).
  Definition moved (n c : node) (a : arc) (e' : fenv) : Prop :=
    exists k fs, nth_error names (N.to_nat k) = Some (osy a) /\ fd_rel F e' fs
      /\ c = Node (n_string n ++ [k]) (n_input n) (n_mutator n) (addr (tgt a)) fs (n_weight n + wt a)%Z.
  Lemma entry_weight_arc a e : stands_for dec names addr a e -> entry_weight dec T e = wt a.
  Proof. intros (_ & _ & _ & H). unfold entry_weight, T. rewrite HW. exact H. Qed.
  Lemma push_free_spec n e es : forall arcs, Forall2 (stands_for dec names addr) arcs es -> fd_rel F e (n_flags n) ->
    (forall a, In a arcs -> free_input (isy a) = true) ->
    exists cs, push_free dec al T n es = Ok cs
      /\ (forall c, In c cs -> exists a e', In a arcs /\ free_step e a e' /\ moved n c a e')
      /\ (forall a e', In a arcs -> free_step e a e' -> exists c, In c cs /\ moved n c a e').
  Proof.
    induction es as [|en es IH]; intros arcs H HF Ha; inversion H as [|a ? arcs' ? Hst H']; subst; cbn [push_free].
    - exists []. split; [reflexivity|]. split; [intros c []|intros a e' []].
    - pose proof (Ha a (or_introl eq_refl)) as Hfree. pose proof Hst as (Hi & Ho & Htg & _). pose proof (entry_weight_arc a en Hst) as Hw.
      destruct (IH arcs' H' HF) as (cs & -> & K1 & K2); [intros b Hb; apply Ha; right; exact Hb|]. cbn [rmap rbind]. rewrite Htg, Hw.
      destruct (N.eqb_spec (te_input en) 0) as [Z|NZ].
      + assert (Ei : isy a = EPSILON) by (apply (zero_eps dec tr g addr R _ _ Hi); rewrite Z; reflexivity).
        eexists. split; [reflexivity|]. split.
        * intros c [<- |Hc]; [|destruct (K1 c Hc) as (b & e' & Hb & K); exists b, e'; split; [right; exact Hb|exact K]].
          exists a, e. split; [left; reflexivity|]. split; [left; auto|]. exists (te_output en), (n_flags n). auto.
        * intros b e' [<- |Hb] St; [|destruct (K2 b e' Hb St) as (c & Hc & K); exists c; split; [right; exact Hc|exact K]].
          eexists. split; [left; reflexivity|]. destruct St as [(_ & ->)|(x & Dx & _)].
          -- exists (te_output en), (n_flags n). auto.
          -- exfalso. rewrite Ei in Dx. apply denotes_code in Dx. destruct Dx as (B1 & _). discriminate B1.
      + assert (Di : exists x, denotes (isy a) x).
        { apply is_diacritic_denotes. unfold free_input in Hfree. apply orb_true_iff in Hfree. destruct Hfree as [X|X]; [|exact X].
          apply bstr_eqb_eq in X. exfalso. apply NZ. apply (zero_eps dec tr g addr R _ _ Hi) in X. lia. }
        destruct Di as (x & Dx). destruct (flag_op dec tr g addr R HA Hdef nil _ _ _ Hi Dx) as (op & Eop & Mop).
        assert (NEi : isy a <> EPSILON) by (intros X; rewrite X in Dx; apply denotes_code in Dx; destruct Dx as (B1 & _); discriminate B1).
        unfold apply_symbol. change (a_fd al) with (a_fd (tr_alphabet tr)). rewrite Eop.
        assert (Nx : nonempty_value x) by (apply (Hval (isy a)); [exact (nth_error_In _ _ Hi)|exact Dx]).
        destruct (F_ok dec tr g addr R HA Hsmall Hdef Hin nil) as (FO & FS & _). destruct (apply_op_step F FO FS e (n_flags n) op x HF Mop Nx) as (fs' & -> & HF').
        destruct (snd (Flags_Spec.step x e)) eqn:Sx.
        * eexists. split; [reflexivity|]. split.
          -- intros c [<- |Hc]; [|destruct (K1 c Hc) as (b & e' & Hb & K); exists b, e'; split; [right; exact Hb|exact K]].
             exists a, (fst (Flags_Spec.step x e)). split; [left; reflexivity|]. split; [right; exists x; auto|]. exists (te_output en), fs'. auto.
          -- intros b e' [<- |Hb] St; [|destruct (K2 b e' Hb St) as (c & Hc & K); exists c; split; [right; exact Hc|exact K]].
             eexists. split; [left; reflexivity|]. destruct St as [(C & _)|(y & Dy & _ & ->)]; [contradiction|].
             rewrite (denotes_fun _ _ _ Dy Dx). exists (te_output en), fs'. auto.
        * exists cs. split; [reflexivity|]. split.
          -- intros c Hc. destruct (K1 c Hc) as (b & e' & Hb & K). exists b, e'. split; [right; exact Hb|exact K].
          -- intros b e' [<- |Hb] St; [|exact (K2 b e' Hb St)]. exfalso. destruct St as [(C & _)|(y & Dy & Sy & _)]; [contradiction|].
             rewrite (denotes_fun _ _ _ Dy Dx) in Sy. congruence.
  Qed.
  Lemma free_step_free e a e' : free_step e a e' -> free_input (isy a) = true.
  Proof.
    unfold free_input. intros [(-> & _)|(x & D & _)]; [reflexivity|]. assert (X : is_diacritic (isy a) = true) by (apply is_diacritic_denotes; eauto). rewrite X. apply orb_true_r.
  Qed.
  Lemma lexicon_epsilons_spec n e s : n_lexicon n = addr s -> s < length (sts g) -> fd_rel F e (n_flags n) ->
    exists cs, lexicon_epsilons dec al T n = Ok cs
      /\ (forall c, In c cs -> exists a e', In a (nth s (sts g) []) /\ free_step e a e' /\ moved n c a e')
      /\ (forall a e', In a (nth s (sts g) []) -> free_step e a e' -> exists c, In c cs /\ moved n c a e').
  Proof.
    intros En Hs HF. unfold lexicon_epsilons. rewrite En. destruct (free_arcs_spec s Hs) as (es & l & -> & P & Fo). cbn [rbind].
    destruct (push_free_spec n e es l Fo HF) as (cs & -> & K1 & K2).
    - intros a Ha. apply (Permutation_in a P) in Ha. apply filter_In in Ha. apply Ha.
    - exists cs. split; [reflexivity|]. split.
      + intros c Hc. destruct (K1 c Hc) as (a & e' & Ha & K). exists a, e'. split; [|exact K]. apply (Permutation_in a P) in Ha. apply filter_In in Ha. apply Ha.
      + intros a e' Ha St. apply (K2 a e'); [|exact St]. apply (Permutation_in a (Permutation_sym P)). apply filter_In. split; [exact Ha|exact (free_step_free _ _ _ St)].
  Qed.
End Walk.
