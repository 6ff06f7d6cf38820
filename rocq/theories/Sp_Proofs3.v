(** Proofs about the spell checker: Speller::correct. *)
From Coq Require Import Permutation NArith.
From Verif Require Import Base OrdMap Flags_Model Flags_Spec Flags_Proofs BT_Model BT_Spec OLF_Model OLC_Model OLC_Spec OLC_Proofs OLC_Proofs5 OLL_Model OLL_Spec OLL_Proofs OLL_Proofs2 OLL_Proofs3 Sp_Model Sp_Spec Sp_Proofs Sp_Proofs2.
From Verif Require Import Tok_Model Tok_Spec Tok_Proofs.
From Verif Require An_Spec.

(** * Breadth-first search that collects results *)
Section Search.
  Variables (N : Type) (visit : N -> res (option (bstr * Z) * list N)).
  Definition note (o : option (bstr * Z)) (found : list (bstr * Z)) : list (bstr * Z) :=
    match o with
    | None => found
    | Some (str, w) =>
        match mget bcmp str found with
        | Some w0 => if (w <? w0)%Z then mset bcmp str w found else found
        | None => mset bcmp str w found
        end
    end.
  Fixpoint search (fuel : nat) (q : list N) (found : list (bstr * Z)) : res (list (bstr * Z)) :=
    match q with
    | [] => Ok found
    | n :: q' => match fuel with
                 | O => Diverge
                 | S f => rbind (visit n) (fun '(o, cs) => search f (q' ++ cs) (note o found))
                 end
    end.
  Definition Found (P : bstr -> Z -> Prop) (found : list (bstr * Z)) : Prop :=
    forall str, match mget bcmp str found with
                | Some w => P str w /\ forall w', P str w' -> (w <= w')%Z
                | None => forall w, ~ P str w
                end.
  Lemma Found_ext (P Q : bstr -> Z -> Prop) found : (forall str w, P str w <-> Q str w) -> Found P found -> Found Q found.
  Proof.
    intros E H str. specialize (H str). destruct (mget bcmp str found).
    - destruct H as (H1 & H2). split; [apply E, H1|]. intros w' H'. apply H2, E, H'.
    - intros w C. apply (H w), E, C.
  Qed.
  Lemma note_found P o found : Found P found -> Found (fun str w => P str w \/ o = Some (str, w)) (note o found).
  Proof.
    intros H. destruct o as [(str0 & w0)|]; cbn [note]; [|apply (Found_ext P); [|exact H]; intros; split; [auto|]; intros [K|K]; [exact K|discriminate]].
    intros str. pose proof (H str0) as H0. destruct (bstr_eqb str str0) eqn:E.
    - apply bstr_eqb_eq in E. subst str0. destruct (mget bcmp str found) as [w1|] eqn:M.
      + destruct H0 as (H1 & H2). destruct (Z.ltb_spec w0 w1) as [L|L].
        * rewrite (mget_mset_same _ bcmp_eq). split; [auto|]. intros w' [K|K]; [specialize (H2 w' K); lia|]. injection K as ->. lia.
        * rewrite M. split; [auto|]. intros w' [K|K]; [apply H2, K|]. injection K as ->. lia.
      + rewrite (mget_mset_same _ bcmp_eq). split; [auto|]. intros w' [K|K]; [destruct (H0 w' K)|]. injection K as ->. lia.
    - assert (Ne : str <> str0) by (intros ->; rewrite (proj2 (bstr_eqb_eq str0 str0) eq_refl) in E; discriminate).
      assert (X : mget bcmp str (match mget bcmp str0 found with Some w1 => if (w0 <? w1)%Z then mset bcmp str0 w0 found else found | None => mset bcmp str0 w0 found end) = mget bcmp str found).
      { destruct (mget bcmp str0 found) as [w1|]; [destruct (w0 <? w1)%Z; [|reflexivity]|]; apply (mget_mset_other _ bcmp_eq); congruence. }
      rewrite X. specialize (H str). destruct (mget bcmp str found).
      + destruct H as (H1 & H2). split; [auto|]. intros w' [K|K]; [auto|]. injection K as -> ->. congruence.
      + intros w [K|K]; [exact (H w K)|]. injection K as -> ->. congruence.
  Qed.

  Variables (good : N -> Prop) (outcome : N -> bstr -> Z -> Prop).
  Hypothesis V : forall n, good n -> exists o cs, visit n = Ok (o, cs) /\ (forall m, In m cs -> good m)
    /\ forall str w, outcome n str w <-> o = Some (str, w) \/ exists m, In m cs /\ outcome m str w.
  Lemma search_found fuel : forall q P found found', (forall n, In n q -> good n) -> Found P found -> search fuel q found = Ok found' ->
    Found (fun str w => P str w \/ exists n, In n q /\ outcome n str w) found'.
  Proof.
    induction fuel as [|f IH]; intros [|n q] P found found' G H E; simpl in E; try discriminate.
    - injection E as <-. apply (Found_ext P); [|exact H]. intros; split; [auto|]. intros [K|(n & [] & _)]. exact K.
    - injection E as <-. apply (Found_ext P); [|exact H]. intros; split; [auto|]. intros [K|(n & [] & _)]. exact K.
    - destruct (V n (G n (or_introl eq_refl))) as (o & cs & Ev & G' & O). rewrite Ev in E. cbn [rbind] in E.
      apply IH with (P := fun str w => P str w \/ o = Some (str, w)) in E.
      + apply (Found_ext _ _ _) with (2 := E). intros str w. split.
        * intros [[K|K]|(m & Hm & K)]; [auto| |].
          -- right. exists n. split; [left; reflexivity|]. apply O. auto.
          -- apply in_app_or in Hm. destruct Hm as [Hm|Hm]; [right; exists m; split; [right; exact Hm|exact K]|].
             right. exists n. split; [left; reflexivity|]. apply O. eauto.
        * intros [K|(m & [<- |Hm] & K)]; [auto| |].
          -- apply O in K. destruct K as [K|(m & Hm & K)]; [auto|]. right. exists m. split; [apply in_or_app; right; exact Hm|exact K].
          -- right. exists m. split; [apply in_or_app; left; exact Hm|exact K].
      + intros m Hm. apply in_app_or in Hm. destruct Hm as [Hm|Hm]; [apply G; right; exact Hm|apply G', Hm].
      + apply note_found, H.
  Qed.
  Lemma search_safe fuel : forall q found, (forall n, In n q -> good n) -> search fuel q found = Diverge \/ exists found', search fuel q found = Ok found'.
  Proof.
    induction fuel as [|f IH]; intros [|n q] found G; simpl; eauto.
    destruct (V n (G n (or_introl eq_refl))) as (o & cs & Ev & G' & O). rewrite Ev. cbn [rbind]. apply IH.
    intros m Hm. apply in_app_or in Hm. destruct Hm as [Hm|Hm]; [apply G; right; exact Hm|apply G', Hm].
  Qed.

  (** Nodes with bounded chains of successors. *)
  Variable height : nat -> N -> Prop.
  Hypothesis Hh : forall d n o cs, good n -> height d n -> visit n = Ok (o, cs) -> forall m, In m cs -> match d with O => False | S d' => height d' m end.
  Lemma search_ends d : forall q q2 found, (forall n, In n q -> good n /\ height d n) ->
    (match d with O => q2 = [] | S d' => forall n, In n q2 -> good n /\ height d' n end) -> exists fuel found', search fuel (q ++ q2) found = Ok found'.
  Proof.
    induction d as [|d IHd]; induction q as [|n q IHq]; intros q2 found H H2.
    - subst q2. exists 0, found. reflexivity.
    - subst q2. destruct (H n (or_introl eq_refl)) as (Gn & L). destruct (V n Gn) as (o & cs & Ev & G' & _).
      assert (cs = []) as -> by (destruct cs as [|m cs]; [reflexivity|]; destruct (Hh 0 n o _ Gn L Ev m (or_introl eq_refl))).
      destruct (IHq [] (note o found)) as (f & b & E); [intros m Hm; apply H; right; exact Hm|reflexivity|]. exists (S f), b. simpl. rewrite Ev. cbn [rbind].
      rewrite !app_nil_r in *. exact E.
    - simpl. destruct (IHd q2 [] found) as (f & b & E); [exact H2| |].
      + destruct d; [reflexivity|intros n []].
      + rewrite app_nil_r in E. eauto.
    - destruct (H n (or_introl eq_refl)) as (Gn & L). destruct (V n Gn) as (o & cs & Ev & G' & _).
      destruct (IHq (q2 ++ cs) (note o found)) as (f & b & E).
      + intros m Hm. apply H. right. exact Hm.
      + intros m Hm. apply in_app_or in Hm. destruct Hm as [Hm|Hm]; [apply H2, Hm|]. split; [apply G', Hm|]. exact (Hh (S d) n o cs Gn L Ev m Hm).
      + exists (S f), b. simpl. rewrite Ev. cbn [rbind]. rewrite <- app_assoc. exact E.
  Qed.
End Search.

(** * Epsilons of a transducer without flags *)
Section Epsilons.
  Variables (dec : N -> Z) (tr : transducer) (g : graph) (addr : nat -> N).
  Hypothesis R : represents dec tr g addr.
  Hypothesis SM : small tr.
  Let names := a_table (tr_alphabet tr).
  Let T := tr_tables tr.
  Hypothesis Hsmall : (N.of_nat (length names) < 32767)%N.
  Hypothesis NF : forall p a, In a (nth p (sts g) []) -> is_diacritic (isy a) = false.

  Lemma run_of_narrow t1 t2 l : forall es, run_of t1 l = Ok es -> (forall e, In e es -> t2 e = true) -> (forall e, t2 e = true -> t1 e = true) -> run_of t2 l = Ok es.
  Proof.
    induction l as [|e l IH]; intros es H Q I; simpl in *; [discriminate|]. destruct (t1 e) eqn:T1.
    - destruct (run_of t1 l) as [r| | |]; cbn [rmap rbind] in H; try discriminate. injection H as <-. rewrite (Q e (or_introl eq_refl)).
      rewrite (IH r eq_refl); [reflexivity| |exact I]. intros e' H'. apply Q. right. exact H'.
    - destruct (t2 e) eqn:T2; [rewrite (I e T2) in T1; discriminate|exact H].
  Qed.
  Lemma epsilon_arcs_spec s : s < length (sts g) -> exists es l, symbol_arcs T (addr s) 0 = Ok es
    /\ (forall a, In a l <-> In a (nth s (sts g) []) /\ isy a = EPSILON) /\ Forall2 (stands_for dec names addr) l es.
  Proof.
    intros Hs. destruct (rep_free _ _ _ _ R s Hs) as (hit & es & l & E & P & Fo & _). exists es, l.
    assert (Fl : forall a, In a l <-> In a (nth s (sts g) []) /\ isy a = EPSILON).
    { intros a. split.
      - intros H. apply (Permutation_in a P), filter_In in H. destruct H as (H & Fr). split; [exact H|]. unfold free_input in Fr. rewrite (NF s a H), orb_false_r in Fr. apply bstr_eqb_eq, Fr.
      - intros (H & Ei). apply (Permutation_in a (Permutation_sym P)), filter_In. split; [exact H|]. rewrite Ei. reflexivity. }
    split; [|split; [exact Fl|exact Fo]].
    assert (Z : forall e, In e es -> (te_input e =? 0)%N = true).
    { intros e He. destruct (Forall2_In_r _ _ _ _ Fo He) as (a & Ha & Hi & _). apply Fl in Ha. destruct Ha as (_ & Ei). rewrite Ei in Hi. apply N.eqb_eq.
      pose proof (proj2 (zero_eps dec tr g addr R _ _ Hi) eq_refl). lia. }
    pose proof (outputs_named dec tr addr Hsmall l es Fo) as O. fold names in O.
    unfold symbol_arcs, has_transitions, next, take_while. unfold free_entries in E. fold T in E.
    assert (I : forall e, (te_input e =? 0)%N = true -> free_entry (tr_alphabet tr) e = true) by (intros e X; unfold free_entry; rewrite X; reflexivity).
    destruct (TA_OFFSET <=? addr s)%N eqn:E0.
    - assert (E1 : (TA_OFFSET <=? addr s + 1)%N = true) by (apply N.leb_le; apply N.leb_le in E0; lia). rewrite E1.
      replace (addr s + 1 - TA_OFFSET)%N with (addr s - TA_OFFSET + 1)%N by (apply N.leb_le in E0; lia).
      unfold transitions_from in *. unfold get_transition. set (p := table_pos _) in *.
      destruct (run_of (free_entry (tr_alphabet tr)) (skipn p (t_trans T))) as [r| | |] eqn:X; cbn [rmap rbind] in E; try discriminate. injection E as <- <-.
      pose proof (run_of_narrow _ _ _ _ X Z I) as X'.
      destruct (skipn p (t_trans T)) as [|e0 l0] eqn:Sk; [discriminate|]. rewrite (skipn_cons _ _ _ _ Sk). cbn [rmap rbind].
      pose proof (run_of_refine _ _ _ _ X' O) as Y. destruct (te_input e0 =? 0)%N eqn:F0.
      + fold p. rewrite Sk. exact Y.
      + simpl in X'. rewrite F0 in X'. exact X'.
    - rewrite (index_state dec tr g addr R SM Hsmall s Hs E0). replace (addr s + 1 + 0)%N with (addr s + 1)%N by lia.
      destruct (get_index T (addr s + 1)) as [e| | |] eqn:GI; cbn [rbind rmap] in *; try discriminate.
      destruct (ie_input e =? 0)%N; [|injection E as <- <-; reflexivity].
      destruct (run_of (free_entry _) _) as [r| | |] eqn:X; cbn [rmap rbind] in E; try discriminate. injection E as <- <-.
      exact (run_of_refine _ _ _ _ (run_of_narrow _ _ _ _ X Z I) O).
  Qed.
End Epsilons.

(** * Speller::correct *)
Section Correct.
  Variable dec : N -> Z.
  (** the lexicon *)
  Variables (tr : transducer) (g : graph) (addr : nat -> N).
  Hypothesis R : represents dec tr g addr.
  Hypothesis HS : structure_ok g.
  Hypothesis SM : small tr.
  Let names := a_table (tr_alphabet tr).
  Let T := tr_tables tr.
  Let al := tr_alphabet tr.
  Let F := a_fd (tr_alphabet tr).
  Hypothesis HA : alphabet_of_table names = Ok (tr_alphabet tr).
  Hypothesis HW : t_wclass (tr_tables tr) = true.
  Hypothesis Hsmall : (N.of_nat (length names) < 32767)%N.
  Hypothesis Hdef : ~ In DEFAULT names.
  Hypothesis Hval : forall x f, In x names -> denotes x f -> nonempty_value f.
  Hypothesis Hin : N.to_nat (h_input_symbols (tr_header tr)) <= length names.
  (** the error model *)
  Variables (trm : transducer) (m : graph) (addrm : nat -> N).
  Hypothesis RM : represents dec trm m addrm.
  Hypothesis HSM : structure_ok m.
  Hypothesis SMM : small trm.
  Let namesm := a_table (tr_alphabet trm).
  Let TM := tr_tables trm.
  Hypothesis HWM : t_wclass (tr_tables trm) = true.
  Hypothesis HsmallM : (N.of_nat (length namesm) < 32767)%N.
  Hypothesis NF : forall p a, In a (nth p (sts m) []) -> is_diacritic (isy a) = false.
  Hypothesis WK : forall p a, In a (nth p (sts m) []) -> osy a = EPSILON \/ input_symbol g (osy a) /\ osy a <> UNKNOWN.
  Variable translator : list N.
  Hypothesis TR : forall k y, nth_error namesm k = Some y -> input_symbol g y -> y <> UNKNOWN ->
    exists j, nth_error translator k = Some j /\ nth_error names (N.to_nat j) = Some y.
  Variable input : list N.

  Definition push_one (n : node) (pos : nat) (e : trans_entry) : res (list node) :=
    if (te_output e =? 0)%N then Ok [Node (n_string n ++ [0%N]) pos (te_target e) (n_lexicon n) (n_flags n) (n_weight n + entry_weight dec TM e)%Z]
    else
      rbind (translate translator (te_output e)) (fun y =>
      rmap (map (fun l => Node (n_string n ++ [te_output l]) pos (te_target e) (te_target l) (n_flags n) (n_weight n + (entry_weight dec T l + entry_weight dec TM e))%Z))
        (symbol_arcs T (n_lexicon n) y)).
  Fixpoint pushes (n : node) (pos : nat) (es : list trans_entry) : res (list node) :=
    match es with [] => Ok [] | e :: r => rbind (push_one n pos e) (fun c => rmap (app c) (pushes n pos r)) end.
  Lemma push_epsilons_pushes n es : push_epsilons dec T TM translator n es = pushes n (n_input n) es.
  Proof.
    induction es as [|e es IH]; [reflexivity|]. cbn [push_epsilons pushes]. rewrite IH. unfold push_one. destruct (N.eqb_spec (te_output e) 0) as [Z|NZ]; [rewrite Z|]; reflexivity.
  Qed.
  Lemma push_consumed_pushes n es : push_consumed dec T TM translator n es = pushes n (S (n_input n)) es.
  Proof. induction es as [|e es IH]; [reflexivity|]. cbn [push_consumed pushes]. rewrite IH. unfold push_one. destruct (te_output e =? 0)%N; reflexivity. Qed.

  Definition jstep (arcs : list arc) (q p' q' : nat) (w : Z) (o : bstr) : Prop :=
    (exists a, In a arcs /\ osy a = EPSILON /\ p' = tgt a /\ q' = q /\ w = wt a /\ o = EPSILON)
    \/ exists a b, In a arcs /\ In b (nth q (sts g) []) /\ isy b = osy a /\ free_input (isy b) = false
         /\ p' = tgt a /\ q' = tgt b /\ w = (wt b + wt a)%Z /\ o = osy b.
  Definition child (n : node) (pos : nat) (c : node) (p' q' : nat) (w : Z) (o : bstr) : Prop :=
    exists k, nth_error names (N.to_nat k) = Some o
      /\ c = Node (n_string n ++ [k]) pos (addrm p') (addr q') (n_flags n) (n_weight n + w)%Z.
  Lemma jstep_more a arcs q p' q' w o : jstep arcs q p' q' w o -> jstep (a :: arcs) q p' q' w o.
  Proof. intros [(b & Hb & K)|(b & c & Hb & K)]; [left; exists b|right; exists b, c]; (split; [right; exact Hb|exact K]). Qed.
  Lemma pushes_spec n q pos es : forall arcs, Forall2 (stands_for dec namesm addrm) arcs es ->
    (forall a, In a arcs -> osy a = EPSILON \/ input_symbol g (osy a) /\ osy a <> UNKNOWN) -> n_lexicon n = addr q -> q < length (sts g) ->
    exists cs, pushes n pos es = Ok cs
      /\ (forall c, In c cs -> exists p' q' w o, jstep arcs q p' q' w o /\ child n pos c p' q' w o)
      /\ (forall p' q' w o, jstep arcs q p' q' w o -> exists c, In c cs /\ child n pos c p' q' w o).
  Proof.
    induction es as [|e es IH]; intros arcs H Wk Eq Hq; inversion H as [|a ? arcs' ? Hst H']; subst; cbn [pushes].
    - exists []. split; [reflexivity|]. split; [intros c []|]. intros p' q' w o [(a & [] & _)|(a & b & [] & _)].
    - destruct (IH arcs' H') as (cs & -> & K1 & K2); [intros b Hb; apply Wk; right; exact Hb|exact Eq|exact Hq|].
      pose proof Hst as (_ & Ho & Htg & _). pose proof (entry_weight_arc dec trm addrm HWM a e Hst) as Hw. fold TM in Hw.
      assert (X : exists c0, push_one n pos e = Ok c0
        /\ (forall c, In c c0 -> exists p' q' w o, jstep [a] q p' q' w o /\ child n pos c p' q' w o)
        /\ (forall p' q' w o, jstep [a] q p' q' w o -> exists c, In c c0 /\ child n pos c p' q' w o)).
      { unfold push_one. rewrite Hw, Htg. destruct (N.eqb_spec (te_output e) 0) as [Z|NZ].
        - assert (Eo : osy a = EPSILON) by (apply (zero_eps dec trm m addrm RM _ _ Ho); rewrite Z; reflexivity).
          eexists. split; [reflexivity|]. rewrite Eq. split.
          + intros c [<- |[]]. exists (tgt a), q, (wt a), EPSILON. split; [left; exists a; simpl; auto 8|]. exists 0%N. split; [exact (rep_epsilon _ _ _ _ R)|reflexivity].
          + intros p' q' w o [(b & [<- |[]] & _ & -> & -> & -> & ->)|(b & d & [<- |[]] & Hd & Ed & Fd & _)].
            * eexists. split; [left; reflexivity|]. exists 0%N. split; [exact (rep_epsilon _ _ _ _ R)|reflexivity].
            * exfalso. rewrite Ed, Eo in Fd. discriminate Fd.
        - assert (No : osy a <> EPSILON) by (intros C; apply NZ; apply (zero_eps dec trm m addrm RM _ _ Ho) in C; lia).
          destruct (Wk a (or_introl eq_refl)) as [C|(Ia & Nu)]; [contradiction|].
          destruct (TR _ _ Ho Ia Nu) as (j & Ej & Nj). unfold translate. rewrite Ej. cbn [rbind].
          destruct (symbol_arcs_spec dec tr g addr R SM Hsmall q j (osy a) Hq Nj Ia) as (ls & El & Fo). rewrite Eq. fold T in El. rewrite El. cbn [rmap rbind].
          assert (Fl : forall b, In b (filter (fun a0 => bstr_eqb (isy a0) (osy a)) (nth q (sts g) [])) <-> In b (nth q (sts g) []) /\ isy b = osy a) by (intros b; rewrite filter_In, bstr_eqb_eq; reflexivity).
          assert (Ifr : free_input (osy a) = false) by (destruct Ia as (? & ? & _ & _ & Fr); exact Fr).
          eexists. split; [reflexivity|]. split.
          + intros c Hc. apply in_map_iff in Hc. destruct Hc as (l & <- & Hl). destruct (Forall2_In_r _ _ _ _ Fo Hl) as (b & Hb & Hsb). apply Fl in Hb. destruct Hb as (Hb & Eb).
            exists (tgt a), (tgt b), (wt b + wt a)%Z, (osy b). split; [right; exists a, b; rewrite Eb; simpl; auto 10|].
            pose proof (entry_weight_arc dec tr addr HW b l Hsb) as Hwb. fold T in Hwb. destruct Hsb as (_ & Hob & Htb & _). exists (te_output l). rewrite Hwb, Htb. auto.
          + intros p' q' w o [(b & [<- |[]] & C & _)|(a' & b & [<- |[]] & Hb & Eb & Fb & -> & -> & -> & ->)]; [contradiction|].
            destruct (Forall2_In_l _ _ _ _ Fo (proj2 (Fl b) (conj Hb Eb))) as (l & Hl & Hsb). eexists. split; [apply in_map_iff; exists l; split; [reflexivity|exact Hl]|].
            pose proof (entry_weight_arc dec tr addr HW b l Hsb) as Hwb. fold T in Hwb. destruct Hsb as (_ & Hob & Htb & _). exists (te_output l). rewrite Hwb, Htb. auto. }
      destruct X as (c0 & -> & J1 & J2). cbn [rbind rmap]. exists (c0 ++ cs). split; [reflexivity|]. split.
      + intros c Hc. apply in_app_or in Hc. destruct Hc as [Hc|Hc].
        * destruct (J1 c Hc) as (p' & q' & w & o & J & C). exists p', q', w, o. split; [|exact C].
          destruct J as [(b & [<- |[]] & K)|(b & d & [<- |[]] & K)]; [left; exists a|right; exists a, d]; (split; [left; reflexivity|exact K]).
        * destruct (K1 c Hc) as (p' & q' & w & o & J & C). exists p', q', w, o. split; [apply jstep_more, J|exact C].
      + intros p' q' w o J. assert (J' : jstep [a] q p' q' w o \/ jstep arcs' q p' q' w o).
        { destruct J as [(b & [<- |Hb] & K)|(b & d & [<- |Hb] & K)]; [left; left; exists a|right; left; exists b|left; right; exists a, d|right; right; exists b, d]; (split; [simpl; auto|exact K]). }
        destruct J' as [J'|J']; [destruct (J2 _ _ _ _ J') as (c & Hc & C)|destruct (K2 _ _ _ _ J') as (c & Hc & C)]; exists c; (split; [apply in_or_app; auto|exact C]).
  Qed.

  (** ** Joint configurations *)
  Definition config3 : Type := nat * nat * fenv * list bstr.
  Definition read_as (x y : bstr) : Prop := input_symbol m x /\ y = x \/ ~ input_symbol m x /\ y = UNKNOWN.
  Definition tokm (k : N) (x : bstr) : Prop := exists y, read_as x y /\ input_symbol m y /\ nth_error namesm (N.to_nat k) = Some y.
  Definition spelling (n : node) : bstr := concat (map (fun k => nth (N.to_nat k) names []) (n_string n)).
  Definition sits3 (n : node) (c : config3) : Prop :=
    let '(p, q, e, ts) := c in
    n_mutator n = addrm p /\ p < length (sts m) /\ n_lexicon n = addr q /\ q < length (sts g) /\ fd_rel F e (n_flags n)
    /\ Forall2 tokm (skipn (n_input n) input) ts /\ n_input n <= length input /\ Forall (fun k => N.to_nat k < length names) (n_string n).
  Definition arcs_of (p : nat) (y : bstr) : list arc := filter (fun a => bstr_eqb (isy a) y) (nth p (sts m) []).
  Lemma arcs_of_spec p y a : In a (arcs_of p y) <-> In a (nth p (sts m) []) /\ isy a = y.
  Proof. unfold arcs_of. rewrite filter_In, bstr_eqb_eq. reflexivity. Qed.
  Definition step3 (c c' : config3) (w : Z) (o : bstr) : Prop :=
    let '(p, q, e, ts) := c in let '(p', q', e', ts') := c' in
    (exists b, In b (nth q (sts g) []) /\ free_step e b e' /\ p' = p /\ q' = tgt b /\ ts' = ts /\ w = wt b /\ o = osy b)
    \/ jstep (arcs_of p EPSILON) q p' q' w o /\ e' = e /\ ts' = ts
    \/ exists x y, ts = x :: ts' /\ read_as x y /\ jstep (arcs_of p y) q p' q' w o /\ e' = e.
  Definition child3 (n c : node) (c' : config3) (w : Z) (o : bstr) : Prop :=
    sits3 c c' /\ n_weight c = (n_weight n + w)%Z /\ exists k, nth_error names (N.to_nat k) = Some o /\ n_string c = n_string n ++ [k].

  Definition outcome_of (n : node) : res (option (bstr * Z)) :=
    rbind (final_index TM (n_mutator n)) (fun f1 =>
    rbind (if f1 then final_index T (n_lexicon n) else Ok false) (fun f2 =>
    if f2 then
      rbind (stringify al (n_string n)) (fun str =>
      rbind (final_weight_at dec T (n_lexicon n)) (fun w1 =>
      rbind (final_weight_at dec TM (n_mutator n)) (fun w2 => Ok (Some (str, (n_weight n + w1 + w2)%Z)))))
    else Ok None)).
  Lemma record_outcome n found : record_correction dec al T TM n found = rmap (fun o => note o found) (outcome_of n).
  Proof.
    unfold record_correction, outcome_of. destruct (final_index TM (n_mutator n)) as [f1| | |]; cbn [rbind rmap]; try reflexivity.
    destruct (if f1 then _ else _) as [f2| | |]; cbn [rbind rmap]; try reflexivity. destruct f2; [|reflexivity].
    destruct (stringify al (n_string n)) as [str| | |]; cbn [rbind rmap]; try reflexivity. destruct (final_weight_at dec T (n_lexicon n)) as [w1| | |]; cbn [rbind rmap]; try reflexivity.
    destruct (final_weight_at dec TM (n_mutator n)) as [w2| | |]; cbn [rbind rmap note]; reflexivity.
  Qed.
  Definition visit3 (n : node) : res (option (bstr * Z) * list node) :=
    rbind (lexicon_epsilons dec al T n) (fun c1 =>
    rbind (mutator_epsilons dec T TM translator n) (fun c2 =>
    if (n_input n =? length input)%nat then rbind (outcome_of n) (fun o => Ok (o, c1 ++ c2))
    else rbind (consume_input dec T TM translator input n) (fun c3 => Ok (None, c1 ++ c2 ++ c3)))).
  Lemma correct_loop_search fuel : forall q found, correct_loop dec al T TM translator fuel input q found = search node visit3 fuel q found.
  Proof.
    induction fuel as [|fuel IH]; intros [|n q] found; cbn [correct_loop search]; try reflexivity. unfold visit3.
    destruct (lexicon_epsilons dec al T n) as [c1| | |]; cbn [rbind]; try reflexivity. destruct (mutator_epsilons dec T TM translator n) as [c2| | |]; cbn [rbind]; try reflexivity.
    destruct (n_input n =? length input)%nat.
    - rewrite record_outcome. destruct (outcome_of n) as [o| | |]; cbn [rbind rmap]; try reflexivity. apply IH.
    - destruct (consume_input dec T TM translator input n) as [c3| | |]; cbn [rbind]; try reflexivity. apply IH.
  Qed.
  Lemma stringify_spec l : Forall (fun k => N.to_nat k < length names) l -> stringify al l = Ok (concat (map (fun k => nth (N.to_nat k) names []) l)).
  Proof.
    induction 1 as [|k l H _ IH]; [reflexivity|]. cbn [stringify map concat]. fold names. change (a_table al) with names. rewrite (nth_error_nth' names [] H), IH. reflexivity.
  Qed.

  Lemma child_sits n pos c p q e ts ts' p' q' w o : sits3 n (p, q, e, ts) -> child n pos c p' q' w o -> p' < length (sts m) -> q' < length (sts g) ->
    Forall2 tokm (skipn pos input) ts' -> pos <= length input -> child3 n c (p', q', e, ts') w o.
  Proof.
    intros (_ & _ & _ & _ & HF & _ & _ & HN) (k & Ek & ->) Lp Lq HT Hp. unfold child3, sits3. cbn [n_mutator n_lexicon n_flags n_input n_string n_weight].
    split; [|split; [reflexivity|exists k; auto]]. repeat (split; [first [reflexivity|assumption]|]). apply Forall_app. split; [exact HN|]. constructor; [|constructor].
    apply nth_error_Some. congruence.
  Qed.
  Lemma jstep_bounds p y q p' q' w o : q < length (sts g) -> jstep (arcs_of p y) q p' q' w o -> p' < length (sts m) /\ q' < length (sts g).
  Proof.
    intros Hq [(a & Ha & _ & -> & -> & _)|(a & b & Ha & Hb & _ & _ & -> & -> & _)]; apply arcs_of_spec in Ha; destruct Ha as (Ha & _).
    - split; [exact (proj1 (proj2 HSM) p a Ha)|exact Hq].
    - split; [exact (proj1 (proj2 HSM) p a Ha)|exact (proj1 (proj2 HS) q b Hb)].
  Qed.
  Lemma jstep_same l l' q p' q' w o : (forall a, In a l <-> In a l') -> jstep l q p' q' w o -> jstep l' q p' q' w o.
  Proof. intros E [(a & Ha & K)|(a & b & Ha & K)]; [left; exists a|right; exists a, b]; (split; [apply E, Ha|exact K]). Qed.

  Lemma visit3_spec n p q e ts : sits3 n (p, q, e, ts) -> exists o cs, visit3 n = Ok (o, cs)
    /\ (forall c, In c cs -> exists c' w x, step3 (p, q, e, ts) c' w x /\ child3 n c c' w x)
    /\ (forall c' w x, step3 (p, q, e, ts) c' w x -> exists c, In c cs /\ child3 n c c' w x)
    /\ (forall str w, o = Some (str, w) <-> ts = [] /\ exists f1 f2, mget Nat.compare p (fin m) = Some f1 /\ mget Nat.compare q (fin g) = Some f2
          /\ str = spelling n /\ w = (n_weight n + (f2 + f1))%Z).
  Proof.
    intros Hn. pose proof Hn as (Em & Hp & El & Hq & HF & HT & Hi & HN). unfold visit3.
    destruct (lexicon_epsilons_spec dec tr g addr R SM Hsmall HA HW Hdef Hval Hin n e q El Hq HF) as (c1 & E1 & A1 & A2). fold al T in E1. rewrite E1. cbn [rbind].
    assert (X2 : exists c2, mutator_epsilons dec T TM translator n = Ok c2
      /\ (forall c, In c c2 -> exists c' w x, step3 (p, q, e, ts) c' w x /\ child3 n c c' w x)
      /\ (forall p' q' w x, jstep (arcs_of p EPSILON) q p' q' w x -> exists c, In c c2 /\ child3 n c (p', q', e, ts) w x)).
    { unfold mutator_epsilons. rewrite Em. destruct (epsilon_arcs_spec dec trm m addrm RM SMM HsmallM NF p Hp) as (es & l & Ee & Fl & Fo). fold TM in Ee. rewrite Ee. cbn [rbind].
      rewrite push_epsilons_pushes. destruct (pushes_spec n q (n_input n) es l Fo) as (cs & -> & K1 & K2); [intros a Ha; apply Fl in Ha; exact (WK p a (proj1 Ha))|exact El|exact Hq|].
      assert (Sm : forall a, In a l <-> In a (arcs_of p EPSILON)) by (intros a; rewrite arcs_of_spec; apply Fl).
      exists cs. split; [reflexivity|]. split.
      - intros c Hc. destruct (K1 c Hc) as (p' & q' & w & x & J & C). apply (jstep_same _ _ _ _ _ _ _ Sm) in J. destruct (jstep_bounds _ _ _ _ _ _ _ Hq J) as (Lp & Lq).
        exists (p', q', e, ts), w, x. split; [right; left; auto|]. exact (child_sits n _ c p q e ts ts p' q' w x Hn C Lp Lq HT Hi).
      - intros p' q' w x J. destruct (jstep_bounds _ _ _ _ _ _ _ Hq J) as (Lp & Lq). destruct (K2 p' q' w x) as (c & Hc & C); [revert J; apply jstep_same; intros a; symmetry; apply Sm|].
        exists c. split; [exact Hc|]. exact (child_sits n _ c p q e ts ts p' q' w x Hn C Lp Lq HT Hi). }
    destruct X2 as (c2 & -> & B1 & B2). cbn [rbind].
    assert (A1' : forall c, In c c1 -> exists c' w x, step3 (p, q, e, ts) c' w x /\ child3 n c c' w x).
    { intros c Hc. destruct (A1 c Hc) as (b & e' & Hb & St & k & fs & Ek & HF' & ->). exists (p, tgt b, e', ts), (wt b), (osy b). split; [left; exists b; auto 8|].
      unfold child3, sits3. cbn [n_mutator n_lexicon n_flags n_input n_string n_weight]. split; [|split; [reflexivity|exists k; auto]].
      split; [exact Em|]. split; [exact Hp|]. split; [reflexivity|]. split; [exact (proj1 (proj2 HS) q b Hb)|]. split; [exact HF'|]. split; [exact HT|]. split; [exact Hi|].
      apply Forall_app. split; [exact HN|]. constructor; [|constructor]. apply nth_error_Some. unfold names. congruence. }
    assert (A2' : forall b e', In b (nth q (sts g) []) -> free_step e b e' -> exists c, In c c1 /\ child3 n c (p, tgt b, e', ts) (wt b) (osy b)).
    { intros b e' Hb St. destruct (A2 b e' Hb St) as (c & Hc & k & fs & Ek & HF' & ->). eexists. split; [exact Hc|].
      unfold child3, sits3. cbn [n_mutator n_lexicon n_flags n_input n_string n_weight]. split; [|split; [reflexivity|exists k; auto]].
      split; [exact Em|]. split; [exact Hp|]. split; [reflexivity|]. split; [exact (proj1 (proj2 HS) q b Hb)|]. split; [exact HF'|]. split; [exact HT|]. split; [exact Hi|].
      apply Forall_app. split; [exact HN|]. constructor; [|constructor]. apply nth_error_Some. unfold names. congruence. }
    destruct (Nat.eqb_spec (n_input n) (length input)) as [Ei|Ni].
    - rewrite Ei, skipn_all in HT. inversion HT; subst ts.
      assert (X : exists o, outcome_of n = Ok o /\ forall str w, o = Some (str, w) <-> exists f1 f2, mget Nat.compare p (fin m) = Some f1 /\ mget Nat.compare q (fin g) = Some f2
          /\ str = spelling n /\ w = (n_weight n + (f2 + f1))%Z).
      { unfold outcome_of. rewrite Em, El. unfold TM, T. rewrite (final_index_spec dec trm m addrm RM p Hp). cbn [rbind]. destruct (mget Nat.compare p (fin m)) as [f1|] eqn:M1.
        - rewrite (final_index_spec dec tr g addr R q Hq). cbn [rbind]. destruct (mget Nat.compare q (fin g)) as [f2|] eqn:M2.
          + rewrite (stringify_spec _ HN). cbn [rbind]. rewrite (final_weight_spec dec tr g addr R q f2 Hq M2), (final_weight_spec dec trm m addrm RM p f1 Hp M1). cbn [rbind].
            eexists. split; [reflexivity|]. intros str w. split.
            * intros K. injection K as <- <-. exists f1, f2. split; [reflexivity|]. split; [reflexivity|]. split; [reflexivity|lia].
            * intros (f1' & f2' & K1 & K2 & -> & ->). injection K1 as <-. injection K2 as <-. f_equal. f_equal. lia.
          + eexists. split; [reflexivity|]. intros str w. split; [discriminate|]. intros (f1' & f2' & _ & K & _). discriminate K.
        - cbn [rbind]. eexists. split; [reflexivity|]. intros str w. split; [discriminate|]. intros (f1' & f2' & K & _). discriminate K. }
      destruct X as (o & -> & O). cbn [rbind]. exists o, (c1 ++ c2). split; [reflexivity|]. split; [|split].
      + intros c Hc. apply in_app_or in Hc. destruct Hc as [Hc|Hc]; [exact (A1' c Hc)|exact (B1 c Hc)].
      + intros (((p' & q') & e') & ts') w x [(b & Hb & St & -> & -> & -> & -> & ->)|[(J & -> & ->)|(y & z & C & _)]]; [| |discriminate C].
        * destruct (A2' b e' Hb St) as (c & Hc & K). exists c. split; [apply in_or_app; left; exact Hc|exact K].
        * destruct (B2 _ _ _ _ J) as (c & Hc & K). exists c. split; [apply in_or_app; right; exact Hc|exact K].
      + intros str w. rewrite O. split; [auto|tauto].
    - assert (X3 : exists c3, consume_input dec T TM translator input n = Ok c3
        /\ (forall c, In c c3 -> exists c' w x, step3 (p, q, e, ts) c' w x /\ child3 n c c' w x)
        /\ (forall p' q' ts' w x y z, ts = y :: ts' -> read_as y z -> jstep (arcs_of p z) q p' q' w x -> exists c, In c c3 /\ child3 n c (p', q', e, ts') w x)).
      { unfold consume_input. destruct (skipn (n_input n) input) as [|k rest] eqn:Sk; [exfalso; pose proof (skipn_length (n_input n) input) as L; rewrite Sk in L; simpl in L; lia|].
        destruct (skipn_nth _ _ _ _ Sk) as (Ek & Sk'). rewrite Ek, Em. inversion HT as [|? x0 ? ts1 (y0 & Ry & Iy & Ny) HT' E1' E2']; subst.
        destruct (symbol_arcs_spec dec trm m addrm RM SMM HsmallM p k y0 Hp Ny Iy) as (es & Ee & Fo). fold TM in Ee. rewrite Ee. cbn [rbind]. rewrite push_consumed_pushes.
        assert (Hp' : S (n_input n) <= length input) by (apply nth_error_Some; congruence).
        destruct (pushes_spec n q (S (n_input n)) es _ Fo) as (cs & -> & K1 & K2); [intros a Ha; apply arcs_of_spec in Ha; exact (WK p a (proj1 Ha))|exact El|exact Hq|].
        exists cs. split; [reflexivity|]. split.
        - intros c Hc. destruct (K1 c Hc) as (p' & q' & w & x & J & C). destruct (jstep_bounds _ _ _ _ _ _ _ Hq J) as (Lp & Lq).
          exists (p', q', e, ts1), w, x. split; [right; right; exists x0, y0; auto|]. refine (child_sits n _ c p q e _ ts1 p' q' w x Hn C Lp Lq _ Hp'). exact HT'.
        - intros p' q' ts' w x y z E Rz J. injection E as <- <-. assert (z = y0) as ->.
          { destruct Ry as [(Q1 & ->)|(Q1 & ->)], Rz as [(Q2 & ->)|(Q2 & ->)]; try reflexivity; contradiction. }
          destruct (jstep_bounds _ _ _ _ _ _ _ Hq J) as (Lp & Lq). destruct (K2 _ _ _ _ J) as (c & Hc & C). exists c. split; [exact Hc|].
          refine (child_sits n _ c p q e _ ts1 p' q' w x Hn C Lp Lq _ Hp'). exact HT'. }
      destruct X3 as (c3 & -> & D1 & D2). cbn [rbind]. exists None, (c1 ++ c2 ++ c3). split; [reflexivity|]. split; [|split].
      + intros c Hc. apply in_app_or in Hc. destruct Hc as [Hc|Hc]; [exact (A1' c Hc)|]. apply in_app_or in Hc. destruct Hc as [Hc|Hc]; [exact (B1 c Hc)|exact (D1 c Hc)].
      + intros (((p' & q') & e') & ts') w x [(b & Hb & St & -> & -> & -> & -> & ->)|[(J & -> & ->)|(y & z & Ey & Rz & J & ->)]].
        * destruct (A2' b e' Hb St) as (c & Hc & K). exists c. split; [apply in_or_app; left; exact Hc|exact K].
        * destruct (B2 _ _ _ _ J) as (c & Hc & K). exists c. split; [apply in_or_app; right; apply in_or_app; left; exact Hc|exact K].
        * destruct (D2 _ _ _ _ _ _ _ Ey Rz J) as (c & Hc & K). exists c. split; [apply in_or_app; right; apply in_or_app; right; exact Hc|exact K].
      + intros str w. split; [discriminate|]. intros (-> & _). inversion HT as [H0|]. exfalso. pose proof (skipn_length (n_input n) input) as L. rewrite <- H0 in L. simpl in L. lia.
  Qed.

  (** ** Runs of steps are corrections *)
  Inductive joint : config3 -> Z -> list bstr -> Prop :=
  | jo_end p q e f1 f2 : mget Nat.compare p (fin m) = Some f1 -> mget Nat.compare q (fin g) = Some f2 -> joint (p, q, e, []) (f2 + f1) []
  | jo_step c c' w w' o out : step3 c c' w o -> joint c' w' out -> joint c (w + w') (o :: out).
  Lemma joint_correction p q e ts w out : joint (p, q, e, ts) w out <-> correction m g p q e ts w out.
  Proof.
    split.
    - intros H. remember (p, q, e, ts) as c eqn:Ec. revert p q e ts Ec. induction H as [p0 q0 e0 f1 f2 M1 M2|c c' w w' o out St J IH]; intros p q e ts Ec.
      + injection Ec as -> -> -> <-. apply co_end; assumption.
      + subst c. destruct c' as (((p' & q') & e') & ts'). specialize (IH _ _ _ _ eq_refl).
        assert (Jn : forall y ts'', jstep (arcs_of p y) q p' q' w o -> e' = e -> (forall a, In a (nth p (sts m) []) -> isy a = y -> reads m a ts'' ts') -> correction m g p q e ts'' (w + w') (o :: out)).
        { intros y ts'' [(a & Ha & Eo & -> & -> & -> & ->)|(a & b & Ha & Hb & Eb & Fb & -> & -> & -> & ->)] -> Rd; apply arcs_of_spec in Ha; destruct Ha as (Ha & Ei).
          - eapply co_erased; eauto.
          - eapply co_written; eauto. }
        destruct St as [(b & Hb & [(Eb & ->)|(x & Dx & Sx & ->)] & -> & -> & -> & -> & ->)|[(Js & E1 & ->)|(x & y & -> & Rx & Js & E1)]].
        * apply co_epsilon; assumption.
        * eapply co_flag; eassumption.
        * apply (Jn EPSILON ts Js E1). intros a Ha Ei. apply re_nothing, Ei.
        * apply (Jn y (x :: ts') Js E1). intros a Ha Ei. destruct Rx as [(Ix & ->)|(Nx & ->)]; [apply re_known; assumption|apply re_unknown; assumption].
    - induction 1 as [p q e f1 f2 M1 M2|p q e ts w out b Hb Eb C IH|p q e ts w out b x Hb Db Sb C IH|p q e ts ts' w out a Ha Ra Eo C IH|p q e ts ts' w out a b Ha Ra Hb Eb Fb C IH].
      + apply jo_end; assumption.
      + eapply jo_step; [|exact IH]. left. exists b. split; [exact Hb|]. split; [left; auto|auto 6].
      + eapply jo_step; [|exact IH]. left. exists b. split; [exact Hb|]. split; [right; eauto|auto 6].
      + assert (J : jstep (arcs_of p (isy a)) q (tgt a) q (wt a) EPSILON) by (left; exists a; split; [apply arcs_of_spec; auto|auto 6]).
        eapply jo_step; [|exact IH]. inversion Ra as [ts0 Ei|x ts0 Ei Ix|x ts0 Ei Nx]; subst.
        * right. left. rewrite Ei in J. auto.
        * right. right. exists (isy a), (isy a). split; [reflexivity|]. split; [left; auto|auto].
        * right. right. exists x, UNKNOWN. rewrite Ei in J. split; [reflexivity|]. split; [right; auto|auto].
      + assert (J : jstep (arcs_of p (isy a)) q (tgt a) (tgt b) (wt b + wt a) (osy b)) by (right; exists a, b; split; [apply arcs_of_spec; auto|auto 8]).
        eapply jo_step; [|exact IH]. inversion Ra as [ts0 Ei|x ts0 Ei Ix|x ts0 Ei Nx]; subst.
        * right. left. rewrite Ei in J. auto.
        * right. right. exists (isy a), (isy a). split; [reflexivity|]. split; [left; auto|auto].
        * right. right. exists x, UNKNOWN. rewrite Ei in J. split; [reflexivity|]. split; [right; auto|auto].
  Qed.
  Lemma app_tail_inj {A} (l : list A) x y : l ++ [x] = l ++ [y] -> x = y.
  Proof. intros E. apply app_inv_head in E. congruence. Qed.
  Lemma joint_same c w out : joint c w out -> forall n c', sits3 n c -> sits3 n c' -> joint c' w out.
  Proof.
    induction 1 as [p q e f1 f2 M1 M2|c c1 w w' o out St J IH]; intros n c' S1 S2.
    - destruct c' as (((p' & q') & e') & ts'). pose proof S1 as (A1 & A2 & A3 & A4 & _ & A5 & A6 & _). pose proof S2 as (B1 & B2 & B3 & B4 & _ & B5 & _).
      assert (p' = p) as -> by (apply (rep_apart _ _ _ _ RM); congruence). assert (q' = q) as -> by (apply (rep_apart _ _ _ _ R); congruence).
      inversion A5 as [H0|]. rewrite <- H0 in B5. inversion B5. apply jo_end; assumption.
    - destruct c as (((p & q) & e) & ts), c' as (((p' & q') & e') & ts').
      destruct (visit3_spec n p q e ts S1) as (o1 & cs & Ev & _ & K2 & _), (visit3_spec n p' q' e' ts' S2) as (o2 & cs' & Ev' & K1' & _ & _). rewrite Ev in Ev'. injection Ev' as <- <-.
      destruct (K2 c1 w o St) as (ch & Hch & C1 & W1 & k1 & N1 & Str1). destruct (K1' ch Hch) as (c2 & w2 & o2 & St2 & C2 & W2 & k2 & N2 & Str2).
      assert (w2 = w) as -> by lia. rewrite Str1 in Str2. apply app_tail_inj in Str2. subst k2. assert (o2 = o) as -> by congruence.
      exact (jo_step _ _ _ _ _ _ St2 (IH ch c2 C1 C2)).
  Qed.

  Definition outcome3 (n : node) (str : bstr) (w : Z) : Prop :=
    exists c w' out, sits3 n c /\ joint c w' out /\ str = spelling n ++ concat out /\ w = (n_weight n + w')%Z.
  Definition good3 (n : node) : Prop := exists c, sits3 n c.
  Lemma child_spelling n c c' w o : child3 n c c' w o -> spelling c = spelling n ++ o.
  Proof.
    intros (_ & _ & k & Ek & Es). unfold spelling. rewrite Es, map_app, concat_app. f_equal. simpl. rewrite app_nil_r. apply nth_error_nth, Ek.
  Qed.
  Lemma visit3_outcome n : good3 n -> exists o cs, visit3 n = Ok (o, cs) /\ (forall c, In c cs -> good3 c)
    /\ forall str w, outcome3 n str w <-> o = Some (str, w) \/ exists c, In c cs /\ outcome3 c str w.
  Proof.
    intros ((((p & q) & e) & ts) & Hn). destruct (visit3_spec n p q e ts Hn) as (o & cs & Ev & K1 & K2 & O). exists o, cs. split; [exact Ev|]. split.
    { intros c Hc. destruct (K1 c Hc) as (c' & w & x & _ & C & _). exists c'. exact C. }
    intros str w. split.
    - intros (c0 & w' & out & S0 & J & -> & ->). pose proof (joint_same c0 w' out J n (p, q, e, ts) S0 Hn) as J'. inversion J' as [p0 q0 e0 f1 f2 M1 M2|c c' w1 w2 x out' St J2]; subst.
      + left. apply O. split; [reflexivity|]. exists f1, f2. cbn [concat]. rewrite app_nil_r. auto.
      + right. destruct (K2 c' w1 x St) as (ch & Hch & Ch). exists ch. split; [exact Hch|]. pose proof (child_spelling _ _ _ _ _ Ch) as Sp. destruct Ch as (C1 & W1 & _).
        exists c', w2, out'. split; [exact C1|]. split; [exact J2|]. rewrite Sp, W1. cbn [concat]. split; [rewrite <- app_assoc; reflexivity|lia].
    - intros [K|(ch & Hch & c0 & w' & out & S0 & J & -> & ->)].
      + apply O in K. destruct K as (-> & f1 & f2 & M1 & M2 & -> & ->). exists (p, q, e, []), (f2 + f1)%Z, []. split; [exact Hn|]. split; [apply jo_end; assumption|].
        cbn [concat]. rewrite app_nil_r. auto.
      + destruct (K1 ch Hch) as (c' & w1 & x & St & Ch). pose proof (child_spelling _ _ _ _ _ Ch) as Sp. destruct Ch as (C1 & W1 & _).
        exists (p, q, e, ts), (w1 + w')%Z, (x :: out). split; [exact Hn|]. split; [exact (jo_step _ _ _ _ _ _ St (joint_same c0 w' out J ch c' S0 C1))|].
        rewrite Sp, W1. cbn [concat]. split; [rewrite <- app_assoc; reflexivity|lia].
  Qed.

  (** ** Termination *)
  Fixpoint low3 (d : nat) (c : config3) : Prop :=
    match d with O => forall c' w o, ~ step3 c c' w o | S d' => forall c' w o, step3 c c' w o -> low3 d' c' end.
  Definition height3 (d : nat) (n : node) : Prop := exists c, sits3 n c /\ low3 d c.
  Lemma height3_down d n o cs : good3 n -> height3 d n -> visit3 n = Ok (o, cs) -> forall c, In c cs -> match d with O => False | S d' => height3 d' c end.
  Proof.
    intros _ ((((p & q) & e) & ts) & Hn & L) E c Hc. destruct (visit3_spec n p q e ts Hn) as (o' & cs' & Ev & K1 & _). rewrite E in Ev. injection Ev as <- <-.
    destruct (K1 c Hc) as (c' & w & x & St & C & _). destruct d; [exact (L c' w x St)|]. exists c'. split; [exact C|]. exact (L c' w x St).
  Qed.
End Correct.
