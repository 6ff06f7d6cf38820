From Verif Require Import Base BT_Model BT_Spec BT_Proofs Str_Model Str_Spec Str_Proofs ATT_Model ATT_Spec ATT_Proofs.
From Coq Require Import Lia NArith ZArith.

(** * The lines as updates *)
Inductive item := Trans (s : nat) (a : arc) | Final (s : nat) (w : Z).
Definition apply (g : graph) (it : item) : graph :=
  match it with Trans s a => add_transition g s a true | Final s w => set_final_weight g s w end.
Definition keep_arc (weights : bool) (a : arc) : arc := Arc (tgt a) (isy a) (osy a) (keep_weight weights (wt a)).
Definition state_items (weights : bool) (g : graph) (x : list arc) (s : nat) : list item :=
  map (fun a => Trans s (keep_arc weights a)) x ++
  match finw g s with Some w => [Final s (keep_weight weights w)] | None => [] end.
Fixpoint items (weights : bool) (g : graph) (l : list (list arc)) (s : nat) : list item :=
  match l with [] => [] | x :: r => state_items weights g x s ++ items weights g r (S s) end.

Definition short_fields (line : bstr) : Prop :=
  forall a l b, line = a ++ l ++ b -> Forall (fun c => ~ white c) l -> length l <= 99.
Definition reads (eps line : bstr) (it : item) : Prop :=
  exists l, line = l ++ [nl] /\ ~ In nl l /\ no_nul line /\ (exists c r, l = c :: r /\ is_digit c) /\
  (short_fields line -> forall g, add_att_line eps line g = Ok (Some (apply g it))).

Lemma tabbed_has ws w : In w ws -> exists a b, tabbed ws = a ++ w ++ b.
Proof.
  induction ws as [|v ws IH]; [easy|]. intros [->|H].
  - destruct ws as [|u ws]; [exists [], [nl]; reflexivity|].
    exists [], ([tab] ++ tabbed (u :: ws)). reflexivity.
  - destruct ws as [|u ws]; [destruct H|]. destruct (IH H) as (a & b & E).
    exists (v ++ [tab] ++ a), b. change (tabbed (v :: u :: ws)) with (v ++ [tab] ++ tabbed (u :: ws)).
    rewrite E. now rewrite <- !app_assoc.
Qed.
Lemma not_white_false c : is_white c = false <-> ~ white c.
Proof. rewrite <- is_white_iff. destruct (is_white c); split; congruence. Qed.
Lemma fields_tabbed ws : Forall word ws -> length ws <= 5 -> short_fields (tabbed ws) -> att_fields (tabbed ws) = Ok ws.
Proof.
  intros W L S. unfold att_fields. rewrite split_tabbed by auto. rewrite firstn_all2 by auto.
  replace (existsb (fun x => 100 <=? length x) ws) with false; auto.
  symmetry. apply not_true_is_false. intros E. apply existsb_exists in E. destruct E as (x & I & E).
  apply Nat.leb_le in E. destruct (tabbed_has ws x I) as (a & b & T).
  rewrite Forall_forall in W. destruct (W x I) as [_ Wx].
  assert (length x <= 99).
  { apply (S a x b T). eapply Forall_impl; [|exact Wx]. intros c. apply not_white_false. }
  lia.
Qed.
(** A tabbed line without its newline. *)
Lemma tabbed_line ws : ws <> [] -> Forall word ws -> Forall no_nul ws ->
  exists l, tabbed ws = l ++ [nl] /\ ~ In nl l /\ no_nul (tabbed ws) /\ (forall w r, ws = w :: r -> exists t, l = w ++ t).
Proof.
  induction ws as [|w ws IH]; intros NN W U; [easy|].
  inversion W as [|? ? Ww Wr]; subst. inversion U as [|? ? Uw Ur]; subst.
  assert (Nw : ~ In nl w).
  { intros I. destruct Ww as [_ Ww]. rewrite Forall_forall in Ww. discriminate (Ww _ I). }
  destruct ws as [|v ws].
  - exists w. split; [reflexivity|]. split; auto. split.
    + cbn [tabbed]. apply no_nul_app; auto. intros [E|[]]; discriminate.
    + intros ? ? E. injection E as <- <-. exists []. now rewrite app_nil_r.
  - destruct IH as (l & E & Nl & Un & _); auto; [discriminate|].
    exists (w ++ [tab] ++ l). change (tabbed (w :: v :: ws)) with (w ++ [tab] ++ tabbed (v :: ws)).
    rewrite E in *. split; [now rewrite <- !app_assoc|]. split.
    + rewrite !in_app_iff. intros [H|[[H|[]]|H]]; auto. discriminate.
    + split.
      * apply no_nul_app; auto. apply no_nul_app; auto. intros [H|[]]; discriminate.
      * intros ? ? E'. injection E' as <- <-. eauto.
Qed.
Lemma print_int_small n : (n < 2 ^ 31)%N -> print_int n = print_nat n.
Proof. intros H. unfold print_int. apply N.ltb_lt in H. now rewrite H. Qed.
Lemma read_symbol_plain eps x e : att_plain eps x -> att_escape x = Ok e -> att_read_symbol eps e = Ok x.
Proof.
  intros (NN & AR & _ & _ & Q) E. destruct (att_roundtrip x AR) as (e' & E1 & E2).
  rewrite E in E1. injection E1 as <-. unfold att_read_symbol. rewrite E2. cbn [rmap].
  destruct (bstr_eqb eps x) eqn:B; auto. apply bstr_eqb_eq in B. symmetry in B. rewrite (Q B). reflexivity.
Qed.
Lemma first_digit n t : exists c r, print_nat n ++ t = c :: r /\ is_digit c.
Proof.
  pose proof (print_nat_nonnil n). pose proof (print_nat_digits n) as D.
  destruct (print_nat n) as [|c r]; [easy|]. exists c, (r ++ t). split; auto. now inversion D.
Qed.

Lemma arc_line_reads eps weights s a line :
  (N.of_nat s < 2 ^ 31)%N -> (N.of_nat (tgt a) < 2 ^ 31)%N -> att_plain eps (isy a) -> att_plain eps (osy a) ->
  att_arc_line weights s a = Ok line -> reads eps line (Trans s (keep_arc weights a)).
Proof.
  intros Hs Ht Pi Po E. unfold att_arc_line in E.
  destruct (att_escape (isy a)) as [i| | |] eqn:Ei; try discriminate. cbn [rbind] in E.
  destruct (att_escape (osy a)) as [o| | |] eqn:Eo; try discriminate. cbn [rbind] in E.
  destruct (att_escape_word _ _ _ Pi Ei) as [Wi Ui]. destruct (att_escape_word _ _ _ Po Eo) as [Wo Uo].
  rewrite !c_str_id in E by auto.
  set (ws := [print_nat (N.of_nat s); print_nat (N.of_nat (tgt a)); i; o] ++ (if weights then [print_float (wt a)] else [])).
  assert (L : line = tabbed ws).
  { injection E as <-. rewrite !print_int_small by auto. unfold ws. destruct weights; cbn [app tabbed]; now rewrite <- ?app_assoc. }
  assert (W : Forall word ws).
  { unfold ws. apply Forall_app. split.
    - constructor; [apply word_print_nat|]. constructor; [apply word_print_nat|]. constructor; auto.
    - destruct weights; constructor; auto. apply word_print_float. }
  assert (U : Forall no_nul ws).
  { unfold ws. apply Forall_app. split.
    - constructor; [apply no_nul_digits, print_nat_digits|]. constructor; [apply no_nul_digits, print_nat_digits|]. constructor; auto.
    - destruct weights; constructor; auto. apply word_print_float. }
  destruct (tabbed_line ws) as (l & E1 & E2 & E3 & E4); auto; [discriminate|].
  exists l. rewrite L. repeat split; auto.
  - destruct (E4 _ _ eq_refl) as (t & ->). apply first_digit.
  - intros S g. unfold add_att_line. rewrite fields_tabbed; auto; [|unfold ws; destruct weights; simpl; lia].
    cbn [rbind]. unfold ws. rewrite <- !(print_int_small (N.of_nat _)) by auto.
    destruct weights; cbn [app]; rewrite (read_symbol_plain _ _ _ Pi Ei), (read_symbol_plain _ _ _ Po Eo); cbn [rbind];
      rewrite !atoi_print by auto; cbn [rbind]; rewrite !state_of_int_nat by auto; rewrite ?atof_print; reflexivity.
Qed.
Lemma final_line_reads eps weights s w : (N.of_nat s < 2 ^ 31)%N -> reads eps (att_final_line weights s w) (Final s (keep_weight weights w)).
Proof.
  intros Hs. unfold att_final_line.
  set (ws := [print_nat (N.of_nat s)] ++ (if weights then [print_float w] else [])).
  assert (L : print_int (N.of_nat s) ++ (if weights then [tab] ++ print_float w else []) ++ [nl] = tabbed ws).
  { rewrite !print_int_small by auto. unfold ws. destruct weights; reflexivity. }
  rewrite L. clear L.
  assert (W : Forall word ws).
  { unfold ws. apply Forall_app. split.
    - constructor; [apply word_print_nat|]. constructor.
    - destruct weights; constructor; auto. apply word_print_float. }
  assert (U : Forall no_nul ws).
  { unfold ws. apply Forall_app. split.
    - constructor; [apply no_nul_digits, print_nat_digits|]. constructor.
    - destruct weights; constructor; auto. apply word_print_float. }
  destruct (tabbed_line ws) as (l & E1 & E2 & E3 & E4); auto; [discriminate|].
  exists l. repeat split; auto.
  - destruct (E4 _ _ eq_refl) as (t & ->). apply first_digit.
  - intros S g. unfold add_att_line. rewrite fields_tabbed; auto; [|unfold ws; destruct weights; simpl; lia].
    cbn [rbind]. unfold ws. rewrite <- !(print_int_small (N.of_nat _)) by auto.
    destruct weights; cbn [app]; rewrite !atoi_print by auto; cbn [rbind];
      rewrite !state_of_int_nat by auto; rewrite ?atof_print; reflexivity.
Qed.

(** The text is the concatenation of lines that read back as the items. *)
Definition ok_arc eps (n : nat) (a : arc) : Prop := (N.of_nat (tgt a) < 2 ^ 31)%N /\ att_plain eps (isy a) /\ att_plain eps (osy a).
Lemma arc_lines_reads eps weights s l : (N.of_nat s < 2 ^ 31)%N -> Forall (ok_arc eps s) l -> forall t, att_arc_lines weights s l = Ok t ->
  exists ls, t = concat ls /\ Forall2 (reads eps) ls (map (fun a => Trans s (keep_arc weights a)) l).
Proof.
  intros Hs. induction l as [|a l IH]; intros F t E; cbn [att_arc_lines] in E.
  - injection E as <-. exists []. split; auto. constructor.
  - inversion F as [|? ? (H1 & H2 & H3) Fr]; subst.
    destruct (att_arc_line weights s a) as [x| | |] eqn:Ex; try discriminate. cbn [rbind] in E.
    destruct (att_arc_lines weights s l) as [u| | |] eqn:Eu; try discriminate. cbn [rmap] in E. injection E as <-.
    destruct (IH Fr u eq_refl) as (ls & -> & R). exists (x :: ls). split; auto.
    constructor; auto. now apply arc_line_reads.
Qed.
Lemma states_reads eps weights g l : forall s t, (N.of_nat (s + length l) <= 2 ^ 31)%N ->
  (forall x, In x l -> Forall (ok_arc eps s) x) -> att_states weights g l s = Ok t ->
  exists ls, t = concat ls /\ Forall2 (reads eps) ls (items weights g l s).
Proof.
  induction l as [|x l IH]; intros s t Hs F E; cbn [att_states] in E.
  - injection E as <-. exists []. split; auto. constructor.
  - simpl in Hs. destruct (att_arc_lines weights s x) as [u| | |] eqn:Eu; try discriminate. cbn [rbind] in E.
    destruct (att_states weights g l (S s)) as [v| | |] eqn:Ev; try discriminate. cbn [rmap] in E. injection E as <-.
    destruct (arc_lines_reads eps weights s x) with (t := u) as (l1 & -> & R1); auto; [lia|apply F; now left|].
    destruct (IH (S s) v) as (l2 & -> & R2); auto; [lia|intros y Hy; apply F; now right|].
    cbn [items]. unfold state_items. destruct (finw g s) as [w|].
    + exists ((l1 ++ [att_final_line weights s w]) ++ l2). split.
      * rewrite !concat_app. simpl. rewrite app_nil_r. now rewrite <- app_assoc.
      * apply Forall2_app; auto. apply Forall2_app; auto. constructor; auto. apply final_line_reads. lia.
    + exists (l1 ++ l2). split; [now rewrite concat_app|]. rewrite app_nil_r. now apply Forall2_app.
Qed.

(** * The reading loop *)
Definition short_line (line : bstr) : Prop := length line <= 254 /\ short_fields line.
Lemma is_empty_digit c r : is_digit c -> is_empty_line (c :: r) = false.
Proof.
  intros [d H]. unfold is_empty_line. destruct c as [[] [] [] [] [] [] [] []]; try reflexivity; discriminate.
Qed.
Lemma is_separator_digit c r : is_digit c -> is_separator (c :: r) = false.
Proof.
  intros [d H]. unfold is_separator. destruct c as [[] [] [] [] [] [] [] []]; try reflexivity; discriminate.
Qed.
Lemma loop_lines eps ls its : Forall2 (reads eps) ls its -> Forall short_line ls -> forall fuel rest count g,
  att_loop (length ls + fuel) eps (Stream (concat ls ++ rest) false) count g =
  att_loop fuel eps (Stream rest false) (length ls + count) (fold_left apply its g).
Proof.
  intros R. induction R as [|line it ls its Rl R IH]; intros S fuel rest count g; auto.
  inversion S as [|? ? (S1 & S2) Sr]; subst.
  destruct Rl as (l & -> & Nl & U & (c & r & -> & D) & A).
  cbn [length Nat.add att_loop concat fold_left].
  unfold fgets. cbn [bytes eof]. rewrite <- !app_assoc.
  change ([nl] ++ concat ls ++ rest) with (nl :: (concat ls ++ rest)).
  rewrite take_line_line; auto; [|rewrite app_length in S1; simpl in *; lia].
  cbn [orb app].
  rewrite is_empty_digit, is_separator_digit by auto. rewrite c_str_id by auto.
  change (c :: r ++ [nl]) with ((c :: r) ++ [nl]). rewrite A by auto. cbn [rbind].
  rewrite IH by auto. f_equal. lia.
Qed.
Lemma lines_short ls : short_lines (concat ls) -> (forall line, In line ls -> exists l, line = l ++ [nl] /\ ~ In nl l) -> Forall short_line ls.
Proof.
  intros [S1 S2] H. apply Forall_forall. intros line I. apply in_split in I as J. destruct J as (a & b & ->).
  destruct (H line I) as (l & -> & N). rewrite concat_app in S1, S2. cbn [concat] in S1, S2. split.
  - rewrite app_length. simpl. specialize (S1 (concat a) l ([nl] ++ concat b)).
    rewrite <- !app_assoc in S1. specialize (S1 eq_refl N). lia.
  - intros x y z E W. apply (S2 (concat a ++ x) y (z ++ concat b)); auto.
    rewrite E. now rewrite <- !app_assoc.
Qed.
Lemma concat_length_ge ls : Forall short_line ls -> (forall line, In line ls -> line <> []) -> length ls <= length (concat ls).
Proof.
  intros _ H. induction ls as [|x ls IH]; simpl; auto. rewrite app_length.
  assert (x <> []) by (apply H; now left). destruct x; [easy|]. simpl.
  specialize (IH (fun l I => H l (or_intror I))). lia.
Qed.

(** * What the updates build *)
Definition trans_of (s : nat) (its : list item) : list arc :=
  flat_map (fun it => match it with Trans t a => if t =? s then [a] else [] | _ => [] end) its.
Fixpoint fin_of (s : nat) (its : list item) (acc : option Z) : option Z :=
  match its with
  | [] => acc
  | Final t w :: r => fin_of s r (if t =? s then Some w else acc)
  | _ :: r => fin_of s r acc
  end.
Definition touches (n : nat) (it : item) : Prop :=
  match it with Trans s a => n <= s \/ n <= tgt a | Final s _ => n <= s end.
Lemma apply_content its : forall g,
  let g' := fold_left apply its g in
  (forall s, arcs g' s = arcs g s ++ trans_of s its) /\
  (forall s, finw g' s = fin_of s its (finw g s)) /\
  (forall x, In x (alpha g') <-> In x (alpha g) \/ exists s a, In (Trans s a) its /\ (x = isy a \/ x = osy a)) /\
  (forall n, n < length (sts g') <-> n < length (sts g) \/ exists it, In it its /\ touches n it).
Proof.
  induction its as [|it its IH]; intros g; cbn [fold_left].
  - cbn. repeat split; intros; rewrite ?app_nil_r; auto; try tauto.
    + destruct H as [H|(s & a & [] & _)]; auto.
    + destruct H as [H|(i & [] & _)]; auto.
  - destruct (IH (apply g it)) as (A & F & X & L). cbn zeta. clear IH. destruct it as [s a|s w]; cbn [apply] in *.
    + repeat split.
      * intros t. rewrite A, arcs_add_transition. cbn [trans_of flat_map]. rewrite (Nat.eqb_sym s t).
        destruct (Nat.eqb_spec t s) as [->|]; cbn [app]; rewrite <- ?app_assoc; reflexivity.
      * intros t. rewrite F. unfold finw. now rewrite fin_add_transition.
      * rewrite X, In_alpha_add_transition. intros [[H|[H|H]]|(t & b & I & H)]; subst; eauto 8 using in_eq, in_cons.
      * rewrite X, In_alpha_add_transition. intros [H|(t & b & [E|I] & H)]; auto.
        -- injection E as <- <-. left. destruct H; auto.
        -- right. eauto.
      * rewrite L, length_add_transition. intros [H|(i & I & T)]; [|eauto using in_cons].
        destruct (Nat.lt_ge_cases n (length (sts g))); auto. right. exists (Trans s a). split; [now left|]. simpl. lia.
      * rewrite L, length_add_transition. intros [H|(i & [<-|I] & T)]; [lia| |eauto].
        simpl in T. lia.
    + repeat split.
      * intros t. rewrite A. cbn. unfold arcs. simpl. f_equal. apply (arcs_add_state_n g s t).
      * intros t. rewrite F. cbn [fin_of]. f_equal. unfold finw, set_final_weight. cbn [with_fin fin].
        destruct (Nat.eqb_spec s t) as [->|N].
        -- apply (mget_mset_same _ Nat.compare_eq_iff).
        -- apply (mget_mset_other _ Nat.compare_eq_iff). auto.
      * rewrite X. cbn. intros [H|(t & b & I & H)]; eauto 8 using in_cons.
      * rewrite X. cbn. intros [H|(t & b & [E|I] & H)]; eauto 8. discriminate.
      * rewrite L. change (sts (set_final_weight g s w)) with (sts (add_state_n g s)). rewrite length_add_state_n.
        intros [H|(i & I & T)]; [|eauto using in_cons].
        destruct (Nat.lt_ge_cases n (length (sts g))); auto. right. exists (Final s w). split; [now left|]. simpl. lia.
      * rewrite L. change (sts (set_final_weight g s w)) with (sts (add_state_n g s)). rewrite length_add_state_n.
        intros [H|(i & [<-|I] & T)]; [lia| |eauto]. simpl in T. lia.
Qed.

(** The items of a graph. *)
Lemma trans_of_app s a b : trans_of s (a ++ b) = trans_of s a ++ trans_of s b.
Proof. apply flat_map_app. Qed.
Lemma trans_of_state weights g x k s : trans_of s (state_items weights g x k) = if k =? s then map (keep_arc weights) x else [].
Proof.
  unfold state_items. rewrite trans_of_app.
  assert (E : trans_of s match finw g k with Some w => [Final k (keep_weight weights w)] | None => [] end = []) by (destruct (finw g k); reflexivity).
  rewrite E, app_nil_r. clear E. induction x as [|a x IH]; simpl; [now destruct (k =? s)|].
  unfold trans_of in *. destruct (k =? s); simpl; congruence.
Qed.
Lemma trans_of_items weights g l : forall k s, trans_of s (items weights g l k) =
  if s <? k then [] else map (keep_arc weights) (nth (s - k) l []).
Proof.
  induction l as [|x l IH]; intros k s; cbn [items].
  - destruct (s <? k), (s - k); reflexivity.
  - rewrite trans_of_app, trans_of_state, IH.
    destruct (Nat.eqb_spec k s) as [->|N].
    + replace (s <? S s) with true by (symmetry; apply Nat.ltb_lt; lia).
      rewrite Nat.ltb_irrefl, Nat.sub_diag, app_nil_r. reflexivity.
    + cbn [app]. destruct (Nat.ltb_spec s k), (Nat.ltb_spec s (S k)); try lia; auto.
      replace (s - k) with (S (s - S k)) by lia. reflexivity.
Qed.
Lemma fin_of_app s a : forall b acc, fin_of s (a ++ b) acc = fin_of s b (fin_of s a acc).
Proof. induction a as [|[t a0|t w] a IH]; intros b acc; simpl; auto. Qed.
Lemma fin_of_trans s k l acc : fin_of s (map (fun a => Trans k a) l) acc = acc.
Proof. induction l; simpl; auto. Qed.
Lemma fin_of_items weights g l : forall k s acc, (finw g s = None -> acc = None) ->
  fin_of s (items weights g l k) acc =
  if (k <=? s) && (s <? k + length l) then option_map (keep_weight weights) (finw g s) else acc.
Proof.
  induction l as [|x l IH]; intros k s acc Hacc; cbn [items].
  - simpl. destruct (Nat.leb_spec k s), (Nat.ltb_spec s (k + 0)); auto; lia.
  - rewrite fin_of_app. unfold state_items. rewrite fin_of_app.
    rewrite <- (map_map (keep_arc weights) (fun a => Trans k a)), fin_of_trans.
    destruct (Nat.eq_dec k s) as [->|N].
    + replace ((s <=? s) && (s <? s + length (x :: l))) with true
        by (symmetry; apply andb_true_intro; split; [apply Nat.leb_le; lia|apply Nat.ltb_lt; simpl; lia]).
      destruct (finw g s) as [w|] eqn:E.
      * cbn [fin_of]. rewrite Nat.eqb_refl. rewrite IH by congruence.
        replace ((S s <=? s) && _) with false; [reflexivity|].
        symmetry. apply andb_false_iff. left. apply Nat.leb_gt. lia.
      * cbn [fin_of]. rewrite IH by auto. rewrite (Hacc eq_refl). destruct (_ && _); simpl; now rewrite ?E.
    + assert (E : fin_of s match finw g k with Some w => [Final k (keep_weight weights w)] | None => [] end acc = acc).
      { destruct (finw g k); auto. simpl. destruct (Nat.eqb_spec k s); auto. congruence. }
      rewrite E, IH by auto.
      destruct (Nat.leb_spec (S k) s), (Nat.ltb_spec s (S k + length l)), (Nat.leb_spec k s), (Nat.ltb_spec s (k + length (x :: l)));
        simpl in *; auto; lia.
Qed.
Lemma In_trans_of s a its : In a (trans_of s its) <-> In (Trans s a) its.
Proof.
  unfold trans_of. rewrite in_flat_map. split.
  - intros ([t b|t w] & I & J); [|destruct J]. destruct (Nat.eqb_spec t s) as [->|]; [|destruct J].
    destruct J as [->|[]]. exact I.
  - intros I. exists (Trans s a). split; auto. rewrite Nat.eqb_refl. now left.
Qed.
Lemma In_items_trans weights g s a : In (Trans s a) (items weights g (sts g) 0) <->
  exists b, In b (arcs g s) /\ a = keep_arc weights b.
Proof.
  rewrite <- In_trans_of, trans_of_items, Nat.sub_0_r. simpl. rewrite in_map_iff. split; intros (b & H1 & H2); exists b; auto.
Qed.
Lemma In_items_final weights g l : forall k s w, In (Final s w) (items weights g l k) <->
  k <= s < k + length l /\ exists v, finw g s = Some v /\ w = keep_weight weights v.
Proof.
  induction l as [|x l IH]; intros k s w; cbn [items].
  - simpl. split; [tauto|]. intros [H _]. lia.
  - rewrite in_app_iff, IH. unfold state_items. rewrite in_app_iff, in_map_iff. simpl. split.
    + intros [[(a & E & _)|H]|(H & v & E)]; [discriminate| |split; [lia|eauto]].
      destruct (finw g k) as [v|] eqn:E; [|destruct H]. destruct H as [H|[]]. injection H as <- <-.
      split; [lia|eauto].
    + intros (H & v & E & ->). destruct (Nat.eq_dec k s) as [->|N].
      * left. right. rewrite E. now left.
      * right. split; [lia|eauto].
Qed.

Theorem items_content weights g : structure_ok g -> same_content weights g (fold_left apply (items weights g (sts g) 0) empty_graph).
Proof.
  intros (SN & ST & SF). destruct (apply_content (items weights g (sts g) 0) empty_graph) as (A & F & X & L).
  cbn zeta in *. split; [|split; [|split]].
  - intros s. change (nth s (sts ?h) []) with (arcs h s). rewrite A, trans_of_items, Nat.sub_0_r.
    replace (arcs empty_graph s) with (@nil arc) by (destruct s as [|[|s]]; reflexivity). reflexivity.
  - intros s. change (mget Nat.compare s (fin ?h)) with (finw h s). rewrite F, fin_of_items by auto.
    simpl. destruct (Nat.ltb_spec s (length (sts g))); auto.
    destruct (finw g s) eqn:E; auto. apply SF in E. lia.
  - intros x. rewrite X. unfold special, used.
    change (alpha empty_graph) with (sadd bcmp IDN (sadd bcmp UNK (sadd bcmp EPS []))). rewrite !(In_sadd bcmp bcmp_eq).
    fold EPS UNK IDN. split.
    + intros [H|(s & a & I & H)].
      * left. simpl in H. tauto.
      * right. apply In_items_trans in I. destruct I as (b & I & ->). exists s, b. auto.
    + intros [H|(s & a & I & H)].
      * left. tauto.
      * right. exists s, (keep_arc weights a). split; auto. apply In_items_trans. eauto.
  - intros n. rewrite L. simpl. unfold mentioned. split.
    + intros [H|(it & I & T)].
      * exists 0. split; [lia|auto].
      * destruct it as [s a|s w]; simpl in T.
        -- apply In_items_trans in I. destruct I as (b & I & ->). simpl in T. destruct T as [T|T].
           ++ exists s. split; auto. right. left. intros E. unfold arcs in I. rewrite E in I. destruct I.
           ++ exists (tgt b). split; auto. right. right. right. exists s, b. auto.
        -- apply In_items_final in I. destruct I as (_ & v & E & _). exists s. split; auto. right. right. left. eauto.
    + intros (t & Ht & [->|[H|[(w & H)|(s & a & I & E)]]]).
      * left. lia.
      * right. destruct (nth t (sts g) []) as [|a l] eqn:E; [easy|]. exists (Trans t (keep_arc weights a)). split; [|now left].
        apply In_items_trans. exists a. split; auto. unfold arcs. rewrite E. now left.
      * right. exists (Final t (keep_weight weights w)). split; [|exact Ht]. apply In_items_final.
        split; [|eauto]. apply SF in H. lia.
      * right. exists (Trans s (keep_arc weights a)). split; [|right; simpl; lia]. apply In_items_trans. eauto.
Qed.

(** * Reading back *)
Lemma written_lines eps weights g t : att_writable eps g -> write_in_att_format weights g = Ok t ->
  exists ls, t = concat ls /\ Forall2 (reads eps) ls (items weights g (sts g) 0).
Proof.
  intros ((SN & ST & SF) & SL & SP) E. eapply states_reads; eauto.
  intros x I. apply Forall_forall. intros a Ia. destruct (In_nth _ _ [] I) as (s & Hs & <-).
  split; [|split].
  - apply ST in Ia. lia.
  - apply SP. exists s, a. auto.
  - apply SP. exists s, a. auto.
Qed.
Lemma reads_lines eps ls its : Forall2 (reads eps) ls its -> forall line, In line ls -> exists l, line = l ++ [nl] /\ ~ In nl l.
Proof.
  induction 1 as [|x y ls its H]; [easy|]. intros line [<-|I]; auto. destruct H as (l & E & N & _). eauto.
Qed.
Theorem read_written eps weights g t : att_writable eps g -> write_in_att_format weights g = Ok t -> short_lines t ->
  exists g', same_content weights g g' /\
  (forall count, exists count', read_in_att_format eps (Stream t false) count = Ok (g', Stream [] true, count')) /\
  (forall rest count, exists count',
     read_in_att_format eps (Stream (t ++ B "--" ++ [nl] ++ rest) false) count = Ok (g', Stream rest false, count')).
Proof.
  intros W E SH. destruct (written_lines _ _ _ _ W E) as (ls & -> & R).
  exists (fold_left apply (items weights g (sts g) 0) empty_graph). split; [apply items_content, W|].
  pose proof (reads_lines _ _ _ R) as RL. pose proof (lines_short ls SH RL) as SL.
  assert (NE : forall line, In line ls -> line <> []).
  { intros line I. destruct (RL line I) as (l & -> & _). intros H. apply app_eq_nil in H. destruct H; discriminate. }
  pose proof (concat_length_ge ls SL NE) as LE.
  split.
  - intros count. exists (length ls + count). unfold read_in_att_format. cbn [eof bytes].
    pose proof (loop_lines eps ls _ R SL (1 + (length (concat ls) - length ls)) [] count empty_graph) as H.
    rewrite app_nil_r in H.
    match type of H with att_loop ?k _ _ _ _ = _ => assert (EQ : k = S (length (concat ls))) by (clear - LE; unfold bstr in *; simpl; lia) end.
    rewrite EQ in H. rewrite H. reflexivity.
  - intros rest count. exists (S (length ls + count)). unfold read_in_att_format. cbn [eof bytes].
    set (tail := B "--" ++ [nl] ++ rest).
    pose proof (loop_lines eps ls _ R SL (1 + (length (concat ls ++ tail) - length ls)) tail count empty_graph) as H.
    rewrite app_length in *.
    match type of H with att_loop ?k _ _ _ _ = _ => assert (EQ : k = S (length (concat ls) + length tail)) by (clear - LE; unfold bstr in *; simpl; lia) end.
    rewrite EQ in H. rewrite H. reflexivity.
Qed.

Theorem read_all_written eps weights gs : Forall (att_writable eps) gs -> gs <> [] -> forall t, write_all weights gs = Ok t -> short_lines t ->
  forall fuel count, length gs < fuel -> exists gs', read_all fuel eps (Stream t false) count = Ok gs' /\ Forall2 (same_content weights) gs gs'.
Proof.
  intros F. induction F as [|g gs W F IH]; intros NN t E SH fuel count L; [easy|].
  destruct fuel as [|fuel]; [simpl in L; lia|]. cbn [read_all eof].
  destruct gs as [|h gs].
  - cbn [write_all] in E. destruct (read_written _ _ _ _ W E SH) as (g' & C & R & _).
    destruct (R count) as (count' & ->). cbn [rbind]. exists [g']. split; [|constructor; auto].
    destruct fuel; [simpl in L; lia|]. reflexivity.
  - change (rbind (write_in_att_format weights g) (fun t => rmap (fun u => t ++ B "--" ++ [nl] ++ u) (write_all weights (h :: gs))) = Ok t) in E.
    destruct (write_in_att_format weights g) as [t1| | |] eqn:E1; try discriminate. cbn [rbind] in E.
    destruct (write_all weights (h :: gs)) as [t2| | |] eqn:E2; try discriminate. cbn [rmap] in E. injection E as <-.
    assert (S1 : short_lines t1 /\ short_lines t2).
    { destruct SH as [Sa Sb]. split; split; intros a l b -> H.
      - apply (Sa a l (b ++ B "--" ++ [nl] ++ t2)); auto. now rewrite <- !app_assoc.
      - apply (Sb a l (b ++ B "--" ++ [nl] ++ t2)); auto. now rewrite <- !app_assoc.
      - apply (Sa (t1 ++ B "--" ++ [nl] ++ a) l b); auto. now rewrite <- !app_assoc.
      - apply (Sb (t1 ++ B "--" ++ [nl] ++ a) l b); auto. now rewrite <- !app_assoc. }
    destruct S1 as [S1 S2].
    destruct (read_written _ _ _ _ W E1 S1) as (g' & C & _ & R).
    destruct (R t2 count) as (count' & Er).
    match goal with |- context [read_in_att_format eps ?f count] =>
      change (read_in_att_format eps f count) with (read_in_att_format eps (Stream (t1 ++ B "--" ++ [nl] ++ t2) false) count) end.
    rewrite Er. cbn [rbind].
    destruct (IH ltac:(discriminate) t2 eq_refl S2 fuel count') as (gs' & Eg & C2); [simpl in *; lia|].
    rewrite Eg. exists (g' :: gs'). split; auto.
Qed.
Lemma write_all_length weights gs : forall t, write_all weights gs = Ok t -> length gs <= S (length t).
Proof.
  induction gs as [|g gs IH]; intros t E; simpl; [lia|]. destruct gs as [|h gs]; [simpl; lia|].
  change (rbind (write_in_att_format weights g) (fun t => rmap (fun u => t ++ B "--" ++ [nl] ++ u) (write_all weights (h :: gs))) = Ok t) in E.
  destruct (write_in_att_format weights g) as [t1| | |] eqn:E1; try discriminate. cbn [rbind] in E.
  destruct (write_all weights (h :: gs)) as [t2| | |] eqn:E2; try discriminate. cbn [rmap] in E. injection E as <-.
  specialize (IH t2 eq_refl). rewrite !app_length. simpl in *. lia.
Qed.

(** Writing never fails. *)
Lemma arc_lines_total weights s l : exists t, att_arc_lines weights s l = Ok t.
Proof.
  induction l as [|a l (t & IH)]; [now exists []|]. cbn [att_arc_lines]. unfold att_arc_line.
  destruct (att_escape_total (isy a)) as (i & -> & _). destruct (att_escape_total (osy a)) as (o & -> & _).
  cbn [rbind]. rewrite IH. cbn [rmap]. eauto.
Qed.
Lemma write_total weights g : exists t, write_in_att_format weights g = Ok t.
Proof.
  unfold write_in_att_format. generalize 0. induction (sts g) as [|x l IH]; intros s; [now exists []|].
  cbn [att_states]. destruct (arc_lines_total weights s x) as (u & ->). destruct (IH (S s)) as (v & ->). cbn. eauto.
Qed.
Lemma same_content_run weights g g' : same_content weights g g' -> weights = true -> forall s l w t, run g' s l w t <-> run g s l w t.
Proof.
  intros (A & _) -> s l w t.
  assert (E : forall s, nth s (sts g') [] = nth s (sts g) []).
  { intros u. rewrite A. rewrite <- (map_id (nth u (sts g) [])) at 2. apply map_ext. now intros []. }
  split; induction 1; constructor; auto; congruence.
Qed.
Lemma same_content_accepts g g' : same_content true g g' -> forall l w, accepts g' l w <-> accepts g l w.
Proof.
  intros C l w. pose proof (same_content_run _ _ _ C eq_refl) as R. destruct C as (_ & F & _ & _).
  assert (E : forall s, mget Nat.compare s (fin g') = mget Nat.compare s (fin g)).
  { intros s. rewrite F. now destruct (mget Nat.compare s (fin g)). }
  split; intros (t & v & f & H1 & H2 & H3); exists t, v, f; rewrite ?E in *; repeat split; auto; now apply R.
Qed.

(** * Malformed input and the stream version *)
Lemma split_cut s : forall k l r e, take_line k s = (l, r, e) -> s = l ++ r.
Proof.
  induction s as [|c s IH]; intros [|k] l r e E; cbn [take_line] in E; try (injection E as <- <- <-; reflexivity).
  destruct (Ascii.eqb c nl); [injection E as <- <- <-; reflexivity|].
  destruct (take_line k s) as [[l' r'] e'] eqn:E'. injection E as <- <- <-. simpl. f_equal. eauto.
Qed.
Lemma stream_reads_nothing eps l rest count : ~ In nl l -> length l <= 254 ->
  read_in_att_format_stream eps (Stream (l ++ nl :: rest) false) count = Ok (empty_graph, Stream rest false, count).
Proof.
  intros N L. unfold read_in_att_format_stream. cbn [eof bytes att_loop_stream].
  unfold getline. cbn [bytes eof]. rewrite take_line_line; auto; [|lia].
  rewrite app_length. cbn [length].
  destruct (Nat.leb_spec (length l + 1) 254); cbn [orb]; [reflexivity|].
  rewrite rev_app_distr. cbn [rev app]. rewrite Ascii.eqb_refl. reflexivity.
Qed.
