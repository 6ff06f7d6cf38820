From Verif Require Import Base BT_Model BT_Spec BT_Proofs Str_Model Str_Spec Str_Proofs ATT_Model ATT_Spec ATT_Proofs ATT_Proofs2 PL_Model PL_Spec PL_Proofs PL_Proofs2.
From Coq Require Import Lia NArith ZArith.

(** * Line by line *)
Lemma file_line_ok x rest : ~ In nl x -> no_nul x -> length x <= 251 ->
  file_line (Stream (((x ++ B ").") ++ [nl]) ++ rest) false) = (Some (x ++ B ")."), Stream rest false).
Proof.
  intros N U L. unfold file_line, fgets. cbn [bytes].
  rewrite <- app_assoc. change ([nl] ++ rest) with (nl :: rest). rewrite take_line_line.
  - destruct ((x ++ B ").") ++ [nl]) as [|d r] eqn:E; [apply app_eq_nil in E; destruct E; discriminate|].
    rewrite <- E. cbn [option_map eof orb]. do 2 f_equal. rewrite c_str_id.
    + unfold strip_newlines. rewrite !rev_app_distr. simpl. now rewrite rev_involutive, <- app_assoc.
    + apply no_nul_app; [apply no_nul_app; auto|]; intros H; simpl in H; decompose [or] H; try discriminate; auto.
  - rewrite in_app_iff. intros [I|I]; auto. simpl in I. decompose [or] I; try discriminate; auto.
  - rewrite app_length. simpl. lia.
Qed.
Definition run_updates (us : list (graph -> graph)) (g : graph) : graph := fold_left (fun g u => u g) us g.
Lemma loop_reads junk name ls us : Forall2 (reads_as name) ls us -> forall k rest g,
  prolog_loop file_line junk (length ls + k) name (Stream (concat ls ++ rest) false) g =
  prolog_loop file_line junk k name (Stream rest false) (run_updates us g).
Proof.
  induction 1 as [|line u ls us R _ IH]; intros k rest g; [reflexivity|].
  destruct R as (c & l & E & N & U & L & P). cbn [length Nat.add prolog_loop concat]. rewrite <- app_assoc, E.
  change (c :: l ++ B ").") with ((c :: l) ++ B ")."). rewrite file_line_ok; [|auto..|simpl; lia].
  cbn [app]. specialize (P junk g). rewrite P. cbn [rbind]. apply IH.
Qed.

(** * The lines written *)
Lemma lines_reads {A} name (line : A -> res bstr) (u : A -> graph -> graph) l :
  (forall x, In x l -> exists t, line x = Ok t) ->
  (forall x t, In x l -> line x = Ok t -> reads_as name t (u x)) ->
  exists ls, lines line l = Ok (concat ls) /\ Forall2 (reads_as name) ls (map u l).
Proof.
  induction l as [|x l IH]; intros T R.
  - exists []. split; [reflexivity|constructor].
  - destruct (T x (or_introl eq_refl)) as (t & E). destruct IH as (ls & E' & F).
    { intros; apply T; now right. }
    { intros; apply R; auto; now right. }
    exists (t :: ls). cbn [lines]. rewrite E, E'. cbn [rbind rmap concat]. split; [reflexivity|].
    constructor; auto. apply R; auto. now left.
Qed.
Lemma symbol_line_total name x : exists t, prolog_symbol_line name x = Ok t.
Proof. unfold prolog_symbol_line. destruct (prologize_spec x) as (e & -> & _). cbn [rmap rbind]. eauto. Qed.
Lemma arc_line_total weights name s a : exists t, prolog_arc_line weights name s a = Ok t.
Proof.
  unfold prolog_arc_line, print_prolog_arc_symbols. destruct (prologize_spec (isy a)) as (e & -> & _).
  destruct (prologize_spec (osy a)) as (e' & -> & _). cbn [rmap rbind]. destruct (_ || _); cbn [rmap rbind]; eauto.
Qed.
Lemma In_unused g x : In x (unused_symbols g) <-> In x (alpha g) /\ ~ special x /\ ~ used g x.
Proof.
  unfold unused_symbols. rewrite filter_In, negb_true_iff.
  assert (E : smem bcmp x (initialize_alphabet (symbols_used g)) = true <-> special x \/ used g x).
  { rewrite (smem_In bcmp bcmp_eq). unfold initialize_alphabet. rewrite !(In_sadd bcmp bcmp_eq), symbols_used_In.
    unfold special, used, EPS, UNK, IDN, arcs. tauto. }
  destruct (smem _ _ _); split; intros (A & B); split; auto; try discriminate.
  - destruct B as [B1 B2]. destruct (proj1 E eq_refl); contradiction.
  - split; intros C; assert (false = true) by (apply E; auto); discriminate.
Qed.

Definition no_finals (g : graph) : graph := with_fin g [].
Definition updates (weights : bool) (g : graph) : list (graph -> graph) :=
  map (fun x h => add_symbol h x) (unused_symbols g) ++
  map (fun it h => apply h it) (items weights (no_finals g) (sts g) 0) ++
  map (fun p h => set_final_weight h (fst p) (keep_weight weights (snd p))) (fin g).
Lemma states_lines weights name g : prolog_name name -> forall l s,
  (N.of_nat (s + length l) <= 2 ^ 31)%N ->
  (forall x a, In x l -> In a x -> (N.of_nat (tgt a) < 2 ^ 31)%N /\ prolog_symbol (isy a) /\ prolog_symbol (osy a) /\
    (isy a = B "@_IDENTITY_SYMBOL_@" <-> osy a = B "@_IDENTITY_SYMBOL_@") /\
    written_size (isy a) + written_size (osy a) + weight_size weights (wt a) <= 90) ->
  exists ls, prolog_states weights name l s = Ok (concat ls) /\
  Forall2 (reads_as name) ls (map (fun it h => apply h it) (items weights (no_finals g) l s)).
Proof.
  intros HN. induction l as [|x l IH]; intros s HL HA; cbn [prolog_states items].
  - exists []. split; [reflexivity|constructor].
  - cbn [length] in HL. destruct (lines_reads name (prolog_arc_line weights name s) (fun a h => apply h (Trans s (keep_arc weights a))) x) as (l1 & E1 & F1).
    + intros a _. apply arc_line_total.
    + intros a t I E. destruct (HA x a) as (H1 & H2 & H3 & H4 & H5); auto using in_eq.
      apply (arc_line_reads name HN weights s a t); auto. lia.
    + destruct (IH (S s)) as (l2 & E2 & F2); [lia|intros; eapply HA; eauto using in_cons|].
      exists (l1 ++ l2). rewrite E1, E2. cbn [rbind rmap]. rewrite concat_app. split; [reflexivity|].
      rewrite map_app. apply Forall2_app; auto. unfold state_items. cbn [no_finals with_fin finw fin mget].
      replace (finw (no_finals g) s) with (@None Z) by reflexivity. rewrite app_nil_r, map_map. exact F1.
Qed.
Lemma final_lines weights name l : prolog_name name ->
  (forall s w, In (s, w) l -> (N.of_nat s < 2 ^ 31)%N /\ weight_size weights w <= 99) ->
  Forall2 (reads_as name) (map (fun p => prolog_final_line weights name (fst p) (snd p)) l)
    (map (fun p h => set_final_weight h (fst p) (keep_weight weights (snd p))) l).
Proof.
  intros HN. induction l as [|[s w] l IH]; intros H; constructor.
  - cbn [fst snd]. destruct (H s w (or_introl eq_refl)). apply final_line_reads; auto.
  - apply IH. intros; apply H; now right.
Qed.
Lemma no_comma_find name : ~ In comma name -> existsb (Ascii.eqb comma) name = false.
Proof. intros H. apply not_true_is_false. intros E. now apply existsb_eqb in E. Qed.
Lemma mget_In_nodup (l : list (nat * Z)) s w : NoDup (map fst l) -> In (s, w) l -> mget Nat.compare s l = Some w.
Proof.
  induction l as [|[t v] l IH]; intros N I; [destruct I|]. inversion N as [|? ? N1 N2]; subst. cbn [mget].
  destruct (Nat.compare_spec s t) as [E|E|E].
  - subst t. destruct I as [I|I]; [injection I as <-; reflexivity|]. destruct N1. change s with (fst (s, w)). now apply in_map.
  - destruct I as [I|I]; [injection I as -> ->; lia|]. auto.
  - destruct I as [I|I]; [injection I as -> ->; lia|]. auto.
Qed.
Lemma written_lines weights name g : prolog_writable weights name g ->
  exists ls, write_in_prolog_format weights name g = Ok (((B "network(" ++ name) ++ B ").") ++ [nl] ++ concat ls) /\
  Forall2 (reads_as name) ls (updates weights g).
Proof.
  intros ((SN & ST & SF) & SL & ND & HN & HU & HX & HA & HF).
  unfold write_in_prolog_format. rewrite no_comma_find by (apply no_comma_name; auto).
  destruct (lines_reads name (prolog_symbol_line name) (fun x h => add_symbol h x) (unused_symbols g)) as (l1 & E1 & F1).
  - intros x _. apply symbol_line_total.
  - intros x t I E. apply In_unused in I. destruct I as (I & I1 & I2). destruct (HX x I) as [H|[H|[H H']]]; try contradiction.
    apply (symbol_line_reads name HN x t); auto.
  - destruct (states_lines weights name g HN (sts g) 0) as (l2 & E2 & F2).
    + exact SL.
    + intros x a I J. destruct (In_nth _ _ [] I) as (s & Hs & <-).
      destruct (HA s a J) as (H1 & H2). split; [|split; [|split; [|split]]]; auto.
      * apply ST in J. lia.
      * apply HU. exists s, a. auto.
      * apply HU. exists s, a. auto.
    + pose proof (final_lines weights name (fin g) HN) as F3.
      exists (l1 ++ l2 ++ map (fun p => prolog_final_line weights name (fst p) (snd p)) (fin g)).
      rewrite E1, E2. cbn [rbind]. rewrite (name_c_str name HN), !concat_app. split; [now rewrite <- !app_assoc|].
      unfold updates. apply Forall2_app; auto. apply Forall2_app; auto. apply F3.
      intros s w I. split; [|eauto]. assert (s < length (sts g)) by (eapply SF; eapply mget_In_nodup; eauto). lia.
Qed.

(** * What the updates build *)
Lemma run_updates_app a b g : run_updates (a ++ b) g = run_updates b (run_updates a g).
Proof. apply fold_left_app. Qed.
Lemma run_symbols xs : forall g, let g' := run_updates (map (fun x h => add_symbol h x) xs) g in
  sts g' = sts g /\ fin g' = fin g /\ forall x, In x (alpha g') <-> In x (alpha g) \/ In x xs.
Proof.
  induction xs as [|y xs IH]; intros g; cbn zeta.
  - repeat split; auto. intros [H|[]]; auto.
  - cbn [map run_updates fold_left]. destruct (IH (add_symbol g y)) as (A & F & X). unfold run_updates in *. cbn zeta in *.
    rewrite A, F. repeat split; auto.
    + intros H. apply X in H. cbn [add_symbol with_alpha alpha] in H. rewrite (In_sadd bcmp bcmp_eq) in H.
      destruct H as [[->|H]|H]; [right; now left|auto|right; now right].
    + intros H. apply X. cbn [add_symbol with_alpha alpha]. rewrite (In_sadd bcmp bcmp_eq). destruct H as [H|[->|H]]; auto.
Qed.
Lemma run_apply its : forall g, run_updates (map (fun it h => apply h it) its) g = fold_left apply its g.
Proof. induction its as [|it its IH]; intros g; [reflexivity|]. cbn. apply IH. Qed.
Definition final_items (weights : bool) (l : list (nat * Z)) : list item := map (fun p => Final (fst p) (keep_weight weights (snd p))) l.
Lemma run_finals weights l : forall g, run_updates (map (fun p h => set_final_weight h (fst p) (keep_weight weights (snd p))) l) g =
  fold_left apply (final_items weights l) g.
Proof. induction l as [|p l IH]; intros g; [reflexivity|]. cbn. apply IH. Qed.
Lemma trans_of_finals weights s l : trans_of s (final_items weights l) = [].
Proof. induction l as [|p l IH]; auto. Qed.
Lemma fin_of_finals weights s l : forall acc, NoDup (map fst l) ->
  fin_of s (final_items weights l) acc = match mget Nat.compare s l with Some w => Some (keep_weight weights w) | None => acc end.
Proof.
  induction l as [|[t w] l IH]; intros acc N; [reflexivity|]. inversion N as [|? ? N1 N2]; subst. cbn [final_items map fst snd fin_of mget].
  change (map _ l) with (final_items weights l). rewrite IH by auto.
  destruct (Nat.compare_spec s t) as [E|E|E].
  - subst t. rewrite Nat.eqb_refl. destruct (mget Nat.compare s l) as [v|] eqn:M; [|reflexivity].
    destruct N1. apply (mget_In Nat.compare Nat.compare_eq_iff) in M. change s with (fst (s, v)). now apply in_map.
  - destruct (Nat.eqb_spec t s); [lia|reflexivity].
  - destruct (Nat.eqb_spec t s); [lia|reflexivity].
Qed.
Lemma fin_of_nofin g weights l : forall k s acc, fin_of s (items weights (no_finals g) l k) acc = acc.
Proof.
  induction l as [|x l IH]; intros k s acc; [reflexivity|]. cbn [items]. rewrite fin_of_app, IH. unfold state_items.
  replace (finw (no_finals g) k) with (@None Z) by reflexivity. rewrite app_nil_r.
  rewrite <- (map_map (keep_arc weights) (fun a => Trans k a)). apply fin_of_trans.
Qed.
Lemma In_final_items weights s w l : In (Final s w) (final_items weights l) <-> exists v, In (s, v) l /\ w = keep_weight weights v.
Proof.
  unfold final_items. rewrite in_map_iff. split.
  - intros ([t v] & E & I). injection E as <- <-. eauto.
  - intros (v & I & ->). exists (s, v). auto.
Qed.
Lemma items_no_final weights g l : forall k s w, ~ In (Final s w) (items weights (no_finals g) l k).
Proof. intros k s w I. apply In_items_final in I. destruct I as (_ & v & E & _). discriminate. Qed.

Theorem updates_content weights g : structure_ok g -> NoDup (map fst (fin g)) ->
  same_network weights g (run_updates (updates weights g) empty_graph).
Proof.
  intros (SN & ST & SF) ND. unfold updates. rewrite !run_updates_app, run_finals, run_apply, <- fold_left_app.
  destruct (run_symbols (unused_symbols g) empty_graph) as (A0 & F0 & X0). cbn zeta in *.
  set (h := run_updates _ empty_graph) in *.
  set (its := items weights (no_finals g) (sts g) 0 ++ final_items weights (fin g)).
  destruct (apply_content its h) as (A & F & X & L). cbn zeta in *.
  assert (IT : forall s a, In (Trans s a) its <-> exists b, In b (arcs g s) /\ a = keep_arc weights b).
  { intros s a. unfold its. rewrite in_app_iff. change (sts g) with (sts (no_finals g)). rewrite In_items_trans. split.
    - intros [H|H]; [exact H|]. apply in_map_iff in H. destruct H as (p & E & _). discriminate.
    - auto. }
  assert (IF : forall s w, In (Final s w) its <-> exists v, In (s, v) (fin g) /\ w = keep_weight weights v).
  { intros s w. unfold its. rewrite in_app_iff, In_final_items. split; [intros [H|H]; auto; now apply items_no_final in H|auto]. }
  split; [|split; [|split]].
  - intros s. change (nth s (sts ?k) []) with (arcs k s). rewrite A. unfold its.
    rewrite trans_of_app, trans_of_finals, app_nil_r. change (sts g) with (sts (no_finals g)) at 1.
    rewrite trans_of_items, Nat.sub_0_r. unfold arcs at 1. rewrite A0.
    replace (nth s (sts empty_graph) []) with (@nil arc) by (destruct s as [|[|s]]; reflexivity). reflexivity.
  - intros s. change (mget Nat.compare s (fin ?k)) with (finw k s). rewrite F. unfold its.
    rewrite fin_of_app, fin_of_nofin, fin_of_finals by auto. unfold finw. rewrite F0. cbn [empty_graph fin mget].
    destruct (mget Nat.compare s (fin g)); reflexivity.
  - intros x. rewrite X, X0, In_unused. unfold special, used.
    change (alpha empty_graph) with (sadd bcmp IDN (sadd bcmp UNK (sadd bcmp EPS []))). rewrite !(In_sadd bcmp bcmp_eq).
    fold EPS UNK IDN. split.
    + intros [[H|(H & _)]|(s & a & I & H)].
      * left. simpl in H. tauto.
      * right. right. exact H.
      * right. left. apply IT in I. destruct I as (b & I & ->). exists s, b. auto.
    + intros [H|[(s & a & I & H)|H]].
      * left. left. tauto.
      * right. exists s, (keep_arc weights a). split; auto. apply IT. eauto.
      * destruct (in_dec (list_eq_dec ascii_dec) x (symbols_used g)) as [U|U].
        -- right. apply symbols_used_In in U. destruct U as (s & a & I & E). exists s, (keep_arc weights a). split; auto. apply IT. eauto.
        -- destruct (list_eq_dec ascii_dec x EPS) as [E|E1]; [left; left; auto|].
           destruct (list_eq_dec ascii_dec x UNK) as [E|E2]; [left; left; auto|].
           destruct (list_eq_dec ascii_dec x IDN) as [E|E3]; [left; left; auto|].
           left. right. split; auto. split; [tauto|]. intros (s & a & I & E). apply U. apply symbols_used_In. exists s, a. auto.
  - intros n. rewrite L, A0. simpl. unfold mentioned. split.
    + intros [H|(it & I & T)].
      * exists 0. split; [lia|auto].
      * destruct it as [s a|s w]; simpl in T.
        -- apply IT in I. destruct I as (b & I & ->). simpl in T. destruct T as [T|T].
           ++ exists s. split; auto. right. left. intros E. unfold arcs in I. rewrite E in I. destruct I.
           ++ exists (tgt b). split; auto. right. right. right. exists s, b. auto.
        -- apply IF in I. destruct I as (v & I & _). exists s. split; auto. right. right. left. exists v. now apply mget_In_nodup.
    + intros (t & Ht & [->|[H|[(w & H)|(s & a & I & E)]]]).
      * left. lia.
      * right. destruct (nth t (sts g) []) as [|a l] eqn:E; [easy|]. exists (Trans t (keep_arc weights a)). split; [|now left].
        apply IT. exists a. split; auto. unfold arcs. rewrite E. now left.
      * right. exists (Final t (keep_weight weights w)). split; [|exact Ht]. apply IF. exists w. split; auto.
        apply (mget_In Nat.compare Nat.compare_eq_iff) in H. exact H.
      * right. exists (Trans s (keep_arc weights a)). split; [|right; simpl; lia]. apply IT. eauto.
Qed.
