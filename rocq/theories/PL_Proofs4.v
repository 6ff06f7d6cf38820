From Verif Require Import Base BT_Model BT_Spec BT_Proofs Str_Model Str_Spec Str_Proofs ATT_Model ATT_Spec ATT_Proofs ATT_Proofs2 PL_Model PL_Spec PL_Proofs PL_Proofs2 PL_Proofs3.
From Coq Require Import Lia NArith ZArith.

Lemma network_line name : prolog_name name -> parse_network ((B "network(" ++ name) ++ B ").") = Ok (Some name).
Proof.
  intros (N & U & H & L). unfold parse_network. rewrite <- app_assoc, scanf_lit.
  rewrite <- (app_nil_r (name ++ B ").")), scanf_word.
  - cbn [scanf rmap rbind]. now rewrite strip_ending_ok.
  - intros E. apply app_eq_nil in E. destruct E; contradiction.
  - apply Forall_forall. intros c I. apply in_app_iff in I. destruct I as [I|I].
    + apply not_white_false, H, I.
    + simpl in I. decompose [or] I; subst; try reflexivity; contradiction.
  - rewrite app_length. simpl. lia.
  - exact I.
Qed.
Lemma reads_nonempty name ls us : Forall2 (reads_as name) ls us -> length ls <= length (concat ls).
Proof.
  induction 1 as [|line u ls us R _ IH]; [simpl; lia|]. destruct R as (c & l & -> & _). cbn [concat length].
  rewrite app_length. cbn [app length]. lia.
Qed.
(** Up to the lines after those written. *)
Lemma read_prefix weights name g t : prolog_writable weights name g -> write_in_prolog_format weights name g = Ok t ->
  forall junk rest, exists k, read_in_prolog_format junk (Stream (t ++ rest) false) =
  prolog_loop file_line junk (S k) name (Stream rest false) (run_updates (updates weights g) empty_graph).
Proof.
  intros W E junk rest. destruct (written_lines weights name g W) as (ls & E' & F). rewrite E in E'.
  apply (f_equal (fun r => match r with Ok x => x | _ => [] end)) in E'. cbn beta iota in E'. rewrite E'.
  pose proof (reads_nonempty _ _ _ F) as LE.
  assert (HN : prolog_name name) by (destruct W as (_ & _ & _ & HN & _); exact HN).
  unfold read_in_prolog_format. cbn [bytes].
  set (hd := B "network(" ++ name). set (fuel := length (((hd ++ B ").") ++ [nl] ++ concat ls) ++ rest)).
  replace (((hd ++ B ").") ++ [nl] ++ concat ls) ++ rest) with (((hd ++ B ").") ++ [nl]) ++ concat ls ++ rest) by (rewrite <- !app_assoc; reflexivity).
  cbn [prolog_head]. rewrite file_line_ok.
  - change (hd ++ B ").") with ("n"%char :: B "etwork(" ++ name ++ B ").") at 1. cbn [Ascii.eqb Bool.eqb].
    replace (hd ++ B ").") with ((B "network(" ++ name) ++ B ").") by reflexivity.
    rewrite network_line by auto. cbn [rbind].
    assert (LF : fuel = length hd + 3 + length (concat ls) + length rest).
    { unfold fuel. rewrite !app_length. change (length (B ").")) with 2. change (length [nl]) with 1. unfold bstr in *. lia. }
    exists (fuel - length ls).
    replace (S fuel) with (length ls + S (fuel - length ls)) by (unfold bstr in *; lia).
    apply loop_reads. exact F.
  - unfold hd. rewrite in_app_iff. intros [I|I]; [simpl in I; decompose [or] I; try discriminate; auto|].
    revert I. apply name_not_nl, HN.
  - apply no_nul_app; [|apply HN]. intros I. simpl in I. decompose [or] I; try discriminate; auto.
  - unfold hd. rewrite app_length. destruct HN as (_ & _ & _ & L). simpl. lia.
Qed.
Theorem read_written weights name g t : prolog_writable weights name g -> write_in_prolog_format weights name g = Ok t ->
  exists g', same_network weights g g' /\
  (forall junk, read_in_prolog_format junk (Stream t false) = Ok (name, g', Stream [] true)) /\
  (forall junk rest, read_in_prolog_format junk (Stream (t ++ nl :: rest) false) = Ok (name, g', Stream rest false)) /\
  (forall junk rest, read_in_prolog_format junk (Stream (t ++ B "--" ++ nl :: rest) false) = Throw).
Proof.
  intros W E. exists (run_updates (updates weights g) empty_graph). split; [|split; [|split]].
  - apply updates_content; apply W.
  - intros junk. destruct (read_prefix weights name g t W E junk []) as (k & H). rewrite app_nil_r in H. rewrite H. reflexivity.
  - intros junk rest. destruct (read_prefix weights name g t W E junk (nl :: rest)) as (k & ->). reflexivity.
  - intros junk rest. destruct (read_prefix weights name g t W E junk (B "--" ++ nl :: rest)) as (k & ->).
    cbn [prolog_loop]. change (file_line (Stream (B "--" ++ nl :: rest) false)) with (Some (B "--"), Stream rest false).
    cbn [B list_ascii_of_string]. unfold parse_line. rewrite (arc_none name junk _ _ "-" ["-"%char]) by (reflexivity || discriminate).
    cbn [rbind]. reflexivity.
Qed.
Lemma write_total weights name g : prolog_writable weights name g -> exists t, write_in_prolog_format weights name g = Ok t.
Proof. intros W. destruct (written_lines weights name g W) as (ls & E & _). eauto. Qed.
Lemma write_comma weights name g : In ","%char name -> write_in_prolog_format weights name g = Throw.
Proof. intros I. unfold write_in_prolog_format. now rewrite (proj2 (existsb_eqb comma name) I). Qed.

(** The command line tools. *)
Theorem tools_one weights g : prolog_writable weights (B "NO_NAME_1") g ->
  exists t g', prolog_fst2txt weights [g] = Ok t /\ same_network weights g g' /\
  forall junk, prolog_txt2fst junk t = Ok [(B "NO_NAME_1", g')].
Proof.
  intros W. destruct (write_total _ _ _ W) as (t & E). destruct (read_written _ _ _ _ W E) as (g' & S & R & _).
  exists t, g'. split; [|split; auto].
  - unfold prolog_fst2txt. cbn [prolog_write_all]. change (B "NO_NAME_" ++ print_nat 1) with (B "NO_NAME_1"). rewrite E.
    cbn [rbind rmap]. change (1 <? 1)%N with false. cbn [app]. now rewrite app_nil_r.
  - intros junk. unfold prolog_txt2fst. cbn [prolog_read_all eof]. rewrite R. cbn [rbind eof]. reflexivity.
Qed.
Theorem tools_several weights g1 g2 gs t : prolog_writable weights (B "NO_NAME_1") g1 ->
  prolog_fst2txt weights (g1 :: g2 :: gs) = Ok t -> forall junk, prolog_txt2fst junk t = Throw.
Proof.
  intros W E junk. destruct (write_total _ _ _ W) as (t1 & E1). destruct (read_written _ _ _ _ W E1) as (g' & _ & _ & _ & R).
  unfold prolog_fst2txt in E. remember (g2 :: gs) as r eqn:Er. cbn [prolog_write_all] in E.
  change (B "NO_NAME_" ++ print_nat 1) with (B "NO_NAME_1") in E. rewrite E1 in E. cbn [rbind] in E.
  change (1 <? 1)%N with false in E. change (1 + 1)%N with 2%N in E. subst r. cbn [prolog_write_all] in E.
  change (1 <? 2)%N with true in E.
  destruct (write_in_prolog_format weights (B "NO_NAME_" ++ print_nat 2) g2) as [t2| | |]; try discriminate. cbn [rbind] in E.
  destruct (prolog_write_all weights (2 + 1) gs) as [u| | |]; try discriminate. cbn [rmap rbind app] in E.
  injection E as <-. unfold prolog_txt2fst. cbn [prolog_read_all eof].
  change (t1 ++ "-"%char :: "-"%char :: nl :: t2 ++ u) with (t1 ++ B "--" ++ nl :: t2 ++ u). rewrite R. reflexivity.
Qed.

(** Several networks with an empty line between them. *)
Theorem several_read weights l : l <> [] -> Forall (fun '(name, g) => prolog_writable weights name g) l ->
  exists ts gs, Forall2 (fun '(name, g) t => write_in_prolog_format weights name g = Ok t) l ts /\
    Forall2 (fun '(name, g) '(name', g') => name' = name /\ same_network weights g g') l gs /\
    forall junk, prolog_txt2fst junk (joined ts) = Ok gs.
Proof.
  intros N W.
  assert (exists ts gs, Forall2 (fun '(name, g) t => write_in_prolog_format weights name g = Ok t) l ts /\
    Forall2 (fun '(name, g) '(name', g') => name' = name /\ same_network weights g g') l gs /\ length l <= length (joined ts) + 1 /\
    forall junk fuel, length l < fuel -> prolog_read_all fuel junk (Stream (joined ts) false) = Ok gs) as (ts & gs & F1 & F2 & L & R).
  { induction W as [|[name g] l Wg W IH]; [congruence|]. destruct (write_total _ _ _ Wg) as (t & E).
    destruct (read_written _ _ _ _ Wg E) as (g' & S & R1 & R2 & _). destruct l as [|p l].
    - exists [t], [(name, g')]. repeat split; auto; [simpl; lia|]. intros junk fuel L. simpl in L. destruct fuel as [|[|fuel]]; try lia.
      cbn [prolog_read_all eof joined]. rewrite R1. reflexivity.
    - destruct IH as (ts & gs & F1 & F2 & L & R); [discriminate|]. exists (t :: ts), ((name, g') :: gs).
      inversion F1 as [|? t2 ? ts2 E2 F1']; subst. split; [constructor; auto|]. split; [constructor; auto|].
      change (joined (t :: t2 :: ts2)) with (t ++ nl :: joined (t2 :: ts2)). split.
      + rewrite app_length. simpl in *. lia.
      + intros junk fuel Lf. simpl in Lf. destruct fuel as [|fuel]; [lia|]. cbn [prolog_read_all eof]. rewrite R2. cbn [rbind].
        rewrite R by (simpl; lia). reflexivity. }
  exists ts, gs. split; auto. split; auto. intros junk. apply R. lia.
Qed.

(** The istream reader. *)
Theorem stream_rejects junk l rest : ~ In nl l -> length l <= 254 ->
  read_in_prolog_format_stream junk (Stream (l ++ nl :: rest) false) = Throw.
Proof.
  intros N L. unfold read_in_prolog_format_stream. cbn [prolog_head].
  assert (E : exists x, stream_line (Stream (l ++ nl :: rest) false) = (None, x)).
  { unfold stream_line, getline. cbn [bytes eof]. rewrite take_line_line by (auto; lia).
    rewrite rev_app_distr. cbn [rev app]. rewrite Ascii.eqb_refl.
    destruct (length (l ++ [nl]) <=? 254); cbn [eof orb negb]; eauto. }
  destruct E as (x & ->). reflexivity.
Qed.

(** What the buffer holds does not matter. *)
Lemma parse_arc_junk j1 j2 name line g : parse_arc j1 name line g = parse_arc j2 name line g.
Proof.
  unfold parse_arc. destruct (scanf _ line) as [fs| | |]; auto. cbn [rbind].
  destruct fs as [|a [|b [|c [|d fs]]]]; cbn [nth]; auto; destruct (strip_ending j1), (strip_ending j2); reflexivity.
Qed.
Lemma loop_junk get j1 j2 fuel : forall name f g, prolog_loop get j1 fuel name f g = prolog_loop get j2 fuel name f g.
Proof.
  induction fuel as [|n IH]; intros name f g; [reflexivity|]. cbn [prolog_loop].
  destruct (get f) as [[[|c l]|] f']; auto. unfold parse_line. rewrite (parse_arc_junk j1 j2).
  match goal with |- rbind ?x _ = _ => destruct x as [[g'|]| | |] end; cbn [rbind]; auto.
Qed.
Theorem head_junk get j1 j2 fuel : forall f, prolog_head get j1 fuel f = prolog_head get j2 fuel f.
Proof.
  induction fuel as [|n IH]; intros f; [reflexivity|]. cbn [prolog_head]. destruct (get f) as [[l|] f']; auto.
  destruct (match l with [] => false | c :: _ => Ascii.eqb c "#" end); auto.
  destruct (parse_network l) as [[name|]| | |]; cbn [rbind]; auto. apply loop_junk.
Qed.
Lemma same_network_accepts g g' : same_network true g g' -> forall l w, accepts g' l w <-> accepts g l w.
Proof.
  intros (A & F & _ & _) l w.
  assert (E : forall s, nth s (sts g') [] = nth s (sts g) []).
  { intros u. rewrite A. rewrite <- (map_id (nth u (sts g) [])) at 2. apply map_ext. now intros []. }
  assert (R : forall s l w t, run g' s l w t <-> run g s l w t) by (split; induction 1; constructor; auto; congruence).
  assert (E' : forall s, mget Nat.compare s (fin g') = mget Nat.compare s (fin g)).
  { intros s. rewrite F. now destruct (mget Nat.compare s (fin g)). }
  split; intros (t & v & f & H1 & H2 & H3); exists t, v, f; rewrite ?E' in *; repeat split; auto; now apply R.
Qed.

(** * Termination *)
Lemma replaces_total rs : forall s, Forall (fun p => fst p <> []) rs -> exists t, replaces rs s = Ok t.
Proof.
  induction rs as [|[n r] rs IH]; intros s F; [eexists; reflexivity|]. inversion F as [|? ? Hn Fr]; subst. cbn [replaces].
  destruct (replace_all_replaced s n r Hn) as (x & -> & _). cbn [rbind]. auto.
Qed.
Lemma deprologize_total s : exists t, deprologize_symbol s = Ok t.
Proof.
  unfold deprologize_symbol. repeat (destruct (bstr_eqb _ _); [eexists; reflexivity|]). apply replaces_total.
  repeat constructor; discriminate.
Qed.
Lemma arc_symbols_total s : exists t, get_prolog_arc_symbols s = Ok t.
Proof.
  unfold get_prolog_arc_symbols. destruct (quote_positions s 0 None) as [|a [|b [|c [|d [|e l]]]]]; eauto.
  - destruct (_ || _); eauto. destruct (deprologize_total (slice s a b)) as (x & ->). cbn [rmap rbind]. eauto.
  - destruct (_ || _); eauto. destruct (negb _); eauto. destruct (negb _); eauto.
    destruct (deprologize_total (slice s a b)) as (x & ->). destruct (deprologize_total (slice s c d)) as (y & ->). cbn [rmap rbind]. eauto.
Qed.
Definition quiet {A} (r : res A) : Prop := match r with Ok _ | Ub => True | _ => False end.
Lemma quiet_bind {A C} (r : res A) (k : A -> res C) : quiet r -> (forall a, quiet (k a)) -> quiet (rbind r k).
Proof. destruct r; simpl; auto; contradiction. Qed.
Lemma quiet_map {A C} (k : A -> C) (r : res A) : quiet r -> quiet (rmap k r).
Proof. destruct r; simpl; auto. Qed.
Lemma quiet_ok {A} (r : res A) : (exists a, r = Ok a) -> quiet r.
Proof. intros (a & ->). exact I. Qed.
Lemma scanf_quiet f : forall s, quiet (scanf f s).
Proof.
  induction f as [|d f IH]; intros s; [exact I|]. destruct d; cbn [scanf].
  - destruct s as [|d s]; [exact I|]. destruct (Ascii.eqb c d); [apply IH|exact I].
  - apply IH.
  - destruct (span _ s) as [[|c x] r]; [exact I|]. destruct (100 <=? _); [exact I|]. apply quiet_map, IH.
  - destruct (span _ _) as [[|c x] r]; [exact I|]. destruct (100 <=? _); [exact I|]. apply quiet_map, IH.
Qed.
Lemma atoi_quiet s : quiet (atoi s).
Proof. unfold atoi. destruct (read_sign _). destruct (_ && _)%bool; exact I. Qed.
Lemma parse_line_quiet junk name line g : quiet (parse_line junk name line g).
Proof.
  apply quiet_bind; [|intros [g'|]; [exact I|apply quiet_bind; [|intros [g'|]; [exact I|]]]].
  - apply quiet_bind; [apply scanf_quiet|]. intros fs. destruct (strip_ending _) as [sy|]; [|exact I].
    destruct fs as [|a [|b [|c [|d [|e l]]]]]; try exact I. destruct (negb _); [exact I|].
    apply quiet_bind; [apply atoi_quiet|intros x]. apply quiet_bind; [apply atoi_quiet|intros y].
    destruct (extract_weight sy) as [[t w]|]; [|exact I]. apply quiet_map, quiet_ok, arc_symbols_total.
  - unfold parse_final. destruct (length _) as [|[|[|n]]]; try exact I.
    + apply quiet_bind; [apply scanf_quiet|]. intros [|a [|b [|c l]]]; try exact I. destruct (negb _); [exact I|].
      apply quiet_map, atoi_quiet.
    + apply quiet_bind; [apply scanf_quiet|]. intros [|a [|b [|c [|d l]]]]; try exact I. destruct (read_float c); [|exact I].
      destruct (negb _); [exact I|]. apply quiet_map, atoi_quiet.
  - apply quiet_bind; [apply scanf_quiet|]. intros [|a [|b [|c l]]]; try exact I. destruct (negb _); [exact I|].
    destruct (strip_ending b) as [q|]; [|exact I]. destruct (strip_quotes q) as [x|]; [|exact I].
    apply quiet_map, quiet_ok, deprologize_total.
Qed.
Lemma file_line_shorter f l f' : file_line f = (Some l, f') -> length (bytes f') < length (bytes f).
Proof.
  unfold file_line, fgets. destruct (take_line 254 (bytes f)) as [[x r] e] eqn:T. apply split_cut in T.
  destruct x as [|c x]; cbn [option_map]; [discriminate|]. intros E. injection E as _ <-. cbn [bytes]. rewrite T.
  rewrite app_length. simpl. lia.
Qed.
Lemma loop_terminates junk name : forall fuel f g, length (bytes f) < fuel -> prolog_loop file_line junk fuel name f g <> Diverge.
Proof.
  induction fuel as [|n IH]; intros f g L; [lia|]. cbn [prolog_loop].
  destruct (file_line f) as [[l|] f'] eqn:E; [|discriminate]. apply file_line_shorter in E.
  destruct l as [|c l]; [discriminate|]. pose proof (parse_line_quiet junk name (c :: l) g) as Q.
  destruct (parse_line _ _ _ _) as [[g'|]| | |]; cbn [rbind]; try discriminate; [|destruct Q]. apply IH. lia.
Qed.
Lemma parse_network_quiet l : quiet (parse_network l).
Proof. apply quiet_map, scanf_quiet. Qed.
Lemma head_terminates junk : forall fuel f, length (bytes f) < fuel -> prolog_head file_line junk fuel f <> Diverge.
Proof.
  induction fuel as [|n IH]; intros f L; [lia|]. cbn [prolog_head].
  destruct (file_line f) as [[l|] f'] eqn:E; [|discriminate]. apply file_line_shorter in E.
  destruct (match l with [] => false | c :: _ => Ascii.eqb c "#" end).
  - apply IH. lia.
  - pose proof (parse_network_quiet l) as Q. destruct (parse_network l) as [[name|]| | |]; cbn [rbind]; try discriminate; [|destruct Q].
    apply loop_terminates. lia.
Qed.
(** More fuel does not matter. *)
Lemma loop_more junk name : forall fuel k f g, prolog_loop file_line junk fuel name f g <> Diverge ->
  prolog_loop file_line junk (fuel + k) name f g = prolog_loop file_line junk fuel name f g.
Proof.
  induction fuel as [|n IH]; intros k f g H; [destruct H; reflexivity|]. cbn [Nat.add prolog_loop] in *.
  destruct (file_line f) as [[[|c l]|] f']; auto. destruct (parse_line _ _ _ _) as [[g'|]| | |]; cbn [rbind] in *; auto.
Qed.
Lemma head_more junk : forall fuel k f, prolog_head file_line junk fuel f <> Diverge ->
  prolog_head file_line junk (fuel + k) f = prolog_head file_line junk fuel f.
Proof.
  induction fuel as [|n IH]; intros k f H; [destruct H; reflexivity|]. cbn [Nat.add prolog_head] in *.
  destruct (file_line f) as [o f']. destruct o as [l|]; auto.
  destruct (match l with [] => false | c :: _ => Ascii.eqb c "#" end); auto.
  destruct (parse_network l) as [[name|]| | |]; cbn [rbind] in *; auto. now apply loop_more.
Qed.
Theorem read_terminates junk f : read_in_prolog_format junk f <> Diverge.
Proof. apply head_terminates. lia. Qed.
Theorem read_comment junk comment rest : ~ In nl comment -> no_nul comment -> length comment <= 252 ->
  read_in_prolog_format junk (Stream ("#"%char :: comment ++ nl :: rest) false) = read_in_prolog_format junk (Stream rest false).
Proof.
  intros N U L. set (text := "#"%char :: comment ++ nl :: rest).
  assert (E : exists l, file_line (Stream text false) = (Some ("#"%char :: l), Stream rest false)).
  { unfold text, file_line, fgets. cbn [bytes]. change ("#"%char :: comment ++ nl :: rest) with (("#"%char :: comment) ++ nl :: rest).
    rewrite take_line_line; [|intros [I|I]; [discriminate|auto]|simpl; lia].
    change (("#"%char :: comment) ++ [nl]) with ("#"%char :: comment ++ [nl]). cbn [option_map eof orb].
    rewrite c_str_id.
    - unfold strip_newlines. cbn [rev]. 
      assert (D : forall a, exists b, rev (drop_newlines (a ++ ["#"%char])) = "#"%char :: b).
      { induction a as [|c a (b & IH)]; [now exists []|]. cbn [app drop_newlines]. destruct (_ || _); eauto.
        exists (rev a ++ [c]). cbn [rev]. rewrite rev_app_distr. reflexivity. }
      destruct (D (rev (comment ++ [nl]))) as (b & ->). eauto.
    - intros [I|I]; [discriminate|]. apply in_app_iff in I. destruct I as [I|[I|[]]]; [auto|discriminate]. }
  destruct E as (l & E). unfold read_in_prolog_format. cbn [bytes].
  transitivity (prolog_head file_line junk (S (length text)) (Stream rest false)).
  - cbn [prolog_head]. rewrite E. cbn [Ascii.eqb Bool.eqb]. reflexivity.
  - replace (S (length text)) with (S (S (length rest)) + (length text - S (length rest))).
    + apply head_more, head_terminates. cbn [bytes]. lia.
    + unfold text. cbn [length]. rewrite app_length. simpl. lia.
Qed.
