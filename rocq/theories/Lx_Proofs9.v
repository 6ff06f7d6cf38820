(** Tools for the examples of Lx_Props: a concrete ICU, checkers for concrete sessions, and
    the filter of the compiler for compilers outside the invariant. *)
From Verif Require Import Base OrdMap BT_Model BT_Spec BT_Props Tok_Model Tok_Spec Str_Model Lx_Model Lx_Spec Lx_Proofs2 Lx_Proofs3 Lx_Proofs5 Lx_Proofs6.

(** Every code point is a character. *)
Definition lead (x : bstr) : nat :=
  match x with
  | Ascii _ _ _ _ _ _ _ false :: _ => 1
  | Ascii _ _ _ _ _ false _ true :: _ => 2
  | Ascii _ _ _ _ false _ _ true :: _ => 3
  | _ :: _ => 4
  | [] => 1
  end.
Lemma lead_char c r : utf8_char c -> lead (c ++ r) = length c.
Proof. intros H. destruct H; repeat match goal with b : bool |- _ => destruct b end; reflexivity. Qed.
Lemma lead_icu : icu lead (fun _ => []).
Proof.
  split; [|intros d w _ []]. intros x Hx (cs & F & ->). destruct F as [|c cs Hc F]; [contradiction (Hx eq_refl)|].
  exists c, (concat cs). cbn [concat]. split; [reflexivity|]. split; [symmetry; apply lead_char; exact Hc|].
  split; [exists [c]; split; [repeat constructor; exact Hc|symmetry; apply app_nil_r]|]. inversion Hc; discriminate.
Qed.

(** * Segmentations *)
Definition prefixb (w s : bstr) : bool := bstr_eqb (firstn (length w) s) w.
Lemma prefixb_iff w s : prefixb w s = true <-> prefix_of w s.
Proof.
  unfold prefixb, prefix_of. rewrite bstr_eqb_eq. split.
  - intros E. exists (skipn (length w) s). rewrite <- E at 1. symmetry. apply firstn_skipn.
  - intros [r ->]. rewrite firstn_app, Nat.sub_diag, firstn_all. cbn [firstn]. apply app_nil_r.
Qed.
Definition one_byte (c : bstr) : bool := match c with [Ascii _ _ _ _ _ _ _ false] => true | _ => false end.
Definition symbols (c : lexc) : list bstr := B "0" :: B "@ZERO@" :: known c.
Fixpoint seg_check (K : list bstr) (ts : list bstr) : bool :=
  match ts with
  | [] => true
  | t :: r =>
      let s := t ++ concat r in
      ((negb (bstr_eqb t []) && existsb (bstr_eqb t) K && forallb (fun w => negb (prefixb w s) || (length w <=? length t)) K)
       || (one_byte t && forallb (fun w => bstr_eqb w [] || negb (prefixb w s)) K)) && seg_check K r
  end.
Lemma sees_symbols c cl ds w : split_characters c = true -> sees cl c ds w <-> w <> [] /\ In w (symbols c).
Proof. intros Sp. unfold sees, symbols. cbn [In]. rewrite Sp. intuition congruence. Qed.
Lemma seg_checked c gr cl ds ts : split_characters c = true -> seg_check (symbols c) ts = true -> cut_into gr cl c ds (concat ts) ts.
Proof.
  intros Sp. unfold cut_into. rewrite Sp. induction ts as [|t ts IH]; intros H; [constructor|]. cbn [seg_check] in H. apply andb_true_iff in H. destruct H as [H R].
  cbn [concat]. apply orb_true_iff in H. destruct H as [H|H].
  - apply andb_true_iff in H. destruct H as [H K2]. apply andb_true_iff in H. destruct H as [H0 K1]. apply seg_sym; [|apply IH; exact R].
    apply negb_true_iff, bstr_eqb_neq in H0. apply existsb_exists in K1. destruct K1 as (u & K1 & E). apply bstr_eqb_eq in E. subst u.
    split; [apply sees_symbols; auto|]. split; [exists (concat ts); reflexivity|]. intros w Hw P. apply (sees_symbols _ _ _ _ Sp) in Hw.
    rewrite forallb_forall in K2. specialize (K2 w (proj2 Hw)). apply prefixb_iff in P. rewrite P in K2. cbn in K2. apply Nat.leb_le in K2. exact K2.
  - apply andb_true_iff in H. destruct H as [H0 K1]. apply seg_chr; [| |apply IH; exact R].
    + intros w Hw P. apply (sees_symbols _ _ _ _ Sp) in Hw. rewrite forallb_forall in K1. specialize (K1 w (proj2 Hw)). apply prefixb_iff in P. rewrite P in K1.
      apply orb_true_iff in K1. destruct K1 as [K1|K1]; [apply bstr_eqb_eq in K1; tauto|discriminate].
    + unfold character. destruct t as [|[? ? ? ? ? ? ? []] [|]]; try discriminate. apply u1.
Qed.

(** Symbols that do not reach beyond a string. *)
Fixpoint suffixes (d : bstr) : list bstr := d :: match d with [] => [] | _ :: r => suffixes r end.
Lemma suffixes_in p q : In q (suffixes (p ++ q)).
Proof. induction p as [|a p IH]; [destruct q; left; reflexivity|right; exact IH]. Qed.
Definition apart_check (K : list bstr) (d f : bstr) : bool :=
  forallb (fun q => bstr_eqb q [] || forallb (fun w => (length w <=? length q) || negb (prefixb q w)) K) (suffixes d) &&
  forallb (fun w => negb (prefixb f w) || bstr_eqb w f) K.
Lemma apart_checked c cl ds d f : split_characters c = true -> apart_check (symbols c) d f = true -> no_overlap (sees cl c ds) d f.
Proof.
  intros Sp H. unfold apart_check in H. apply andb_true_iff in H. destruct H as [H1 H2]. rewrite forallb_forall in H1, H2. split.
  - intros p q r w -> Hq Hw [z E]. apply (sees_symbols _ _ _ _ Sp) in Hw. specialize (H1 q (suffixes_in p q)). apply orb_true_iff in H1.
    destruct H1 as [H1|H1]; [apply bstr_eqb_eq in H1; contradiction|]. rewrite forallb_forall in H1. specialize (H1 w (proj2 Hw)). apply orb_true_iff in H1.
    destruct (Nat.leb_spec (length w) (length q)) as [Le|Lt].
    + apply (f_equal (firstn (length w))) in E. rewrite !firstn_app, Nat.sub_diag, firstn_all in E. replace (length w - length q) with 0 in E by lia.
      cbn [firstn] in E. rewrite !app_nil_r in E. exists (skipn (length w) q). rewrite <- E at 1. symmetry. apply firstn_skipn.
    + destruct H1 as [H1|H1]; [discriminate|]. exfalso. apply negb_true_iff in H1. assert (P : prefixb q w = true); [|congruence]. apply prefixb_iff.
      exists (skipn (length q) w). apply (f_equal (firstn (length q))) in E. rewrite !firstn_app, Nat.sub_diag, firstn_all in E.
      replace (length q - length w) with 0 in E by lia. cbn [firstn] in E. rewrite !app_nil_r in E. pose proof (firstn_skipn (length q) w) as Z. rewrite <- E in Z. symmetry. exact Z.
  - intros w Hw [r ->]. apply (sees_symbols _ _ _ _ Sp) in Hw. specialize (H2 _ (proj2 Hw)). apply orb_true_iff in H2. destruct H2 as [H2|H2].
    + apply negb_true_iff in H2. assert (P : prefixb f (f ++ r) = true) by (apply prefixb_iff; exists r; reflexivity). congruence.
    + apply bstr_eqb_eq in H2. exact H2.
Qed.
(** ASCII text *)
Definition plain_check (s : bstr) : bool :=
  forallb (fun b => match b with Ascii _ _ _ _ _ _ _ h => negb h end && negb (Ascii.eqb b "000") && negb (Ascii.eqb b "$")) s.
Lemma plain_checked s : plain_check s = true -> plain s.
Proof.
  unfold plain_check. rewrite forallb_forall. intros H. split; [split|].
  - exists (map (fun b => [b]) s). split; [|induction s as [|b s IH]; [reflexivity|cbn [map concat]; rewrite <- IH; [reflexivity|intros x Hx; apply H; right; exact Hx]]].
    apply Forall_forall. intros u Hu. apply in_map_iff in Hu. destruct Hu as (b & <- & Hb). specialize (H b Hb). destruct b as [? ? ? ? ? ? ? []]; [discriminate|apply u1].
  - intros K. specialize (H _ K). discriminate.
  - intros K. specialize (H _ K). discriminate.
Qed.
Definition name_check (s : bstr) : bool := plain_check s && negb (bstr_eqb s []) && forallb (fun b => negb (Ascii.eqb b "@")) s.
Lemma name_checked s : name_check s = true -> name s.
Proof.
  unfold name_check. intros H. apply andb_true_iff in H. destruct H as [H K]. apply andb_true_iff in H. destruct H as [H N]. split; [apply plain_checked; exact H|].
  split; [apply negb_true_iff, bstr_eqb_neq in N; exact N|]. intros J. rewrite forallb_forall in K. specialize (K _ J). discriminate.
Qed.

(** * The filter *)
Lemma compile_split gr u8 c P : compile_paths gr u8 c = Ok P -> exists start stop words lex,
  tokens gr u8 c false (cc (with_flags c) (initialName c)) = Ok start /\ tokens gr u8 (c1 (with_flags c) c) false (nc (with_flags c) HASH) = Ok stop /\
  joiner_words gr u8 (c1 (with_flags c) c) (cc (with_flags c)) (nc (with_flags c)) (lexiconNames c) = Ok words /\
  lex = w_cat (w_cat (w_word start) (w_map (substitute small_substitutions) (w_star (accepts (stringsTrie c))))) (w_word stop) /\
  forall l w, P l w -> exists l0 w0, w_compose lex (joiners_all words lex) l0 w0.
Proof.
  intros H. unfold compile_paths in H. cbv zeta in H. unfold c1. destruct (with_flags c).
  - cbn [cc nc]. destruct (tokens gr u8 c false (flagJoinerEncode (initialName c) false)) as [start| | |]; try discriminate. cbn [rbind] in H.
    destruct (tokens gr u8 _ false (flagJoinerEncode HASH true)) as [stop| | |]; try discriminate. cbn [rbind] in H.
    destruct (joiner_words gr u8 _ _ _ _) as [words| | |] eqn:W; try discriminate. cbn [rbind] in H. injection H as <-.
    exists start, stop, words. eexists. split; [reflexivity|]. split; [reflexivity|]. split; [exact W || reflexivity|]. split; [reflexivity|].
    intros l w (l0 & w0 & w1 & (l1 & (l2 & K & _) & _) & _). eauto.
  - cbn [cc nc]. destruct (tokens gr u8 c false (joinerEncode (initialName c))) as [start| | |]; try discriminate. cbn [rbind] in H.
    destruct (tokens gr u8 _ false (joinerEncode HASH)) as [stop| | |]; try discriminate. cbn [rbind] in H.
    destruct (joiner_words gr u8 _ _ _ _) as [words| | |] eqn:W; try discriminate. cbn [rbind] in H. injection H as <-.
    exists start, stop, words. eexists. split; [reflexivity|]. split; [reflexivity|]. split; [exact W || reflexivity|]. split; [reflexivity|].
    intros l w (l0 & w0 & w1 & (l1 & (l2 & K & _) & _) & _). eauto.
Qed.
Lemma compile_passes gr u8 c R start stop words :
  tokens gr u8 c false (cc (with_flags c) (initialName c)) = Ok start -> tokens gr u8 (c1 (with_flags c) c) false (nc (with_flags c) HASH) = Ok stop ->
  joiner_words gr u8 (c1 (with_flags c) c) (cc (with_flags c)) (nc (with_flags c)) (lexiconNames c) = Ok words ->
  (forall v, In v words -> Forall (fun p : bstr * bstr => fst p = snd p /\ fst p <> EPS) v) ->
  compileLexical gr u8 c = Ok R -> forall x y w, R x y w ->
  exists l v, w_star (accepts (stringsTrie c)) l v /\
    passes (word_of words) (fun y => hidden_symbol y = false) (strip (map snd start ++ map (substitute small_substitutions) (map snd l) ++ map snd stop)).
Proof.
  intros T1 T2 T3 HW H x y w HR. unfold compileLexical in H. destruct (compile_paths gr u8 c) as [P| | |] eqn:EP; try discriminate. cbn [rmap rbind] in H.
  assert (HP : exists l, P l w).
  { injection H as <-. destruct (with_flags c); [destruct HR as (? & ? & (l & Hl & _) & _)|destruct HR as (l & Hl & _)]; eauto. }
  destruct HP as [l HP]. destruct (compile_split _ _ _ _ EP) as (start' & stop' & words' & lex & E1 & E2 & E3 & EL & K).
  rewrite E1 in T1. injection T1 as ->. rewrite E2 in T2. injection T2 as ->. rewrite E3 in T3. injection T3 as ->.
  destruct (K l w HP) as (l0 & w0 & l1 & w1 & l2 & w2 & K1 & K2 & K3 & _).
  apply composed_id in K3; [|exact (proj2 (joiners_id _ _ _ _ HW K2))]. destruct K3 as [_ K3].
  assert (Q : passes (word_of words) (fun y => hidden_symbol y = false /\ out_symbol lex y) (map fst l2)) by (apply (joiners_passes _ _ HW); eauto).
  rewrite K3 in Q. rewrite EL in K1. destruct K1 as (a & wa & b & wb & (a1 & wa1 & a2 & wa2 & [-> _] & (l3 & S3 & ->) & -> & _) & [-> _] & -> & _).
  exists l3, wa2. split; [exact S3|]. rewrite !map_app in Q. rewrite <- app_assoc in Q.
  rewrite map_map in Q |- *. cbn [snd] in Q. clear -Q.
  revert Q. generalize (strip (map snd start ++ map (fun x => substitute small_substitutions (snd x)) l3 ++ map snd stop)) as o.
  intros o Q. induction Q as [|v o Hv Q IH|z o [Hz _] Q IH]; [constructor|apply ps_word; auto|apply ps_sym; auto].
Qed.
Lemma passes_in W (V : bstr -> Prop) o s : passes W V o -> In s o -> V s \/ exists w, W w /\ In s w.
Proof.
  induction 1 as [|w o Hw Q IH|y o Hy Q IH]; intros K; [destruct K| |].
  - apply in_app_or in K. destruct K as [K|K]; [right; eauto|auto].
  - destruct K as [->|K]; auto.
Qed.
Lemma passes_head W (V : bstr -> Prop) y o : passes W V (y :: o) -> (forall w r, W w -> w <> y :: r) -> V y /\ passes W V o.
Proof.
  intros Q HW. remember (y :: o) as z eqn:E. revert E. induction Q as [|w o' Hw Q IH|y' o' Hy Q IH]; intros E; [discriminate| |].
  - destruct w as [|a w]; [apply IH; exact E|]. cbn in E. injection E as -> E. exfalso. exact (HW _ w Hw eq_refl).
  - injection E as -> ->. auto.
Qed.
Lemma trie_entries es t : disjuncts empty_graph es = Ok t -> Forall (fun e => Forall (fun p => fst p <> [] /\ snd p <> []) (fst e)) es ->
  forall l w, accepts t l w <-> min_weight es l w.
Proof. intros E F. destruct (C17_trie es F) as (g & E' & A & _). rewrite E in E'. injection E' as ->. exact A. Qed.

(** * The initial lexicon *)
(* Only the order of unfolding, for speed. *)
Local Strategy expand [addStringEntry addStringPairEntry addXreEntry].
Lemma rbind_ok {A C} (r : res A) (g : A -> res C) z : rbind r g = Ok z -> exists a, r = Ok a /\ g a = Ok z.
Proof. intros E. destruct r as [a| | |]; try discriminate. exists a. auto. Qed.
Lemma rmap_ok {A C} (r : res A) (g : A -> C) z : rmap g r = Ok z -> exists a, r = Ok a /\ g a = z.
Proof. intros E. destruct r as [a| | |]; try discriminate. exists a. injection E as E. auto. Qed.
Lemma note_initial c1 p : initialName (note_input p c1) = initialName c1 /\ initialName (note_pair p c1) = initialName c1.
Proof.
  assert (N1 : forall s c1 c2, note_symbol s c1 = Some c2 -> initialName c2 = initialName c1).
  { intros s c c2. unfold note_symbol. destruct (smem _ _ _); [congruence|]. destruct (quoted _ _); [discriminate|]. destruct (quoted _ _); [discriminate|].
    intros E. injection E as <-. reflexivity. }
  unfold note_input, note_pair. destruct (note_symbol (fst p) c1) as [c2|] eqn:E; [|auto]. apply N1 in E. rewrite <- E.
  destruct (note_symbol (snd p) c2) as [c3|] eqn:E3; [|auto]. apply N1 in E3. auto.
Qed.
Lemma notes_initial v : forall c1, initialName (fold_left (fun c p => note_input p c) v c1) = initialName c1.
Proof. induction v as [|p v IH]; intros c1; [reflexivity|]. cbn [fold_left]. rewrite IH. apply note_initial. Qed.
Lemma pairs_initial v : forall c1, initialName (fold_left (fun c p => note_pair p c) v c1) = initialName c1.
Proof. induction v as [|p v IH]; intros c1; [reflexivity|]. cbn [fold_left]. rewrite IH. apply note_initial. Qed.
Lemma unicode_initial cl d c1 : initialName (unicodeCheck cl d c1) = initialName c1.
Proof.
  unfold unicodeCheck. destruct (split_characters c1); [reflexivity|]. generalize (cl d) as gs. intros gs. revert c1.
  induction gs as [|g gs IH]; intros c1; [reflexivity|]. cbn [fold_left]. rewrite IH. destruct (smem _ _ _); reflexivity.
Qed.
Lemma symbols_initial a : forall c1, initialName (fold_left (fun c s => if smem bcmp s (alphabets c) then c else if bstr_eqb s EPS || bstr_eqb s UNK || bstr_eqb s IDN then c else addAlphabet s c) a c1) = initialName c1.
Proof. induction a as [|g gs IH]; intros c1; [reflexivity|]. cbn [fold_left]. rewrite IH. destruct (smem _ _ _); [reflexivity|]. destruct (_ || _); reflexivity. Qed.
Lemma trie_initial t c1 : initialName (set_trie t c1) = initialName c1. Proof. reflexivity. Qed.
Lemma begin_initial t c1 : initialName (begin_entry t c1) = initialName c1. Proof. reflexivity. Qed.
Lemma word_parts gr u8 cl d k w c0 c1 : addStringEntry gr u8 cl d k w c0 = Ok c1 ->
  exists v t cb, c1 = set_trie t (fold_left (fun c p => note_input p c) v cb) /\ cb = begin_entry k (unicodeCheck cl d c0).
Proof.
  intros E. unfold addStringEntry in E. apply rbind_ok in E. destruct E as (v & _ & E). apply rmap_ok in E. destruct E as (t & _ & E).
  eexists _, t, _. split; [symmetry; exact E|reflexivity].
Qed.
Lemma word_initial gr u8 cl d k w c0 c1 : addStringEntry gr u8 cl d k w c0 = Ok c1 -> initialName c1 = initialName c0.
Proof. intros E. destruct (word_parts _ _ _ _ _ _ _ _ E) as (v & t & cb & -> & ->). rewrite trie_initial, notes_initial, begin_initial. apply unicode_initial. Qed.
Lemma pair_parts gr u8 cl d l k w c0 c1 : addStringPairEntry gr u8 cl d l k w c0 = Ok c1 ->
  exists v t cb, c1 = set_trie t (fold_left (fun c p => note_pair p c) v cb) /\ cb = begin_entry k (unicodeCheck cl l (unicodeCheck cl d c0)).
Proof.
  intros E. unfold addStringPairEntry in E. apply rbind_ok in E. destruct E as (us & _ & E). apply rbind_ok in E. destruct E as (ls & _ & E).
  apply rbind_ok in E. destruct E as (v & _ & E). apply rmap_ok in E. destruct E as (t & _ & E).
  eexists _, t, _. split; [symmetry; exact E|reflexivity].
Qed.
Lemma pair_initial gr u8 cl d l k w c0 c1 : addStringPairEntry gr u8 cl d l k w c0 = Ok c1 -> initialName c1 = initialName c0.
Proof. intros E. destruct (pair_parts _ _ _ _ _ _ _ _ _ E) as (v & t & cb & -> & ->). rewrite trie_initial, pairs_initial, begin_initial, unicode_initial. apply unicode_initial. Qed.
Lemma regex_initial gr u8 r a k w c0 c1 : addXreEntry gr u8 r a k w c0 = Ok c1 -> initialName c1 = initialName c0.
Proof.
  intros E. unfold addXreEntry in E. apply rbind_ok in E. destruct E as (v & _ & E). apply rmap_ok in E. destruct E as (t & _ & <-).
  assert (IA : forall t c1, initialName (add_known t c1) = initialName c1) by reflexivity.
  assert (IR : forall t c1, initialName (set_regexps t c1) = initialName c1) by reflexivity.
  rewrite trie_initial, IA, IR, IA, symbols_initial, IA. reflexivity.
Qed.

Lemma compile_returns gr u8 c start stop words :
  tokens gr u8 c false (cc (with_flags c) (initialName c)) = Ok start -> tokens gr u8 (c1 (with_flags c) c) false (nc (with_flags c) HASH) = Ok stop ->
  joiner_words gr u8 (c1 (with_flags c) c) (cc (with_flags c)) (nc (with_flags c)) (lexiconNames c) = Ok words ->
  exists R, compileLexical gr u8 c = Ok R.
Proof.
  intros T1 T2 T3. unfold compileLexical. assert (H : exists P, compile_paths gr u8 c = Ok P); [|destruct H as [P ->]; eexists; reflexivity].
  unfold compile_paths. cbv zeta. unfold c1 in *. destruct (with_flags c); cbn [cc nc] in *.
  - rewrite T1. cbn [rbind]. rewrite T2. cbn [rbind].
    change (joiner_words gr u8 _ (fun n => flagJoinerEncode n false) (fun n => flagJoinerEncode n true)) with (joiner_words gr u8 (add_known (flagJoinerEncode HASH true) (add_known (flagJoinerEncode HASH false) c)) (cc true) (nc true)).
    rewrite T3. eexists. reflexivity.
  - rewrite T1. cbn [rbind]. rewrite T2. cbn [rbind]. change (joiner_words gr u8 c joinerEncode joinerEncode) with (joiner_words gr u8 c (cc false) (nc false)). rewrite T3. eexists. reflexivity.
Qed.
