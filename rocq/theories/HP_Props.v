(** Properties C106 to C109: hfst-proc, tokens and analysis of running text. *)
From Verif Require Import Base HP_Model HP_Spec HP_Proofs HP_Proofs2 HP_Proofs3 HP_Proofs4 HP_Proofs5 HP_Proofs6 HP_Proofs7 HP_Proofs8.
From Coq Require Import Lia NArith.

(** C106: the text of the tokens is the text they were read from, up to what is left unread.
    Partial: for plain text (HP_Spec), without characters reported as reserved, and alphabets
    whose symbols contain no backslash. *)
Theorem C106_text_partial : forall g names text ts rest, raw g = false -> has_symbols (alph g) names -> plain_text text ->
  reads g (IS text false) ts rest -> (forall c, ~ In (TRes c) ts) -> text = tokens_to_string g ts ++ rest.
Proof. intros g names text ts rest R Hs P Rd Nr. destruct (reads_text g names _ _ _ R Hs Rd Nr P eq_refl). assumption. Qed.
Print Assumptions C106_text_partial.
(** C106: ... and nothing is left unread if the text ends in a character, such as a newline,
    that no longer symbol contains, and the epsilon symbol does not occur in it. *)
Theorem C106_all_read_partial : forall g names text ts rest d, raw g = false -> has_symbols (alph g) names -> plain_text text ->
  reads g (IS text false) ts rest -> (forall c, ~ In (TRes c) ts) -> last text d = d ->
  (forall y, In y names -> In d y -> length y <= 1) -> (forall u v, nth 0 names [] <> [] -> text <> u ++ nth 0 names [] ++ v) -> rest = [].
Proof.
  intros g names text ts rest d R Hs P Rd Nr La Sd N0. apply (reads_all g names (IS text false) ts d R Hs Sd); auto.
  intros y u v Ny Y E. assert (nth 0 names [] = y) as Q by (apply nth_error_nth; exact Ny). apply (N0 u v); rewrite Q; auto.
Qed.
Print Assumptions C106_all_read_partial.
(** C106: the longest symbol of the alphabet that starts at a place is taken, and a character
    only if there is none; or the text ends within a longer symbol. *)
Theorem C106_longest_symbol : forall names s k r, ~ In (ascii_of_nat 0) s -> extract_symbol (add_symbols names) s = Ok (k, r) ->
  match k with
  | None => r = s /\ forall y v, In y names -> y <> [] -> s <> y ++ v
  | Some k => (exists y, s = y ++ r /\ nth_error names k = Some y /\ y <> [] /\ forall y' v', In y' names -> y' <> [] -> s = y' ++ v' -> length y' <= length y) \/
              (k = 0 /\ exists v, v <> [] /\ In (s ++ v) names)
  end.
Proof.
  intros names s k r Nf E. pose proof (extract_symbol_spec _ _ _ _ E) as Sp. pose proof (extract_longest _ _ _ _ E Nf) as Lo. destruct k as [k|].
  - destruct Sp as [(y & -> & Ny & Y)|(-> & _ & v & H)]; [left|right; eauto]. exists y. repeat split; auto. intros y' v' I' Y' E'.
    specialize (Lo y' v' E' Y' I'). cbv beta iota in Lo. apply (f_equal (@length _)) in E'. rewrite !app_length in E'. lia.
  - split; auto. intros y v I Y E'. exact (Lo y v E' Y I).
Qed.
Print Assumptions C106_longest_symbol.
(** C106: reading ends on every text: after finitely many tokens there is none left or the
    text is refused (or read out of bounds). *)
Theorem C106_reading_ends : forall g text, null_flush g = false ->
  exists ts is', reads_some g (IS text false) ts is' /\
    (read_token g is' = Throw \/ read_token g is' = Ub \/ exists is'', read_token g is' = Ok (TNone, [], is'')).
Proof. intros. apply reads_ends. assumption. Qed.
Print Assumptions C106_reading_ends.

(** C107: the token buffer.  After [l] tokens have been read and the cursor has been moved back
    to [p] (less than a buffer length), the next token read is token [p] of the text; any of
    the last tokens can be looked up by its position; the distance of positions is counted
    right also over the end of the buffer. *)
Theorem C107_next : forall z ts b p l, ring z ts b p l -> p < l ->
  exists t b', nth_error ts p = Some t /\ b_next b = Ok (t, b') /\ ring z ts b' (S p) l.
Proof. exact ring_next. Qed.
Print Assumptions C107_next.
Theorem C107_add : forall z ts b l t, ring z ts b l l -> nth_error ts l = Some t -> ring z ts (b_add b t) (S l) (S l).
Proof. exact ring_add. Qed.
Print Assumptions C107_add.
Theorem C107_back_partial : forall z ts b p l k, ring z ts b p l -> k < p -> l < p - k + z ->
  exists b', b_back b k = Ok b' /\ ring z ts b' (p - k) l.
Proof. exact ring_back. Qed.
Print Assumptions C107_back_partial.
Theorem C107_get_partial : forall z ts b p l i, ring z ts b p l -> i < l -> l <= i + z ->
  exists t, nth_error ts i = Some t /\ b_get b (i mod z) = Ok t.
Proof. exact ring_get. Qed.
Print Assumptions C107_get_partial.
Theorem C107_diff : forall z ts b p l i, ring z ts b p l -> i < p -> p - i <= z -> b_diff_prev b (i mod z + 1) = p - S i.
Proof. exact ring_diff. Qed.
Print Assumptions C107_diff.

(** C108: analysis of running text divides the text as it should (HP_Spec.segmented: at each
    place the longest stretch the lexicon accepts that is not in the middle of letters, else
    an unknown word or one character) and shows each part once, in order.  Partial: the text
    must end with a token outside words (a newline), no place may stall, and no word may
    overrun the buffer. *)
Theorem C108_analysis_partial : forall g M F text ts rest, reads g (IS text false) ts rest -> (forall c, ~ In (TRes c) ts) ->
  ts = [] \/ ends_outside M (alph g) ts -> no_stall M (alph g) ts -> fits M (alph g) 1024 ts ->
  exists es n, segmented M (alph g) ts es /\ flat_map surface es = ts /\
    forall f, n <= f -> analyse g M F f text = Ok (flat_map (shown g F) es).
Proof. exact analyse_text. Qed.
Print Assumptions C108_analysis_partial.
(** C108: every text of less than 1023 tokens fits. *)
Theorem C108_short_text_fits : forall M a ts, length ts < 1023 -> fits M a 1024 ts.
Proof. intros M a ts L. apply short_fits. lia. Qed.
Print Assumptions C108_short_text_fits.
(** C108: no place stalls if the lexicon reads nothing that is no letter at the start of a word. *)
Theorem C108_no_stall : forall M a ts, (forall t, In t ts -> is_alphabetic a t = false -> is_active (mstep (m := M) reset (to_symbol a t)) = false) -> no_stall M a ts.
Proof. exact letters_no_stall. Qed.
Print Assumptions C108_no_stall.
(** C108: there is only one such division of a text. *)
Theorem C108_division_unique : forall M a ts es1 es2, segmented M a ts es1 -> segmented M a ts es2 -> es1 = es2.
Proof. exact segmented_fun. Qed.
Print Assumptions C108_division_unique.
(** C108: a text that contains a character that should have been escaped is never analysed to
    the end as if nothing had happened (for texts of less than 1024 tokens). *)
Theorem C108_reserved_partial : forall g M F text ts rest c, reads g (IS text false) ts rest -> In (TRes c) ts -> length ts < 1024 ->
  forall f o, analyse g M F f text <> Ok o.
Proof. exact analyse_reserved. Qed.
Print Assumptions C108_reserved_partial.
(** C109: in the Apertium format the output is the text with its words marked up: without the
    markup it is the input. *)
Theorem C109_apertium_partial : forall g names M text ts rest, raw g = false -> has_symbols (alph g) names -> plain_text text ->
  reads g (IS text false) ts rest -> (forall c, ~ In (TRes c) ts) ->
  ts = [] \/ ends_outside M (alph g) ts -> no_stall M (alph g) ts -> fits M (alph g) 1024 ts ->
  exists es n, segmented M (alph g) ts es /\ text = flat_map (fun e => tokens_to_string g (surface e)) es ++ rest /\
    forall f, n <= f -> analyse g M (apertium g) f text = Ok (flat_map (apertium_text g) es).
Proof.
  intros g names M text ts rest R Hs P Rd Nr En St Fi. destruct (analyse_text g M (apertium g) text ts rest Rd Nr En St Fi) as (es & n & Sg & Su & Run).
  exists es, n. split; auto. split.
  - rewrite (C106_text_partial g names text ts rest R Hs P Rd Nr) at 1. f_equal. rewrite <- Su. unfold tokens_to_string.
    clear. induction es as [|e es IH]; [reflexivity|]. cbn [flat_map]. rewrite flat_map_app, IH. reflexivity.
  - intros f Hf. rewrite Run by auto. rewrite apertium_shown. reflexivity.
Qed.
Print Assumptions C109_apertium_partial.

(** * A small lexicon *)
Definition names : list bstr := [B "@0@"; B "a"; B "b"; B " "; [newline]; B "<n>"; B "+x"; B "."; [ascii_of_nat 195; ascii_of_nat 164]].
Definition abc : alphabet := Alphabet names [false; true; true; false; false; false; false; false; true] (fun _ => false) 3 (add_symbols names).
Definition gc : config := Config abc false false.
(** Words as symbol numbers, with their analyses. *)
Fixpoint starts (p w : list nat) : bool := match p, w with [], _ => true | x :: p, y :: w => (x =? y) && starts p w | _, [] => false end.
Definition lexicon (ws : list (list nat * list bstr)) : machine :=
  Machine (option (list nat)) (Some [])
    (fun st k => match st, k with Some p, Some k => if existsb (fun w => starts (p ++ [k]) (fst w)) ws then Some (p ++ [k]) else None | _, _ => None end)
    (fun st => match st with Some _ => true | None => false end)
    (fun st => match st with Some p => existsb (fun w => starts p (fst w) && (length p =? length (fst w))) ws | None => false end)
    (fun st _ => match st with Some p => flat_map (fun w => if starts p (fst w) && (length p =? length (fst w)) then snd w else []) ws | None => [] end).
(** ab, ab a (with a blank), and the word of one umlaut. *)
Definition lex : machine := lexicon [([1; 2], [B "ab<n>"]); ([1; 2; 3; 1], [B "aba<n>"; B "abba"]); ([8], [B "o"])].
Definition nlt : token := TSym 4 false.
Lemma starts_in p k w : starts (p ++ [k]) w = true -> In k w.
Proof.
  revert w. induction p as [|x p IH]; intros [|y w] E; cbn [starts app] in E; try discriminate; apply andb_true_iff in E; destruct E as [E1 E2].
  - apply Nat.eqb_eq in E1. subst. left. reflexivity.
  - right. auto.
Qed.
Lemma lex_newline : forall s, is_active (m := lex) (mstep (m := lex) s (Some 4)) = false.
Proof.
  intros [p|]; [|reflexivity]. cbn [lex lexicon mstep is_active mstate]. match goal with |- match (if ?b then _ else _) with _ => _ end = _ => destruct b eqn:E end; [|reflexivity].
  exfalso. apply existsb_exists in E. destruct E as (w & I & E). apply starts_in in E. cbn in I. decompose [or] I; subst; cbn in E; decompose [or] E; try discriminate; contradiction.
Qed.
Definition text1 : bstr := B "ab b" ++ [ascii_of_nat 195; ascii_of_nat 164] ++ B ", a\$b[x]a [\]]ab a\@" ++ [newline].
Definition tokens1 : list token :=
  [TSym 1 false; TSym 2 false; TSym 3 false; TSym 2 false; TSym 8 false; TChar (B ","); TSym 3 false; TSym 1 false; TChar (B "$"); TSym 2 false; TBlank (B "[x]"); TSym 1 false;
   TSym 3 false; TBlank (B "[\]]"); TSym 1 false; TSym 2 false; TSym 3 false; TSym 1 false; TChar (B "@"); nlt].
Lemma abc_symbols : has_symbols abc names.
Proof.
  split; [reflexivity|]. split; [intros; reflexivity|].
  repeat (apply Forall_cons; [intros H; cbn in H; decompose [or] H; try discriminate; try contradiction|]). apply Forall_nil.
Qed.
(** Deciding plain text. *)
Fixpoint plainb (f : nat) (s : bstr) : bool :=
  match f with
  | 0 => false
  | S f =>
      match s with
      | [] => true
      | c :: r => if Ascii.eqb c "\"%char then match r with d :: r => existsb (Ascii.eqb d) (B "[]{}^$/\@<>") && plainb f r | [] => false end else plainb f r
      end
  end.
Lemma plainb_ok f : forall s, plainb f s = true -> escaped_well s.
Proof.
  induction f as [|f IH]; intros s E; [discriminate|]. destruct s as [|c s]; [constructor|]. cbn [plainb] in E. destruct (Ascii.eqb_spec c "\"%char) as [->|N].
  - destruct s as [|d s]; [discriminate|]. apply andb_true_iff in E. destruct E as [E1 E2]. apply ew_escape; auto. apply existsb_exists in E1.
    destruct E1 as (x & I & Q). apply Ascii.eqb_eq in Q. subst. exact I.
  - apply ew_plain; auto.
Qed.
Fixpoint continuedb (s : bstr) : bool := match s with [] => true | c :: r => forallb (fun d => 128 <=? N_of_ascii d)%N (firstn (following c) r) && continuedb r end.
Lemma continuedb_ok s : continuedb s = true -> continued s.
Proof.
  induction s as [|c s IH]; intros E u d v Q; [destruct u; discriminate|]. cbn [continuedb] in E. apply andb_true_iff in E. destruct E as [E1 E2].
  destruct u as [|b u]; injection Q as -> Q.
  - subst v. rewrite forallb_forall in E1. apply Forall_forall. intros x I. apply N.leb_le, E1, I.
  - eapply IH; eauto.
Qed.
Lemma text1_plain : plain_text text1.
Proof.
  split; [apply (plainb_ok 100); reflexivity|]. split; [|apply continuedb_ok; reflexivity]. intros I. cbn in I. decompose [or] I; try discriminate; auto.
Qed.
Lemma text1_reads : reads gc (IS text1 false) tokens1 [].
Proof.
  unfold tokens1. repeat (eapply reads_token; [vm_compute; reflexivity|discriminate|]). apply (reads_end gc (IS [] false) (IS [] false)). reflexivity.
Qed.
Example C106_witness : plain_text text1 /\ has_symbols (alph gc) names /\ reads gc (IS text1 false) tokens1 [] /\ (forall c, ~ In (TRes c) tokens1) /\
  tokens_to_string gc tokens1 = text1 /\ last text1 newline = newline.
Proof.
  split; [exact text1_plain|]. split; [exact abc_symbols|]. split; [exact text1_reads|]. split; [|split; reflexivity].
  intros c I. cbn in I. decompose [or] I; try discriminate; auto.
Qed.
(** A buffer of three cells holding tokens 2 to 4 of five, with the cursor moved back by one. *)
Example C107_witness : let ts := [nlt; TBlank (B "[]"); TSym 1 false; TSym 2 false; TSym 3 false] in
  exists b, ring 3 ts b 4 5 /\ b_next b = Ok (TSym 3 false, Buffer 3 (cells b) 2 2).
Proof.
  set (ts := [nlt; TBlank (B "[]"); TSym 1 false; TSym 2 false; TSym 3 false]). cbv zeta.
  assert (ring 3 ts (fold_left b_add ts (new_buffer 3)) 5 5) as R.
  { unfold ts at 2. cbn [fold_left]. repeat (apply ring_add; [|reflexivity]). apply ring_new. lia. }
  destruct (ring_back _ _ _ _ _ 1 R ltac:(lia) ltac:(lia)) as (b & E & R'). exists b. split; [exact R'|].
  vm_compute in E. injection E as <-. reflexivity.
Qed.
Example C108_witness : ends_outside lex abc tokens1 /\ no_stall lex abc tokens1 /\ fits lex abc 1024 tokens1 /\
  analyse gc lex (apertium gc) 200 text1 =
    Ok (B "^ab/ab<n>$ ^b" ++ [ascii_of_nat 195; ascii_of_nat 164] ++ B "/*b" ++ [ascii_of_nat 195; ascii_of_nat 164] ++ B "$, ^a/*a$\$^b/*b$[x]^a/*a$ [\]]^ab a/aba<n>/abba$\@" ++ [newline]).
Proof.
  split; [|split; [|split; [apply C108_short_text_fits; vm_compute; lia|vm_compute; reflexivity]]].
  - exists (firstn 19 tokens1), nlt. split; [reflexivity|]. split; [discriminate|]. apply lex_newline.
  - apply C108_no_stall. intros t I. cbn in I. decompose [or] I; subst; try contradiction; vm_compute; congruence.
Qed.
Example C108_reserved_witness : let ts := [TSym 1 false; TRes "$"%char; nlt] in
  reads gc (IS (B "a$" ++ [newline]) false) ts [] /\ In (TRes "$"%char) ts /\ length ts < 1024 /\ analyse gc lex (apertium gc) 50 (B "a$" ++ [newline]) = Throw.
Proof.
  cbv zeta. split; [|split; [right; left; reflexivity|split; [apply Nat.ltb_lt; reflexivity|vm_compute; reflexivity]]].
  do 3 (eapply reads_token; [reflexivity|discriminate|]). eapply (reads_end gc (IS [] false)). reflexivity.
Qed.

(** * What the conditions exclude *)
(** C106: a backslash before a character that needs none is lost ... *)
Theorem C106_backslash_refuted : reads gc (IS (B "\c" ++ [newline]) false) [TChar (B "c"); nlt] [] /\
  tokens_to_string gc [TChar (B "c"); nlt] = B "c" ++ [newline].
Proof.
  split; [|reflexivity]. repeat (eapply reads_token; [vm_compute; reflexivity|discriminate|]). apply (reads_end gc (IS [] false) (IS [] false)). reflexivity.
Qed.
Print Assumptions C106_backslash_refuted.
(** C106: ... and so is the beginning of a symbol at the end of the text. *)
Theorem C106_symbol_at_end_refuted : reads gc (IS (B "b+") false) [TSym 2 false] (B "+") /\
  forall F f, analyse gc lex F (3 + f) (B "+") = Ok [].
Proof.
  split; [|intros; vm_compute; reflexivity]. eapply reads_token; [vm_compute; reflexivity|discriminate|].
  apply (reads_end gc (IS (B "+") false) (IS [] false)). reflexivity.
Qed.
Print Assumptions C106_symbol_at_end_refuted.
(** C106: a backslash at the end, a byte 255, a NUL (at the token after it) are used as an
    index out of bounds, whatever the alphabet. *)
Theorem C106_out_of_bounds_refuted : forall a rest, let g := Config a false false in
  read_token g (IS (B "\") false) = Ub /\ read_token g (IS (byte255 :: rest) false) = Ub /\
  exists is', read_token g (IS (NUL :: rest) false) = Ok (TChar [], [], is') /\ read_token g is' = Ub.
Proof.
  intros a rest. split; [reflexivity|]. split; [reflexivity|]. exists (IS (NUL :: rest) true). split; reflexivity.
Qed.
Print Assumptions C106_out_of_bounds_refuted.
(** C108: a known word at the very end of the text is not shown at all ... *)
Theorem C108_word_at_end_refuted : forall F f, analyse gc lex F (3 + f) (B "ab") = Ok [].
Proof. intros. vm_compute. reflexivity. Qed.
Print Assumptions C108_word_at_end_refuted.
(** C108: ... or it is shown together with what follows it, under the analyses of the word alone. *)
Theorem C108_prefix_at_end_refuted : forall f, analyse gc lex (apertium gc) (4 + f) (B "ab ") = Ok (B "^ab /ab<n>$").
Proof. intros. vm_compute. reflexivity. Qed.
Print Assumptions C108_prefix_at_end_refuted.
(** C108: with an unknown word at the very end the program never stops: it shows its last
    letter again and again. *)
Definition stuck (b : buffer) : Prop := size b = 1024 /\ currentpos b = 1024 /\ lastpos b = 1 /\ nth_error (cells b) 0 = Some (TSym 2 false).
Lemma stuck_forever F : forall f b o loc, stuck b -> analysis gc lex F f (IO (IS [] false) b o) (@reset lex) loc [] [] = Diverge.
Proof.
  induction f as [|f IH]; intros [z c p l] o loc S; [reflexivity|]. pose proof S as (E1 & E2 & E3 & E4). cbn [size currentpos lastpos cells] in E1, E2, E3, E4. subst z p l.
  assert (get_token gc (IO (IS [] false) (Buffer 1024 c 1024 1) o) = Ok (TSym 2 false, IO (IS [] false) (Buffer 1024 c 1 1) o)) as G.
  { unfold get_token, b_empty, b_next, b_get. cbn [tb currentpos lastpos size cells input out]. change (1024 =? 1) with false. change (1024 =? 1024) with true. cbv iota. rewrite E4. reflexivity. }
  cbn [analysis]. rewrite G. cbn [rbind]. unfold record_finals. cbn [length Nat.ltb Nat.leb andb rbind].
  change (is_active (m := lex) (mstep (m := lex) reset (to_symbol (alph gc) (TSym 2 false)))) with false. cbv iota.
  unfold end_of_word. change (is_alphabetic (alph gc) (TSym 2 false)) with true. cbn [length Nat.eqb negb andb rbind].
  destruct f as [|f]; [reflexivity|]. cbn [gather].
  assert (get_token gc (IO (IS [] false) (Buffer 1024 c 1 1) o) = Ok (TNone, IO (IS [] false) (Buffer 1024 c 1 1) (o ++ []))) as G2 by reflexivity.
  rewrite G2. cbn [rbind app]. unfold move_back at 1. cbn [tb]. change (b_back (Buffer 1024 c 1 1) 1) with (Ok (Buffer 1024 c 1024 1)). cbn [rmap rbind input out].
  change (is_alphabetic (alph gc) (TSym 2 false)) with true. cbn [negb].
  unfold move_back, put. cbn [tb input out]. change (b_back (Buffer 1024 c 1024 1) 0) with (Ok (Buffer 1024 c 1024 1)). cbn [rmap rbind tb input out]. apply IH. exact S.
Qed.
Theorem C108_unknown_at_end_refuted : forall F f, analyse gc lex F f (B "b") = Diverge.
Proof.
  intros F [|[|f]]; [reflexivity|reflexivity|]. unfold analyse. remember (S f) as f1. cbn [analysis].
  assert (get_token gc (new_io (B "b")) = Ok (TSym 2 false, IO (IS [] false) (b_add (new_buffer 1024) (TSym 2 false)) [])) as G by reflexivity.
  rewrite G. cbn [rbind]. unfold record_finals. cbn [length Nat.ltb Nat.leb andb rbind].
  change (is_active (m := lex) (mstep (m := lex) reset (to_symbol (alph gc) (TSym 2 false)))) with false. cbv iota.
  unfold end_of_word. change (is_alphabetic (alph gc) (TSym 2 false)) with true. cbn [length Nat.eqb negb andb rbind]. rewrite Heqf1 at 1. cbn [gather].
  assert (get_token gc (IO (IS [] false) (b_add (new_buffer 1024) (TSym 2 false)) []) = Ok (TNone, IO (IS [] false) (b_add (new_buffer 1024) (TSym 2 false)) [])) as G2 by reflexivity.
  rewrite G2. cbn [rbind app]. unfold move_back at 1. cbn [tb].
  change (b_back (b_add (new_buffer 1024) (TSym 2 false)) 1) with (Ok (Buffer 1024 (cells (b_add (new_buffer 1024) (TSym 2 false))) 1024 1)). cbn [rmap rbind input out].
  change (is_alphabetic (alph gc) (TSym 2 false)) with true. cbn [negb]. unfold move_back, put. cbn [tb input out].
  change (b_back (Buffer 1024 (cells (b_add (new_buffer 1024) (TSym 2 false))) 1024 1) 0) with (Ok (Buffer 1024 (cells (b_add (new_buffer 1024) (TSym 2 false))) 1024 1)).
  cbn [rmap rbind tb input out]. apply stuck_forever. repeat split.
Qed.
Print Assumptions C108_unknown_at_end_refuted.
(** C108: where the lexicon stalls a character is lost, here the blank after the full stop. *)
Theorem C108_stall_refuted : let M := lexicon [([7; 3; 7], [B "x"])] in
  analyse gc M (apertium gc) 20 (B ". " ++ [newline]) = Ok (B "." ++ [newline]).
Proof. vm_compute. reflexivity. Qed.
Print Assumptions C108_stall_refuted.
(** C108: a word whose last letter is the 1024th token of the text: the token before it is
    looked up beyond the buffer. *)
Theorem C108_buffer_end_refuted : analyse gc lex (apertium gc) 3000 (B " " ++ flat_map (fun _ => B "b ") (seq 0 510) ++ B " ab" ++ [newline]) = Ub /\
  exists out, analyse gc lex (apertium gc) 3000 (B "  " ++ flat_map (fun _ => B "b ") (seq 0 510) ++ B " ab" ++ [newline]) = Ok out.
Proof. split; [vm_compute; reflexivity|]. eexists. vm_compute. reflexivity. Qed.
Print Assumptions C108_buffer_end_refuted.
