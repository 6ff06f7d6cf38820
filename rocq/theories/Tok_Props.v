(** Properties C07-C10, C51, C52: tokenization and input encoding. *)
From Verif Require Import Base Flags_Model Tok_Model Tok_Spec Tok_Proofs.

(** C07: for every configuration, both modes, every behaviour of the ICU oracles: if
    tokenization returns, the tokens are a cutting [ts0] of the input into
    non-empty pieces, minus exactly the skipped ones. *)
Theorem C07_tokenization_lossless : forall grapheme valid split t s ts,
  tokenize_one_level grapheme valid split t s = Ok ts ->
  exists ts0, concat ts0 = s /\ Forall (fun w => w <> []) ts0 /\
    ts = filter (fun x => negb (is_skip_symbol t x)) ts0.
Proof.
  intros gr u8 split t s ts H. unfold tokenize_one_level in H.
  destruct (u8 s); [|discriminate]. exact (tok_loop_lossless gr split t _ s ts H).
Qed.
Print Assumptions C07_tokenization_lossless.

(** Without skip symbols nothing at all is lost. *)
Theorem C07_tokenization_lossless_no_skip : forall grapheme valid split t s ts,
  skip_symbol_set t = [] ->
  tokenize_one_level grapheme valid split t s = Ok ts ->
  concat ts = s /\ Forall (fun w => w <> []) ts.
Proof.
  intros gr u8 split t s ts Hsk H.
  destruct (C07_tokenization_lossless gr u8 split t s ts H) as (ts0 & H1 & H2 & ->).
  assert (E : filter (fun x => negb (is_skip_symbol t x)) ts0 = ts0).
  { clear -Hsk H2. induction H2 as [|w l Hw _ IH]; [reflexivity|]. simpl. rewrite IH.
    unfold is_skip_symbol. rewrite Hsk. destruct w; [congruence|reflexivity]. }
  rewrite E. auto.
Qed.
Print Assumptions C07_tokenization_lossless_no_skip.

(** C08: with UTF-8 symbols and UTF-8 input, tokenization always returns and is the
    leftmost-longest segmentation; single characters are UTF-8 characters in split
    mode and ICU clusters otherwise. *)
Theorem C08_leftmost_longest : forall grapheme valid split regs s,
  (forall k w, In (k, w) regs -> utf8 w /\ no_nul w) ->
  (split = false -> forall x, x <> [] -> utf8 x ->
     exists c r, x = c ++ r /\ length c = grapheme x /\ utf8 c /\ c <> []) ->
  utf8 s -> valid s = true ->
  exists t ts ts0, configure regs tok_new = Ok t /\
    tokenize_one_level grapheme valid split t s = Ok ts /\
    segmentation (registered regs)
      (fun c r => if split then utf8_char c else length c = grapheme (c ++ r) /\ c <> []) s ts0 /\
    ts = filter (fun x => negb (is_skip_symbol t x)) ts0 /\
    (forall x, In x ts <-> In x ts0 /\ ~ skipped regs x).
Proof. exact tokenize_segmentation. Qed.
Print Assumptions C08_leftmost_longest.

Definition demo_regs : list (bool * bstr) := [(false, B "foo"); (true, B "fo"); (false, B "<br />"); (true, B "<p>")].
Example C08_witness :
  (forall k w, In (k, w) demo_regs -> utf8 w /\ no_nul w) /\
  rbind (configure demo_regs tok_new)
    (fun t => tokenize_one_level (fun _ => 1) (fun _ => true) true t (B "<p>xfoofo<br />"))
  = Ok [B "x"; B "foo"; B "<br />"].
Proof.
  split; [|vm_compute; reflexivity].
  assert (Hascii : forall l : list ascii, forallb (fun b => match b with Ascii _ _ _ _ _ _ _ b7 => negb b7 end) l = true -> utf8 l).
  { induction l as [|b l IH]; intros H; [apply utf8_nil|]. simpl in H. apply andb_true_iff in H. destruct H as [H1 H2].
    apply (utf8_app [b] l); [|auto]. exists [[b]]. split; [|reflexivity]. constructor; [|constructor].
    destruct b as [b0 b1 b2 b3 b4 b5 b6 b7]. destruct b7; [discriminate|constructor]. }
  intros k w Hin. simpl in Hin.
  decompose [or] Hin; try contradiction;
    match goal with H : (_, _) = (_, _) |- _ => injection H as <- <- end;
    (split; [apply Hascii; vm_compute; reflexivity|intros K; simpl in K; intuition discriminate]).
Qed.

(** The hypothesis on symbols is needed: a symbol that cuts a UTF-8 character
    makes the tokenizer leave the input buffer. *)
Theorem C07_cut_utf8_symbol_out_of_bounds_refuted :
  exists regs s, utf8 s /\
    rbind (configure regs tok_new)
      (fun t => tokenize_one_level (fun _ => 1) (fun _ => true) true t s) = Ub.
Proof.
  exists [(false, B "x" ++ ["195"%char])], (B "x" ++ ["195"%char; "164"%char]). split.
  - exists [B "x"; ["195"%char; "164"%char]]. split; [|reflexivity]. constructor; [apply u1|].
    constructor; [|constructor]. apply u2. do 6 eexists. reflexivity.
  - vm_compute. reflexivity.
Qed.
Print Assumptions C07_cut_utf8_symbol_out_of_bounds_refuted.

(** Registering a symbol with byte 255 writes outside the trie's vectors. *)
Theorem C07_byte255_symbol_out_of_bounds_refuted :
  exists s, s <> [] /\ no_nul s /\ add_multichar_symbol s tok_new = Ub.
Proof.
  exists ["255"%char]. split; [discriminate|]. split; [intros [K|[]]; discriminate|]. vm_compute. reflexivity.
Qed.
Print Assumptions C07_byte255_symbol_out_of_bounds_refuted.

(** C09: pair tokenization pads only at the end, on the shorter side. *)
Theorem C09_pair_tokenization : forall grapheme valid split t i o ps,
  tokenize_pair grapheme valid split t i o = Ok ps ->
  exists xs ys, tokenize_one_level grapheme valid split t i = Ok xs /\
    tokenize_one_level grapheme valid split t o = Ok ys /\
    map fst ps = xs ++ repeat (B "@_EPSILON_SYMBOL_@") (length ys - length xs) /\
    map snd ps = ys ++ repeat (B "@_EPSILON_SYMBOL_@") (length xs - length ys).
Proof. exact tokenize_pair_spec. Qed.
Print Assumptions C09_pair_tokenization.

(** ... and it returns whenever both one-sided tokenizations do. *)
Theorem C09_pair_tokenization_total : forall grapheme valid split t i o xs ys,
  tokenize_one_level grapheme valid split t i = Ok xs ->
  tokenize_one_level grapheme valid split t o = Ok ys ->
  exists ps, tokenize_pair grapheme valid split t i o = Ok ps.
Proof.
  intros gr u8 split t i o xs ys Hx Hy. unfold tokenize_pair, tokenize.
  pose proof Hx as Hx'. pose proof Hy as Hy'. unfold tokenize_one_level in Hx', Hy'.
  destruct (u8 i); [|discriminate]. destruct (u8 o); [|discriminate]. cbn [negb].
  rewrite Hx, Hy. cbn [rmap rbind]. eexists; reflexivity.
Qed.
Print Assumptions C09_pair_tokenization_total.

Example C09_witness :
  tokenize_pair (fun _ => 1) (fun _ => true) true tok_new (B "ab") (B "c")
  = Ok [(B "a", B "c"); (B "b", B "@_EPSILON_SYMBOL_@")] /\
  tokenize_pair (fun _ => 1) (fun _ => true) true tok_new (B "a") (B "cd")
  = Ok [(B "a", B "c"); (B "@_EPSILON_SYMBOL_@", B "d")].
Proof. vm_compute. tauto. Qed.

(** C10: the encoder finds the longest registered symbol, with its latest number. *)
Theorem C10_encoder_longest_match : forall regs s,
  Forall (fun '(w, k) => w <> [] /\ no_nul w /\ (k < 65535)%N) regs -> s <> [] ->
  exists e n k, register regs encoder_new = Ok e /\ encoder_find_key e s = Ok (n, k) /\
    ((exists w, longest_prefix (fun w => latest regs w <> None) s w /\
                latest regs w = Some n /\ n <> 65535%N /\ k = length w) \/
     (no_prefix (fun w => latest regs w <> None) s /\ n = 65535%N)).
Proof. exact encoder_spec. Qed.
Print Assumptions C10_encoder_longest_match.

Example C10_witness :
  let regs := [(B "a", 1%N); (B "ab", 2%N); (B "b", 3%N); (B "a", 7%N)] in
  Forall (fun '(w, k) => w <> [] /\ no_nul w /\ (k < 65535)%N) regs /\
  rbind (register regs encoder_new) (fun e => encoder_find_key e (B "abc")) = Ok (2%N, 2) /\
  rbind (register regs encoder_new) (fun e => encoder_find_key e (B "acb")) = Ok (7%N, 1) /\
  rbind (register regs encoder_new) (fun e => encoder_find_key e (B "ca")) = Ok (65535%N, 1).
Proof.
  split; [|vm_compute; tauto].
  repeat (constructor; [split; [discriminate|split; [intros K; simpl in K; intuition discriminate|reflexivity]]|]). constructor.
Qed.

(** Registering the empty symbol (which the constructor does for an epsilon stored as
    "") reads behind the end of the string. *)
Theorem C10_empty_symbol_refuted : forall k e, read_input_symbol [] k e = Ub.
Proof. reflexivity. Qed.
Print Assumptions C10_empty_symbol_refuted.

(** C51: tokenize_space_separated returns the maximal runs of non-spaces. *)
Theorem C51_space_separated : forall valid s, valid s = true ->
  exists ps, tokenize_space_separated valid s = Ok ps /\
    spaced s (map fst ps) /\ Forall (fun p => fst p = snd p) ps.
Proof.
  intros u8 s H. unfold tokenize_space_separated. rewrite H. eexists. split; [reflexivity|].
  split; [exact (space_loop_spec s None)|apply space_loop_dup].
Qed.
Print Assumptions C51_space_separated.
Example C51_witness : tokenize_space_separated (fun _ => true) (B " ab  c ") = Ok [(B "ab", B "ab"); (B "c", B "c")].
Proof. vm_compute. reflexivity. Qed.

(** C52: flag alignment never pairs a flag with anything but itself and keeps the
    tokens of each side in order ... *)
Theorem C52_flags_aligned : forall grapheme valid split t i o ps,
  tokenize_and_align grapheme valid split t i o = Ok ps ->
  Forall (fun p => is_diacritic (fst p) = true \/ is_diacritic (snd p) = true -> fst p = snd p) ps /\
  exists xs ys, tokenize_one_level grapheme valid split t i = Ok xs /\
    tokenize_one_level grapheme valid split t o = Ok ys /\
    sub xs (map fst ps) /\ sub ys (map snd ps).
Proof. exact tokenize_and_align_spec. Qed.
Print Assumptions C52_flags_aligned.

(** ... but ordinary symbols can be copied to the other side: the output string is
    not preserved up to flags and epsilons. *)
Theorem C52_output_text_preserved_refuted : exists regs i o ps ys,
  rbind (configure regs tok_new) (fun t => tokenize_and_align (fun _ => 1) (fun _ => true) true t i o) = Ok ps /\
  rbind (configure regs tok_new) (fun t => tokenize_one_level (fun _ => 1) (fun _ => true) true t o) = Ok ys /\
  let plain := filter (fun x => negb (is_diacritic x) && negb (bstr_eqb x (B "@_EPSILON_SYMBOL_@"))) in
  plain (map snd ps) <> plain ys.
Proof.
  exists [(false, B "@P.F.v@")], (B "a"), (B "@P.F.v@"). do 2 eexists.
  split; [vm_compute; reflexivity|]. split; [vm_compute; reflexivity|]. vm_compute. discriminate.
Qed.
Print Assumptions C52_output_text_preserved_refuted.
Example C52_witness :
  tokenize_and_align (fun _ => 1) (fun _ => true) true tok_new (B "ab") (B "b")
  = Ok [(B "a", B "b"); (B "b", B "@_EPSILON_SYMBOL_@")].
Proof. vm_compute. reflexivity. Qed.
