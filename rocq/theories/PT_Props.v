(** hfst-pair-test. *)
From Verif Require Import Base BT_Model BT_Spec BT_Proofs Tok_Model S2_Spec S2_Model S2_Proofs S2_Props PT_Spec PT_Model PT_Proofs.

(** hfst-pair-test on a file of pair strings: exit code 0 if and only if every rule accepts every line,
    read between word boundaries; 1 otherwise.  Partial: the rules are deterministic
    (C151_deterministic_refuted) and have the same symbols (C151_symbols_refuted). *)
Theorem C151_pair_test_partial gr valid one grammar lines os : icu gr valid one -> orderly one [] (B "0") ->
  (forall g, In g grammar -> deterministic g) -> (forall g h x, In g grammar -> In h grammar -> used g x -> used h x) -> Forall2 (line_says one) lines os ->
  exists c, pair_test gr valid grammar true lines = Ok c /\ (c = 0 \/ c = 1) /\
    (c = 0 <-> forall ps g, In (Some ps) os -> In g grammar -> accepted_by g (bounded ps)).
Proof.
  intros I O D S L. destruct (pair_test_spec gr valid one I O grammar true lines os D S L) as (c & R & V & W).
  exists c. split; [exact R|]. split; [exact V|]. rewrite W. cbn [passes]. split; auto.
Qed.
Print Assumptions C151_pair_test_partial.
(** With the option -N: exit code 0 if and only if some rule rejects each line. *)
Theorem C151_negative_partial gr valid one grammar lines os : icu gr valid one -> orderly one [] (B "0") ->
  (forall g, In g grammar -> deterministic g) -> (forall g h x, In g grammar -> In h grammar -> used g x -> used h x) -> Forall2 (line_says one) lines os ->
  exists c, pair_test gr valid grammar false lines = Ok c /\ (c = 0 \/ c = 1) /\
    (c = 0 <-> forall ps, In (Some ps) os -> exists g, In g grammar /\ ~ accepted_by g (bounded ps)).
Proof. intros I O D S L. exact (pair_test_spec gr valid one I O grammar false lines os D S L). Qed.
Print Assumptions C151_negative_partial.

(** ** A grammar of two rules; the second allows a:b once. *)
Definition wend : bstr := B "@#@".
Definition wr1 : graph := Graph [[Arc 1 wend EPS 0]; [Arc 1 IDN IDN 0; Arc 1 (B "a") (B "b") 0; Arc 2 wend EPS 0]; []] [(2, 0%Z)] [].
Definition wr2 : graph := Graph [[Arc 1 wend EPS 0]; [Arc 1 IDN IDN 0; Arc 3 (B "a") (B "b") 0; Arc 2 wend EPS 0]; []; [Arc 3 IDN IDN 0; Arc 2 wend EPS 0]] [(2, 0%Z)] [].
Definition det1 (l : list arc) : bool := forallb (fun a => forallb (fun b => negb (bstr_eqb (isy a) (isy b) && bstr_eqb (osy a) (osy b)) || (tgt a =? tgt b)) l) l.
Lemma det_check g : forallb det1 (sts g) = true -> deterministic g.
Proof.
  intros H s a b Ha Hb E1 E2. rewrite forallb_forall in H.
  destruct (Nat.lt_ge_cases s (length (sts g))) as [L|L]; [|rewrite nth_overflow in Ha by exact L; destruct Ha].
  specialize (H _ (nth_In _ [] L)). unfold det1 in H. rewrite forallb_forall in H. specialize (H a Ha). rewrite forallb_forall in H. specialize (H b Hb).
  rewrite E1, E2, !bstr_eqb_refl in H. cbn in H. apply Nat.eqb_eq. exact H.
Qed.
Lemma used_check g h x : forallb (fun y => smem bcmp y (symbols_used h)) (symbols_used g) = true -> used g x -> used h x.
Proof. intros H U. rewrite forallb_forall in H. apply symbols_used_In in U. specialize (H x U). apply (smem_In bcmp bcmp_eq), symbols_used_In in H. exact H. Qed.
Lemma worderly0 : orderly ascii_one [] (B "0").
Proof.
  split.
  - intros w Hw. in_cases Hw; (split; [discriminate|]); (split; [apply ascii_text; cbn [B list_ascii_of_string]; repeat (constructor; [char_one|]); constructor|]); split; intros K; cbn in K; repeat (destruct K as [K|K]; [discriminate K|]); exact K.
  - intros w w' Hw Hw' P. apply starts_prefix in P. in_cases Hw; in_cases Hw'; vm_compute in P; first [discriminate P|reflexivity].
  - unfold words, reserved. cbn [app]. repeat (constructor; [intros K; cbn [In] in K; repeat (destruct K as [K|K]; [discriminate K|]); exact K|]). constructor.
  - intros m w Hm Hw. apply inside_occurs. in_cases Hm; in_cases Hw; reflexivity.
  - discriminate.
Qed.
Lemma wletter c : c <> colon -> c <> space -> c <> backslash -> c <> B "0" -> ascii_one c -> spaced_symbol ascii_one (B "0") c c.
Proof.
  intros N1 N2 N3 N4 A. replace c with (concat [c]) at 1 by apply app_nil_r. replace c with (concat (map escaped [c])) at 2.
  - apply ss_symbol; [discriminate|repeat constructor; exact A|intros [K|[]]; auto|cbn; rewrite app_nil_r; exact N4|].
    intros w Hw (x & y & E). destruct A as (b0 & b1 & b2 & b3 & b4 & b5 & b6 & -> & _). apply (f_equal (@length ascii)) in E. rewrite !app_length in E. in_cases Hw; cbn in E; lia.
  - cbn. unfold escaped. rewrite (proj2 (bstr_eqb_neq c colon) N1), (proj2 (bstr_eqb_neq c space) N2). apply app_nil_r.
Qed.
Ltac letter := apply wletter; [discriminate..|char_one].
Lemma wcomment : skipped (B "  ! x").
Proof. exists (B "  "), (B "! x"). split; [reflexivity|]. split; [intros c [<-|[<-|[]]]; auto|]. right. exists (B " x"). reflexivity. Qed.
Lemma wline1 : spaced_pairs ascii_one (B "0") [(B "x", B "x"); (B "a", B "b"); (B "y", B "y")] (B "x a:b y").
Proof.
  apply (spp_same ascii_one (B "0") (B "x") (B "x") _ (B " a:b y")); [letter| |right; exists (B "a:b y"); reflexivity].
  apply (spp_space ascii_one (B "0") _ (B "a:b y")).
  apply (spp_pair ascii_one (B "0") (B "a") (B "b") (B "a") (B "b") _ (B " y")); [letter|letter| |right; exists (B "y"); reflexivity].
  apply (spp_space ascii_one (B "0") _ (B "y")). apply (spp_same ascii_one (B "0") (B "y") (B "y") [] []); [letter|constructor|left; reflexivity].
Qed.
Lemma wline2 : spaced_pairs ascii_one (B "0") [(B "a", B "b"); (B "a", B "b")] (B "a:b a:b").
Proof.
  apply (spp_pair ascii_one (B "0") (B "a") (B "b") (B "a") (B "b") _ (B " a:b")); [letter|letter| |right; exists (B "a:b"); reflexivity].
  apply (spp_space ascii_one (B "0") _ (B "a:b")).
  apply (spp_pair ascii_one (B "0") (B "a") (B "b") (B "a") (B "b") [] []); [letter|letter|constructor|left; reflexivity].
Qed.
Lemma wunskipped s : is_empty_or_comment s = false -> ~ skipped s.
Proof. intros H W. apply skipped_spec in W. congruence. Qed.
Ltac nonl := intros K; cbn in K; repeat (destruct K as [K|K]; [discriminate K|]); exact K.
Example C151_witness : (forall g, In g [wr1; wr2] -> deterministic g) /\ (forall g h x, In g [wr1; wr2] -> In h [wr1; wr2] -> used g x -> used h x) /\
  Forall2 (line_says ascii_one) [B "  ! x" ++ ["010"%char]; B "x a:b y" ++ ["010"%char]] [None; Some [(B "x", B "x"); (B "a", B "b"); (B "y", B "y")]] /\
  line_says ascii_one (B "a:b a:b" ++ []) (Some [(B "a", B "b"); (B "a", B "b")]) /\
  pair_test gr8 ok8 [wr1; wr2] true [B "  ! x" ++ ["010"%char]; B "x a:b y" ++ ["010"%char]] = Ok 0 /\
  pair_test gr8 ok8 [wr1; wr2] false [B "a:b a:b"] = Ok 0 /\ pair_test gr8 ok8 [wr1; wr2] true [B "a:b a:b"; B "x a:b y"] = Ok 1 /\
  pair_test gr8 ok8 [wr1; wr2] false [B "a:b a:b"; B "x a:b y"] = Ok 1.
Proof.
  split; [intros g [<-|[<-|[]]]; apply det_check; vm_compute; reflexivity|].
  split; [intros g h x [<-|[<-|[]]] [<-|[<-|[]]]; apply used_check; vm_compute; reflexivity|].
  split; [|split; [|vm_compute; repeat split]].
  - constructor; [apply ls_skip; [nonl|right; exists []; reflexivity|exact wcomment]|].
    constructor; [|constructor]. apply ls_test; [nonl|right; exists []; reflexivity|apply wunskipped; vm_compute; reflexivity|exact wline1].
  - apply ls_test; [nonl|left; reflexivity|apply wunskipped; vm_compute; reflexivity|exact wline2].
Qed.

(** Only the first transition with a label is followed: the rule accepts the line and the test fails. *)
Definition wr3 : graph := Graph [[Arc 1 wend EPS 0; Arc 2 wend EPS 0]; []; [Arc 3 wend EPS 0]; []] [(3, 0%Z)] [].
Example C151_deterministic_refuted : accepted_by wr3 (bounded []) /\ test_grammar (symbols_used wr3) [wr3] true (bounded []) = 1.
Proof.
  split; [|vm_compute; reflexivity]. exists (bounded []), 0%Z. split.
  - exists 3, 0%Z, 0%Z. split; [|split; [vm_compute; reflexivity|reflexivity]].
    apply (run_cons wr3 0 (Arc 2 wend EPS 0) [(wend, EPS)] 0 3); [right; left; reflexivity|]. apply (run_cons wr3 2 (Arc 3 wend EPS 0) [] 0 3); [left; reflexivity|constructor].
  - constructor; [constructor|]. constructor; constructor.
Qed.
(** A symbol that only the second rule knows is taken for an unknown one, so that it is matched by
    identity: the second rule does not accept x, and the test passes. *)
Definition wr4 : graph := Graph [[Arc 1 wend EPS 0]; [Arc 1 IDN IDN 0; Arc 1 (B "x") (B "y") 0; Arc 2 wend EPS 0]; []] [(2, 0%Z)] [].
Example C151_symbols_refuted : pair_test gr8 ok8 [wr1; wr4] true [B "x"] = Ok 0 /\ ~ accepted_by wr4 (bounded [(B "x", B "x")]) /\
  pair_test gr8 ok8 [wr4; wr1] true [B "x"] = Ok 1.
Proof.
  split; [vm_compute; reflexivity|]. split; [|vm_compute; reflexivity].
  assert (K : forall x, In x (symbols_used wr4) <-> used wr4 x) by (intros x; apply symbols_used_In).
  assert (D : deterministic wr4) by (apply det_check; vm_compute; reflexivity).
  destruct (test_rule (symbols_used wr4) wr4 K D true (bounded [(B "x", B "x")])) as [(H & _)|(_ & H)]; [vm_compute in H; discriminate H|exact H].
Qed.
