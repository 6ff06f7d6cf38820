(** Properties C104 and C105: Prolog text files. *)
From Verif Require Import Base BT_Model BT_Spec BT_Proofs Str_Model Str_Spec Str_Proofs ATT_Model ATT_Spec ATT_Proofs ATT_Proofs2 PL_Model PL_Spec PL_Proofs PL_Proofs2 PL_Proofs3 PL_Proofs4.
From Coq Require Import Lia NArith ZArith.

(** C104: a transducer written in Prolog format is read back under its name with the same
    transitions (in order), final states and alphabet, also if an empty line and another
    network follow.  Partial: names and symbols must be expressible (PL_Spec.prolog_writable)
    and fit into the reader's buffers; the theorems below show what happens otherwise. *)
Theorem C104_prolog_roundtrip_partial : forall weights name g, prolog_writable weights name g ->
  exists text g', write_in_prolog_format weights name g = Ok text /\ same_network weights g g' /\
  (forall junk, read_in_prolog_format junk (Stream text false) = Ok (name, g', Stream [] true)) /\
  (forall junk rest, read_in_prolog_format junk (Stream (text ++ nl :: rest) false) = Ok (name, g', Stream rest false)).
Proof.
  intros weights name g W. destruct (write_total _ _ _ W) as (t & E).
  destruct (read_written _ _ _ _ W E) as (g' & S & R1 & R2 & _). exists t, g'. auto.
Qed.
Print Assumptions C104_prolog_roundtrip_partial.
(** C104: with weights, the same paths are accepted with the same weights. *)
Theorem C104_language : forall g g', same_network true g g' -> forall l w, accepts g' l w <-> accepts g l w.
Proof. exact same_network_accepts. Qed.
Print Assumptions C104_language.
(** C104: a name with a comma is refused. *)
Theorem C104_name_with_comma : forall weights name g, In ","%char name -> write_in_prolog_format weights name g = Throw.
Proof. exact write_comma. Qed.
Print Assumptions C104_name_with_comma.
(** C104: hfst-fst2txt followed by hfst-txt2fst gives back one transducer ... *)
Theorem C104_tools_partial : forall weights g, prolog_writable weights (B "NO_NAME_1") g ->
  exists text g', prolog_fst2txt weights [g] = Ok text /\ same_network weights g g' /\
  forall junk, prolog_txt2fst junk text = Ok [(B "NO_NAME_1", g')].
Proof. exact tools_one. Qed.
Print Assumptions C104_tools_partial.
(** C104: any number of networks, each in the text written for it, are all read by
    hfst-txt2fst if an empty line stands between them ... *)
Theorem C104_several_partial : forall weights l, l <> [] -> Forall (fun '(name, g) => prolog_writable weights name g) l ->
  exists ts gs, Forall2 (fun '(name, g) t => write_in_prolog_format weights name g = Ok t) l ts /\
    Forall2 (fun '(name, g) '(name', g') => name' = name /\ same_network weights g g') l gs /\
    forall junk, prolog_txt2fst junk (joined ts) = Ok gs.
Proof. exact several_read. Qed.
Print Assumptions C104_several_partial.
(** C104: ... but never two or more written by hfst-fst2txt: the separator line the one writes is not the one the
    other accepts, and the program ends with an error. *)
Theorem C104_tools_several_refuted : forall weights g1 g2 gs text, prolog_writable weights (B "NO_NAME_1") g1 ->
  prolog_fst2txt weights (g1 :: g2 :: gs) = Ok text -> forall junk, prolog_txt2fst junk text = Throw.
Proof. exact tools_several. Qed.
Print Assumptions C104_tools_several_refuted.
(** C104: from an istream nothing can be read: any text whose first line ends in a newline
    is refused as not valid. *)
Theorem C104_stream_refuted : forall junk line rest, ~ In nl line -> length line <= 254 ->
  read_in_prolog_format_stream junk (Stream (line ++ nl :: rest) false) = Throw.
Proof. exact stream_rejects. Qed.
Print Assumptions C104_stream_refuted.

(** A symbol with a blank in the alphabet that no transition uses: the text written is refused. *)
Definition blank_alphabet : graph := Graph [[]] [(0, 0%Z)] (sadd bcmp (B "a b") (initialize_alphabet [])).
Theorem C104_blank_symbol_refuted : exists text, write_in_prolog_format true (B "N") blank_alphabet = Ok text /\
  forall junk, read_in_prolog_format junk (Stream text false) = Throw.
Proof.
  eexists. split; [vm_compute; reflexivity|]. intros junk. unfold read_in_prolog_format. rewrite (head_junk _ junk []).
  vm_compute. reflexivity.
Qed.
Print Assumptions C104_blank_symbol_refuted.
(** A name of 98 bytes or more, without white space: reading it back runs over the buffer. *)
Theorem C104_long_name_refuted : forall name rest junk, Forall (fun c => is_white c = false) name -> no_nul name ->
  98 <= length name <= 243 ->
  read_in_prolog_format junk (Stream (B "network(" ++ name ++ B ")." ++ nl :: rest) false) = Ub.
Proof.
  intros name rest junk W U [L1 L2]. unfold read_in_prolog_format. cbn [bytes]. generalize (length (B "network(" ++ name ++ B ")." ++ nl :: rest)).
  intros fuel. cbn [prolog_head].
  replace (B "network(" ++ name ++ B ")." ++ nl :: rest) with ((((B "network(" ++ name) ++ B ").") ++ [nl]) ++ rest) by (rewrite <- !app_assoc; reflexivity).
  rewrite file_line_ok.
  - rewrite <- app_assoc. change (B "network(" ++ name ++ B ").") with ("n"%char :: B "etwork(" ++ name ++ B ").") at 1. cbn [Ascii.eqb Bool.eqb].
    unfold parse_network. rewrite scanf_lit. cbn [scanf]. destruct name as [|c name]; [simpl in L1; lia|].
    inversion W as [|? ? Wc Wn]; subst. change ((c :: name) ++ B ").") with (c :: name ++ B ").").
    rewrite skip_white_no by auto. change (c :: name ++ B ").") with ((c :: name) ++ B ").").
    rewrite <- (app_nil_r ((c :: name) ++ B ").")), span_all.
    + change ((c :: name) ++ B ").") with (c :: name ++ B ").") at 1. cbv iota.
      destruct (Nat.leb_spec 100 (length ((c :: name) ++ B ").")) ) as [H|H]; [reflexivity|]. rewrite app_length in H. simpl in *. lia.
    + apply Forall_app. split; [eapply Forall_impl; [|exact W]; intros d ->; reflexivity|repeat constructor].
    + exact I.
  - rewrite in_app_iff. intros [I|I]; [simpl in I; decompose [or] I; try discriminate; auto|].
    rewrite Forall_forall in W. apply W in I. discriminate.
  - apply no_nul_app; auto. intros I. simpl in I. decompose [or] I; try discriminate; auto.
  - rewrite app_length. simpl. lia.
Qed.
Print Assumptions C104_long_name_refuted.

(** C105: what is read depends on the text only, not on the memory the line parser reads
    before having written it. *)
Theorem C105_no_stale_memory : forall junk1 junk2 f,
  read_in_prolog_format junk1 f = read_in_prolog_format junk2 f /\
  read_in_prolog_format_stream junk1 f = read_in_prolog_format_stream junk2 f.
Proof. intros. split; apply head_junk. Qed.
Print Assumptions C105_no_stale_memory.
(** C105: a comment line before the network changes nothing. *)
Theorem C105_comments : forall junk comment rest, ~ In nl comment -> no_nul comment -> length comment <= 252 ->
  read_in_prolog_format junk (Stream ("#"%char :: comment ++ nl :: rest) false) = read_in_prolog_format junk (Stream rest false).
Proof. exact read_comment. Qed.
Print Assumptions C105_comments.
(** C105: reading ends on every text. *)
Theorem C105_terminates : forall junk f, read_in_prolog_format junk f <> Diverge.
Proof. exact read_terminates. Qed.
Print Assumptions C105_terminates.

(** Two states, an escaped quote, a backslash, epsilon, identity, an unused symbol, a negative weight. *)
Definition prolog_net : graph :=
  Graph [[Arc 1 (B "a") [dq; bsl; "x"%char] 500000; Arc 0 IDN IDN 0]; [Arc 0 EPS (B "?") (-1250000)]] [(1, 250000%Z)]
        (initialize_alphabet [B "unused"; B "a"; [dq; bsl; "x"%char]; B "?"]).
Example C104_witness : prolog_writable true (B "NO_NAME_1") prolog_net /\
  (exists text g', prolog_fst2txt true [prolog_net] = Ok text /\ prolog_txt2fst [] text = Ok [(B "NO_NAME_1", g')] /\
   sts g' = sts prolog_net /\ fin g' = fin prolog_net) /\
  prolog_writable true (B "N") (Graph [[]] [(0, 0%Z)] (initialize_alphabet [])).
Proof.
  assert (U : forall x, used prolog_net x -> x = B "a" \/ x = [dq; bsl; "x"%char] \/ x = IDN \/ x = EPS \/ x = B "?").
  { intros x (s & a & I & E). destruct s as [|[|[|s]]]; simpl in I; decompose [or] I; subst; simpl in E; decompose [or] E; auto 10; contradiction. }
  split; [|split].
  - split; [|split; [|split; [|split; [|split; [|split; [|split]]]]]].
    + split; [discriminate|]. split.
      * intros s a I. destruct s as [|[|[|s]]]; simpl in I; decompose [or] I; subst; simpl; try lia; contradiction.
      * intros s w E. simpl in E. destruct (Nat.compare_spec s 1); try discriminate. subst. simpl. lia.
    + vm_compute. discriminate.
    + repeat constructor. intros [].
    + split; [discriminate|]. split; [intros I; simpl in I; decompose [or] I; try discriminate; auto|]. split; [|simpl; lia].
      intros c I. simpl in I. decompose [or] I; subst; (split; [apply not_white_false; reflexivity|discriminate]) || contradiction.
    + intros x H. apply U in H. decompose [or] H; subst; (split; [|split; [|split; [|split; [|split]]]]);
        try discriminate; try (intros I; simpl in I; decompose [or] I; try discriminate; auto; fail);
        intros r E; apply (f_equal (@rev ascii)) in E; rewrite rev_app_distr in E; discriminate.
    + intros x I. change (alpha prolog_net) with (initialize_alphabet [B "unused"; B "a"; [dq; bsl; "x"%char]; B "?"]) in I.
      unfold initialize_alphabet in I. rewrite !(In_sadd bcmp bcmp_eq) in I. destruct I as [I|[I|[I|I]]];
        [left; unfold special; auto..|]. simpl in I.
      decompose [or] I; subst.
      * right. right. split; [|apply Nat.leb_le; vm_compute; reflexivity]. split; [discriminate|]. split; [intros J; simpl in J; decompose [or] J; try discriminate; auto|].
        split; [|split; discriminate]. intros c J. simpl in J. decompose [or] J; subst; apply not_white_false; reflexivity || contradiction.
      * right. left. exists 0. eexists. split; [left; reflexivity|]. left. reflexivity.
      * right. left. exists 0. eexists. split; [left; reflexivity|]. right. reflexivity.
      * right. left. exists 1. eexists. split; [left; reflexivity|]. right. reflexivity.
      * contradiction.
    + intros s a I. destruct s as [|[|[|s]]]; simpl in I; decompose [or] I; subst; try contradiction;
        (split; [split; intros E; try reflexivity; discriminate|]); apply Nat.leb_le; vm_compute; reflexivity.
    + intros s w I. simpl in I. destruct I as [I|[]]. injection I as <- <-. apply Nat.leb_le. vm_compute. reflexivity.
  - eexists; eexists. split; [vm_compute; reflexivity|]. split; [vm_compute; reflexivity|]. split; reflexivity.
  - split; [|split; [|split; [|split; [|split; [|split; [|split]]]]]].
    + split; [discriminate|]. split.
      * intros s a I. destruct s as [|[|s]]; destruct I.
      * intros s w E. simpl in E. destruct (Nat.compare_spec s 0); try discriminate. subst. simpl. lia.
    + vm_compute. discriminate.
    + repeat constructor. intros [].
    + split; [discriminate|]. split; [intros [I|[]]; discriminate|]. split; [|simpl; lia].
      intros c [<-|[]]. split; [apply not_white_false; reflexivity|discriminate].
    + intros x (s & a & I & _). destruct s as [|[|s]]; destruct I.
    + intros x I. change (alpha _) with (initialize_alphabet []) in I.
      unfold initialize_alphabet in I. rewrite !(In_sadd bcmp bcmp_eq) in I. left. unfold special. destruct I as [I|[I|[I|I]]]; auto. destruct I.
    + intros s a I. destruct s as [|[|s]]; destruct I.
    + intros s w [I|[]]. injection I as <- <-. apply Nat.leb_le. vm_compute. reflexivity.
Qed.
Example C105_witness : exists g, read_in_prolog_format (B "any thing") (Stream (B "# made by hand" ++ nl :: B "network(N)." ++ nl :: B "final(N, 2)." ++ [nl]) false) = Ok (B "N", g, Stream [] true) /\ finw g 2 = Some 0%Z.
Proof. eexists. split; vm_compute; reflexivity. Qed.
