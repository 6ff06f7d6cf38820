(** Properties C138-C141: hfst-reweight, hfst-kill-paths and
    hfst-preprocess-for-optimized-lookup-format. *)
From Verif Require Import Base Flags_Model BT_Model BT_Spec BT_Proofs BT_Props Harm_Model Harm_Spec Harm_Props Co_Spec Co_Props RW_Spec RW_Model RW_Proofs.

Lemma bounds_iff q w : out_of_bounds q w = false <-> within q w.
Proof.
  unfold out_of_bounds, within. rewrite orb_false_iff, Z.ltb_ge. split; intros [H1 H2]; (split; [exact H1|]).
  - intros u E. rewrite E, Z.ltb_ge in H2. exact H2.
  - destruct (q_upper q) as [u|]; [|reflexivity]. apply Z.ltb_ge, H2. reflexivity.
Qed.
Lemma differs_iff x o : differs x o = false <-> forall s, o = Some s -> x = s.
Proof.
  unfold differs. destruct o as [s|]; [|split; [intros _ s H; discriminate H|reflexivity]]. rewrite negb_false_iff, bstr_eqb_eq. split; [intros -> s' E; injection E as <-; reflexivity|auto].
Qed.
Lemma differs_given x o : differs x o = true -> given o = true.
Proof. destruct o; [reflexivity|discriminate]. Qed.
Lemma reweight_end q w v : new_weight q (end_asked q w) w v <-> v = reweight q w None.
Proof.
  unfold new_weight, end_asked, reweight. destruct (out_of_bounds q w) eqn:Eb.
  - assert (N : ~ within q w) by (rewrite <- bounds_iff; congruence). split; [intros [_ H]; apply H; tauto|intros ->; split; [tauto|reflexivity]].
  - apply bounds_iff in Eb. destruct (q_arcs_only q) eqn:Ea.
    + split; [intros [_ H]; apply H; intros [_ K]; discriminate K|intros ->; split; [intros [_ K]; discriminate K|reflexivity]].
    + split; [intros [H _]; apply H; auto|intros ->; split; [reflexivity|tauto]].
Qed.
Lemma reweight_arc q a v : new_weight q (arc_asked q a) (wt a) v <-> v = reweight q (wt a) (Some (label a)).
Proof.
  assert (D : (arc_asked q a /\ reweight q (wt a) (Some (label a)) = (q_mult q * q_func q (wt a) + q_add q)%Z) \/ (~ arc_asked q a /\ reweight q (wt a) (Some (label a)) = wt a)).
  { unfold arc_asked, reweight, label. destruct (out_of_bounds q (wt a)) eqn:Eb; [right; split; [|reflexivity]; rewrite <- bounds_iff; intros (K & _); congruence|]. apply bounds_iff in Eb.
    destruct (q_ends_only q); [right; split; [intros (_ & K & _); discriminate K|reflexivity]|].
    destruct (differs (isy a) (q_symbol q)) eqn:D1, (differs (osy a) (q_symbol q)) eqn:D2.
    1: { rewrite (differs_given _ _ D1). right. split; [|reflexivity]. intros (_ & _ & K & _). destruct (q_symbol q) as [s|] eqn:Es; [|discriminate D1]. cbn [differs] in *. apply negb_true_iff in D1, D2.
         destruct (K s eq_refl) as [E|E]; rewrite E in *; rewrite (proj2 (bstr_eqb_eq s s) eq_refl) in *; discriminate. }
    all: rewrite ?andb_false_r; cbn [andb].
    all: assert (Hs : forall s, q_symbol q = Some s -> isy a = s \/ osy a = s) by (intros s E; first [left; exact (proj1 (differs_iff _ _) D1 s E)|right; exact (proj1 (differs_iff _ _) D2 s E)]).
    all: destruct (differs (isy a) (q_input q)) eqn:D3, (differs (osy a) (q_output q)) eqn:D4; rewrite ?andb_false_r, ?andb_true_r;
      try rewrite (differs_given _ _ D3); try rewrite (differs_given _ _ D4); cbn [andb];
      try (right; split; [|reflexivity]; intros (_ & _ & _ & K1 & K2); first [apply differs_iff in K1; congruence|apply differs_iff in K2; congruence]).
    all: left; split; [|reflexivity]; split; [exact Eb|]; split; [reflexivity|]; split; [exact Hs|]; split; [apply differs_iff, D3|apply differs_iff, D4]. }
  unfold new_weight. destruct D as [[D ->]|[D ->]]; split; intros H; [apply H, D|split; [auto|tauto]|apply H, D|split; [tauto|auto]].
Qed.
Lemma changed_reweighted q g s l v t : changed_path g (fun a => Some (reweight q (wt a) (Some (label a)))) s l v t <-> reweighted_path q g s l v t.
Proof.
  split.
  - induction 1 as [s|s a v l w t Ha E P IH]; [constructor|]. apply rp_cons; [exact Ha| |exact IH]. apply reweight_arc. congruence.
  - induction 1 as [s|s a v l w t Ha N P IH]; [constructor|]. apply cp_cons; [exact Ha| |exact IH]. apply reweight_arc in N. congruence.
Qed.

(** C138: hfst-reweight keeps the paths; the weight of each transition and of each final state is
    changed to BVAL * FNAME(w) + AVAL exactly if the conditions of the help text hold for it. *)
Theorem C138_reweight q g l w : structure_ok g ->
  accepts (do_reweight q g) l w <->
  exists t v fw fw', reweighted_path q g 0 l v t /\ mget Nat.compare t (fin g) = Some fw /\ new_weight q (end_asked q fw) fw fw' /\ w = (v + fw')%Z.
Proof.
  intros S. unfold do_reweight. rewrite (rebuild_accepts _ _ _ _ S). split.
  - intros (t & v & fw & P & F & _ & E). exists t, v, fw, (reweight q fw None). split; [apply changed_reweighted, P|]. split; [exact F|]. split; [apply reweight_end; reflexivity|exact E].
  - intros (t & v & fw & fw' & P & F & N & E). apply reweight_end in N. subst fw'. exists t, v, fw. split; [apply changed_reweighted, P|]. auto.
Qed.
Print Assumptions C138_reweight.

(** C138: adding a number with -a to all weights of a transducer without negative weights adds it
    once for each transition of a path and once for its end.  Partial: without negative weights
    (C138_negative_refuted). *)
Definition addition_of (v : Z) : request := Request v 1 (fun w => w) (q_lower defaults) (q_upper defaults) None None None false false.
Theorem C138_addition_partial v g l w : structure_ok g ->
  (forall s a, In a (nth s (sts g) []) -> (0 <= wt a)%Z) -> (forall s u, mget Nat.compare s (fin g) = Some u -> (0 <= u)%Z) ->
  accepts (do_reweight (addition_of v) g) l w <-> exists u, accepts g l u /\ w = (u + v * (Z.of_nat (length l) + 1))%Z.
Proof.
  intros S Na Nf. rewrite (C138_reweight _ _ _ _ S).
  assert (Wi : forall x, (0 <= x)%Z -> within (addition_of v) x) by (intros x H; split; [exact H|intros u E; discriminate E]).
  assert (A : forall s a, In a (nth s (sts g) []) -> arc_asked (addition_of v) a) by (intros s a H; split; [apply Wi, (Na s a H)|]; split; [reflexivity|]; split; [|split]; intros x E; discriminate E).
  assert (P : forall s l' u t, reweighted_path (addition_of v) g s l' u t <-> exists u', run g s l' u' t /\ u = (u' + v * Z.of_nat (length l'))%Z).
  { intros s l' u t. split.
    - induction 1 as [s|s a x l' u t Ha [N _] P (u' & R & E)]; [exists 0%Z; split; [constructor|cbn; lia]|]. exists (wt a + u')%Z. split; [constructor; assumption|]. rewrite (N (A s a Ha)), E.
      cbn [q_mult q_func q_add addition_of length]. lia.
    - intros (u' & R & ->). induction R as [s|s a l' u' t Ha R IH]; [cbn [length]; replace (0 + v * Z.of_nat 0)%Z with 0%Z by lia; constructor|].
      replace (wt a + u' + v * Z.of_nat (length ((isy a, osy a) :: l')))%Z with ((1 * wt a + v) + (u' + v * Z.of_nat (length l')))%Z by (cbn [length]; lia).
      apply rp_cons; [exact Ha| |exact IH]. split; [reflexivity|]. intros N. destruct N. exact (A s a Ha). }
  split.
  - intros (t & x & fw & fw' & Pt & F & [N _] & ->). apply P in Pt. destruct Pt as (u' & R & ->). exists (u' + fw)%Z. split; [exists t, u', fw; auto|].
    rewrite N by (split; [apply Wi, (Nf t fw F)|reflexivity]). cbn [q_mult q_func q_add addition_of]. lia.
  - intros (u & (t & u' & fw & R & F & ->) & ->). exists t, (u' + v * Z.of_nat (length l))%Z, fw, (1 * fw + v)%Z. split; [apply P; exists u'; auto|]. split; [exact F|]. split; [|lia].
    split; [reflexivity|]. intros N. destruct N. split; [apply Wi, (Nf t fw F)|reflexivity].
Qed.
Print Assumptions C138_addition_partial.

(** Examples. *)
Definition exw : graph := of_ops [OAddTransition 0 (Arc 2 xa xb 3); OAddTransition 2 (Arc 1 xb xb 5); OSetFinal 1 7].
Definition exneg : graph := of_ops [OAddTransition 0 (Arc 1 xa xa (-1)); OSetFinal 1 0].
Lemma accepts_exw : accepts exw [(xa, xb); (xb, xb)] 15.
Proof.
  exists 1, 8%Z, 7%Z. split; [|split; reflexivity]. change 8%Z with (3 + (5 + 0))%Z. apply (run_cons _ 0 (Arc 2 xa xb 3)); [left; reflexivity|]. apply (run_cons _ 2 (Arc 1 xb xb 5)); [left; reflexivity|constructor].
Qed.
Definition halve_b : request := Request 1 2 (fun w => w) 0 (Some 4%Z) (Some xb) (Some xa) None false true.
Example C138_witness : accepts (do_reweight halve_b exw) [(xa, xb); (xb, xb)] 19 /\ accepts (do_reweight (addition_of 10) exw) [(xa, xb); (xb, xb)] 45.
Proof.
  split.
  - apply C138_reweight; [apply structure_of|]. exists 1, 12%Z, 7%Z, 7%Z. split; [|split; [reflexivity|split; [|reflexivity]]].
    + change 12%Z with (7 + (5 + 0))%Z. apply (rp_cons _ _ 0 (Arc 2 xa xb 3)); [left; reflexivity| |].
      * split; [reflexivity|]. intros N. destruct N. split; [split; [discriminate|intros u E; injection E as <-; discriminate]|]. split; [reflexivity|].
        split; [intros s E; injection E as <-; right; reflexivity|]. split; [intros s E; injection E as <-; reflexivity|intros s E; discriminate E].
      * apply (rp_cons _ _ 2 (Arc 1 xb xb 5)); [left; reflexivity| |constructor]. split; [|reflexivity]. intros (_ & _ & _ & K & _). specialize (K xa eq_refl). discriminate K.
    + split; [intros [_ K]; discriminate K|reflexivity].
  - apply C138_addition_partial; [apply structure_of| | |exists 15%Z; split; [exact accepts_exw|reflexivity]].
    + intros s a H. destruct s as [|[|[|s]]]; cbn in H; try (destruct H as [<-|[]]; discriminate); try contradiction. destruct s; destruct H.
    + intros s u H. destruct s as [|[|s]]; cbn in H; [discriminate H| |discriminate H]. injection H as <-. discriminate.
Qed.
(** C138: the bounds are not the whole range of weights if no bounds are given, as the help text
    says: negative weights are left alone. *)
Theorem C138_negative_refuted : ~ forall v g l u, structure_ok g -> accepts g l u -> accepts (do_reweight (addition_of v) g) l (u + v * (Z.of_nat (length l) + 1)).
Proof.
  intros H. assert (A : accepts exneg [(xa, xa)] (-1)).
  { exists 1, (-1)%Z, 0%Z. split; [|split; reflexivity]. change (-1)%Z with (-1 + 0)%Z. apply (run_cons _ 0 (Arc 1 xa xa (-1))); [left; reflexivity|constructor]. }
  specialize (H 1%Z exneg _ _ (structure_of _) A). apply C138_reweight in H; [|apply structure_of]. destruct H as (t & v & fw & fw' & P & F & [N1 N2] & E). cbn [length] in E.
  inversion P as [|s a x l w t' Ha N P' Es El Ew Et]; subst. cbn in Ha. destruct Ha as [<-|[]]. cbn [tgt wt] in *. inversion P'; subst. cbn in F. injection F as <-.
  destruct N as [_ N]. rewrite N in E by (intros ((K & _) & _); cbn in K; lia). rewrite N1 in E by (split; [split; [cbn; lia|intros u Q; discriminate Q]|reflexivity]). cbn in E. lia.
Qed.
Print Assumptions C138_negative_refuted.

(** * A file of rules *)
Lemma up_to_first c a b : ~ In c a -> up_to c (a ++ c :: b) = Some (a, b).
Proof.
  intros N. induction a as [|x a IH]; cbn [app up_to]; [rewrite Ascii.eqb_refl; reflexivity|]. destruct (Ascii.eqb_spec x c) as [->|_]; [destruct N; left; reflexivity|].
  rewrite IH by (intros K; apply N; right; exact K). reflexivity.
Qed.
Lemma up_to_none c a : ~ In c a -> up_to c a = None.
Proof.
  intros N. induction a as [|x a IH]; cbn [up_to]; [reflexivity|]. destruct (Ascii.eqb_spec x c) as [->|_]; [destruct N; left; reflexivity|]. rewrite IH by (intros K; apply N; right; exact K). reflexivity.
Qed.
Lemma before_newline_end n e : ~ In NL n -> e = [] \/ e = [NL] -> before_newline (n ++ e) = n.
Proof. intros N [->| ->]; unfold before_newline; [rewrite app_nil_r, up_to_none by exact N; reflexivity|rewrite up_to_first by exact N; reflexivity]. Qed.
Definition with_rule (q : request) (r : rule) : request :=
  match r with
  | AddTo s v => Request v (q_mult q) (q_func q) (q_lower q) (q_upper q) (Some s) (q_input q) (q_output q) (q_ends_only q) (q_arcs_only q)
  | MultiplyBy s v => Request (q_add q) v (q_func q) (q_lower q) (q_upper q) (Some s) (q_input q) (q_output q) (q_ends_only q) (q_arcs_only q)
  end.
Lemma line_read num q r l : written num r l -> with_line num q l = Ok (Some (with_rule q r)).
Proof.
  intros W. destruct W as [s n v e (N1 & N2 & N3 & N4) Nn V E|s n v e (N1 & N2 & N3 & N4) Nn Np V E]; destruct s as [|c s]; try congruence; unfold with_line; cbn [app].
  - destruct (Ascii.eqb_spec c NL) as [->|_]; [destruct N3; left; reflexivity|]. destruct (Ascii.eqb_spec c "#") as [->|_]; [destruct (N4 s eq_refl)|].
    assert (Q : up_to TAB (c :: s ++ TAB :: "+"%char :: n ++ e) = Some (c :: s, "+"%char :: n ++ e)) by exact (up_to_first TAB (c :: s) ("+"%char :: n ++ e) N2).
    change (match up_to TAB (c :: s ++ TAB :: "+"%char :: n ++ e) with None => Throw | Some (s0, rest) => match before_newline rest with
      | "+"%char :: n0 => match num n0 with Some v0 => Ok (Some (Request v0 (q_mult q) (q_func q) (q_lower q) (q_upper q) (Some s0) (q_input q) (q_output q) (q_ends_only q) (q_arcs_only q))) | None => Throw end
      | n0 => match num n0 with Some v0 => Ok (Some (Request (q_add q) v0 (q_func q) (q_lower q) (q_upper q) (Some s0) (q_input q) (q_output q) (q_ends_only q) (q_arcs_only q))) | None => Throw end end end
      = Ok (Some (with_rule q (AddTo (c :: s) v)))).
    rewrite Q. assert (Q2 : before_newline ("+"%char :: n ++ e) = "+"%char :: n) by (apply (before_newline_end ("+"%char :: n) e); [intros [K|K]; [discriminate K|exact (Nn K)]|exact E]).
    rewrite Q2, V. reflexivity.
  - destruct (Ascii.eqb_spec c NL) as [->|_]; [destruct N3; left; reflexivity|]. destruct (Ascii.eqb_spec c "#") as [->|_]; [destruct (N4 s eq_refl)|].
    assert (Q : up_to TAB (c :: s ++ TAB :: n ++ e) = Some (c :: s, n ++ e)) by exact (up_to_first TAB (c :: s) (n ++ e) N2).
    change (match up_to TAB (c :: s ++ TAB :: n ++ e) with None => Throw | Some (s0, rest) => match before_newline rest with
      | "+"%char :: n0 => match num n0 with Some v0 => Ok (Some (Request v0 (q_mult q) (q_func q) (q_lower q) (q_upper q) (Some s0) (q_input q) (q_output q) (q_ends_only q) (q_arcs_only q))) | None => Throw end
      | n0 => match num n0 with Some v0 => Ok (Some (Request (q_add q) v0 (q_func q) (q_lower q) (q_upper q) (Some s0) (q_input q) (q_output q) (q_ends_only q) (q_arcs_only q))) | None => Throw end end end
      = Ok (Some (with_rule q (MultiplyBy (c :: s) v)))).
    rewrite Q. rewrite (before_newline_end n e Nn E). destruct n as [|d n]; [rewrite V; reflexivity|].
    destruct (Ascii.eqb_spec d "+") as [->|Nd]; [destruct (Np n eq_refl)|]. destruct d as [[] [] [] [] [] [] [] []]; try (rewrite V; reflexivity); congruence.
Qed.
Definition comment_line (l : bstr) : Prop := exists r, l = "#"%char :: r \/ l = "010"%char :: r.
(** A file of rules, with empty lines and lines with # as comments. *)
Inductive script (num : bstr -> option Z) : list rule -> list bstr -> Prop :=
| script_nil : script num [] []
| script_rule r l rs ls : written num r l -> script num rs ls -> script num (r :: rs) (l :: ls)
| script_comment l rs ls : comment_line l -> script num rs ls -> script num rs (l :: ls).
Lemma comment_read num q l : comment_line l -> with_line num q l = Ok None.
Proof. intros (r & [->| ->]); reflexivity. Qed.
Definition adds (r : rule) : Prop := match r with AddTo _ _ => True | _ => False end.
Definition multiplies (r : rule) : Prop := match r with MultiplyBy _ _ => True | _ => False end.

(** C139: a file of rules does the same as running the tool once for each line with the options
    -S and -a or -b.  Partial: the lines all add or all multiply (C139_mixed_refuted). *)
Theorem C139_file_partial num q rules lines g : script num rules lines -> Forall adds rules \/ Forall multiplies rules ->
  reweight_file num q lines g = Ok (fold_left (fun h r => do_reweight (request_of q r) h) rules g).
Proof.
  intros W K. unfold reweight_file.
  assert (Q : forall q', (Forall adds rules /\ q_mult q' = 1%Z \/ Forall multiplies rules /\ q_add q' = 0%Z) ->
     q_func q' = q_func q -> q_lower q' = q_lower q -> q_upper q' = q_upper q -> q_input q' = q_input q -> q_output q' = q_output q -> q_ends_only q' = q_ends_only q -> q_arcs_only q' = q_arcs_only q ->
     reweight_lines num q' lines g = Ok (fold_left (fun h r => do_reweight (request_of q r) h) rules g)).
  { clear K. revert g. induction W as [|r l rules lines W F IH|l rules lines C F IH]; intros g q' K E1 E2 E3 E4 E5 E6 E7; [reflexivity| |cbn [reweight_lines]; rewrite (comment_read num q' l C); cbn [rbind]; apply IH; assumption]. cbn [reweight_lines fold_left]. rewrite (line_read num q' r l W). cbn [rbind].
    assert (Er : with_rule q' r = request_of q r).
    { destruct K as [[K M]|[K M]]; inversion K as [|? ? Kr K']; subst; destruct r; try destruct Kr; unfold with_rule, request_of; rewrite M, E1, E2, E3, E4, E5, E6, E7; reflexivity. }
    rewrite Er. apply IH; try (destruct r; reflexivity). destruct K as [[K M]|[K M]]; inversion K as [|? ? Kr K']; subst; destruct r; try destruct Kr; [left|right]; auto. }
  apply Q; try reflexivity. destruct K; [left|right]; auto.
Qed.
Print Assumptions C139_file_partial.

Definition read_digit (n : bstr) : option Z := if bstr_eqb n (B "1") then Some 1%Z else if bstr_eqb n (B "2") then Some 2%Z else None.
Definition tab : bstr := ["009"%char]. Definition newline : bstr := ["010"%char].
Lemma name_a : nameable xa. Proof. split; [discriminate|]. split; [intros [K|[]]; discriminate K|]. split; [intros [K|[]]; discriminate K|intros r K; discriminate K]. Qed.
Lemma name_b : nameable xb. Proof. split; [discriminate|]. split; [intros [K|[]]; discriminate K|]. split; [intros [K|[]]; discriminate K|intros r K; discriminate K]. Qed.
Lemma line_a : written read_digit (AddTo xa 1) (xa ++ tab ++ B "+1" ++ newline).
Proof. apply (wr_add read_digit xa (B "1") 1 newline); [exact name_a|intros [K|[]]; discriminate K|reflexivity|right; reflexivity]. Qed.
Lemma line_b : written read_digit (MultiplyBy xb 2) (xb ++ tab ++ B "2").
Proof. apply (wr_mul read_digit xb (B "2") 2 []); [exact name_b|intros [K|[]]; discriminate K|intros r K; discriminate K|reflexivity|left; reflexivity]. Qed.
Example C139_witness : reweight_file read_digit defaults [B "# rules"; xa ++ tab ++ B "+1" ++ newline; xa ++ tab ++ B "+1" ++ newline] exw =
  Ok (do_reweight (request_of defaults (AddTo xa 1)) (do_reweight (request_of defaults (AddTo xa 1)) exw)).
Proof.
  rewrite (C139_file_partial read_digit defaults [AddTo xa 1; AddTo xa 1]); [reflexivity| |left; constructor; [exact I|constructor; [exact I|constructor]]].
  apply script_comment; [eexists; left; reflexivity|]. apply script_rule; [exact line_a|]. apply script_rule; [exact line_a|apply script_nil].
Qed.
(** C139: what a line adds stays in force for the later lines that multiply. *)
Definition exb : graph := of_ops [OAddTransition 0 (Arc 1 xb xb 3); OSetFinal 1 0].
Definition arcs_only : request := Request 0 1 (fun w => w) 0 None None None None false true.
Theorem C139_mixed_refuted : exists num q rules lines g h, structure_ok g /\ script num rules lines /\ reweight_file num q lines g = Ok h /\
  exists l w, accepts (fold_left (fun h r => do_reweight (request_of q r) h) rules g) l w /\ ~ accepts h l w.
Proof.
  exists read_digit, arcs_only, [AddTo xa 1; MultiplyBy xb 2], [xa ++ tab ++ B "+1" ++ newline; xb ++ tab ++ B "2"], exb.
  exists (do_reweight (Request 1 2 (fun w => w) 0 None (Some xb) None None false true) (do_reweight (Request 1 1 (fun w => w) 0 None (Some xa) None None false true) exb)).
  split; [apply structure_of|]. split; [apply script_rule; [exact line_a|apply script_rule; [exact line_b|apply script_nil]]|]. split; [vm_compute; reflexivity|]. exists [(xb, xb)], 6%Z. split.
  - exists 1, 6%Z, 0%Z. split; [|split; vm_compute; reflexivity]. change 6%Z with (6 + 0)%Z. apply (run_cons _ 0 (Arc 1 xb xb 6)); [vm_compute; left; reflexivity|constructor].
  - intros H. match type of H with accepts ?h _ _ => remember h as h0 eqn:Eh end. vm_compute in Eh. destruct H as (t & v & f & R & F & E). inversion R as [|s a l w t' Ha R' Es El Ew Et]. subst s t' v. rewrite Eh in Ha, F. clear R El. cbn in Ha. destruct Ha as [Ha|[]].
    rewrite <- Ha in *. cbn [tgt wt] in *. inversion R'; subst. cbn in F. injection F as <-. lia.
Qed.
Print Assumptions C139_mixed_refuted.

(** * hfst-kill-paths *)
Definition free_of (x : bstr) (l : list (bstr * bstr)) : Prop := forall p, In p l -> fst p <> x /\ snd p <> x.
(** C140: killing a symbol keeps just the paths without it, with their weights. *)
Theorem C140_killing x g l w : structure_ok g -> accepts (do_killing x g) l w <-> accepts g l w /\ free_of x l.
Proof.
  intros S. unfold do_killing. rewrite (rebuild_accepts _ _ _ _ S). set (f := fun a => if bstr_eqb (isy a) x || bstr_eqb (osy a) x then None else Some (wt a)).
  assert (Fa : forall a v, f a = Some v <-> v = wt a /\ isy a <> x /\ osy a <> x).
  { intros a v. unfold f. destruct (bstr_eqb (isy a) x) eqn:E1; cbn [orb]; [apply bstr_eqb_eq in E1; split; [discriminate|intros (_ & K & _); congruence]|].
    destruct (bstr_eqb (osy a) x) eqn:E2; [apply bstr_eqb_eq in E2; split; [discriminate|intros (_ & _ & K); congruence]|].
    assert (N1 : isy a <> x) by (intros K; apply bstr_eqb_eq in K; congruence). assert (N2 : osy a <> x) by (intros K; apply bstr_eqb_eq in K; congruence).
    split; [intros E; injection E as <-; auto|intros (-> & _); reflexivity]. }
  assert (P : forall s l v t, changed_path g f s l v t <-> run g s l v t /\ free_of x l).
  { clear l w. intros s l v t. split.
    - induction 1 as [s|s a v l w t Ha E P (R & N)]; [split; [constructor|intros p []]|]. apply Fa in E. destruct E as (-> & N1 & N2). split; [constructor; assumption|].
      intros p [<-|Hp]; [split; [exact N1|exact N2]|apply N, Hp].
    - intros (R & N). revert N. induction R as [s|s a l w t Ha R IH]; intros N; [constructor|]. apply cp_cons; [exact Ha| |apply IH; intros p Hp; apply N; right; exact Hp].
      apply Fa. destruct (N _ (or_introl eq_refl)). auto. }
  split.
  - intros (t & v & fw & C & F & _ & ->). apply P in C. destruct C as [R N]. split; [exists t, v, fw; auto|exact N].
  - intros ((t & v & fw & R & F & ->) & N). exists t, v, fw. split; [apply P; auto|]. auto.
Qed.
Print Assumptions C140_killing.

(** C140: a file with a symbol on each line kills all of them; empty lines and lines with # are
    comments. *)
Definition name_line (x l : bstr) : Prop := x <> [] /\ ~ In "010"%char x /\ (forall r, x <> "#"%char :: r) /\ (l = x \/ l = x ++ ["010"%char]).
Inductive names : list bstr -> list bstr -> Prop :=
| names_nil : names [] []
| names_name x l xs ls : name_line x l -> names xs ls -> names (x :: xs) (l :: ls)
| names_comment l xs ls : comment_line l -> names xs ls -> names xs (l :: ls).
Theorem C140_file xs lines g l w : structure_ok g -> names xs lines ->
  accepts (kill_lines lines g) l w <-> accepts g l w /\ forall x, In x xs -> free_of x l.
Proof.
  intros S N. revert g S. induction N as [|x ln xs ls (N1 & N2 & N3 & N4) N IH|ln xs ls (r & C) N IH]; intros g S; cbn [kill_lines].
  - split; [intros A; split; [exact A|intros x []]|tauto].
  - assert (T : match ln with [] => false | c :: _ => Ascii.eqb c NL || Ascii.eqb c "#" end = false).
    { destruct x as [|c x]; [congruence|]. assert (Q : exists r, ln = c :: r) by (destruct N4 as [->| ->]; [exists x|exists (x ++ ["010"%char])]; reflexivity). destruct Q as (r & ->).
      destruct (Ascii.eqb_spec c NL) as [->|_]; [destruct N2; left; reflexivity|]. destruct (Ascii.eqb_spec c "#") as [->|_]; [destruct (N3 x eq_refl)|reflexivity]. }
    rewrite T. assert (Ln : before_newline ln = x).
    { destruct N4 as [->| ->]; [rewrite <- (app_nil_r x) at 1|]; apply before_newline_end; auto. }
    rewrite Ln, IH by (apply rebuild_structure). rewrite (C140_killing x g l w S). split.
    + intros ((A & F) & K). split; [exact A|]. intros y [<-|Hy]; [exact F|apply K, Hy].
    + intros (A & K). split; [split; [exact A|apply K; left; reflexivity]|intros y Hy; apply K; right; exact Hy].
  - assert (T : match ln with [] => false | c :: _ => Ascii.eqb c NL || Ascii.eqb c "#" end = true) by (destruct C as [->| ->]; reflexivity). rewrite T. apply IH, S.
Qed.
Print Assumptions C140_file.

Definition exk : graph := of_ops [OAddTransition 0 (Arc 1 xa xa 1); OAddTransition 0 (Arc 1 xb xc 2); OSetFinal 1 0].
Definition exki : graph := of_ops [OAddTransition 0 (Arc 1 xa xa 1); OAddTransition 0 (Arc 1 IDN IDN 2); OSetFinal 1 0].
Example C140_witness : accepts (do_killing xa exk) [(xb, xc)] 2 /\ ~ accepts (do_killing xa exk) [(xa, xa)] 1 /\
  names [xa; xb] [B "# symbols"; xa ++ newline; xb] /\ ~ accepts (kill_lines [B "# symbols"; xa ++ newline; xb] exk) [(xb, xc)] 2.
Proof.
  assert (A : accepts exk [(xb, xc)] 2).
  { exists 1, 2%Z, 0%Z. split; [|split; reflexivity]. change 2%Z with (2 + 0)%Z. apply (run_cons _ 0 (Arc 1 xb xc 2)); [right; left; reflexivity|constructor]. }
  assert (Nm : names [xa; xb] [B "# symbols"; xa ++ newline; xb]).
  { apply names_comment; [eexists; left; reflexivity|]. apply names_name; [|apply names_name; [|apply names_nil]]; (split; [discriminate|split; [intros [K|[]]; discriminate K|split; [intros r K; discriminate K|]]]); auto. }
  split; [|split; [|split; [exact Nm|]]].
  - apply C140_killing; [apply structure_of|]. split; [exact A|]. intros p [<-|[]]. split; discriminate.
  - intros H. apply C140_killing in H; [|apply structure_of]. destruct H as [_ F]. destruct (F _ (or_introl eq_refl)) as [K _]. apply K; reflexivity.
  - intros H. apply (C140_file [xa; xb]) in H; [|apply structure_of|exact Nm]. destruct H as [_ F]. destruct (F xb ltac:(right; left; reflexivity) _ (or_introl eq_refl)) as [K _]. apply K; reflexivity.
Qed.
(** C140: words with the killed symbol may stay, as the symbol leaves the alphabet and identity
    and unknown stand for it. *)
Theorem C140_word_refuted : ~ forall x g u z w, well_formed g -> related (do_killing x g) u z w -> ~ In x u.
Proof.
  intros H. apply (H xb (of_ops [OAddTransition 0 (Arc 1 xb xb 1); OAddTransition 0 (Arc 1 IDN IDN 2); OSetFinal 1 0]) [xb] [xb] 2%Z); [|exists [(xb, xb)]; split; [|split; reflexivity]|left; reflexivity].
  - split; [apply structure_of|split; [apply sym_check_sound; vm_compute; reflexivity|apply check_ok; vm_compute; reflexivity]].
  - exists [(IDN, IDN)]. split.
    + apply C140_killing; [apply structure_of|]. split; [|intros p [<-|[]]; split; discriminate]. exists 1, 2%Z, 0%Z. split; [|split; reflexivity]. change 2%Z with (2 + 0)%Z.
      apply (run_cons _ 0 (Arc 1 IDN IDN 2)); [right; left; reflexivity|constructor].
    + constructor; [|constructor]. apply means_identity, outside_b. vm_compute. intuition discriminate.
Qed.
Print Assumptions C140_word_refuted.

(** * hfst-preprocess-for-optimized-lookup-format *)
(** C141: the copy accepts the same paths.  Partial: the initial state is not final
    (C141_initial_refuted). *)
Theorem C141_preprocess_partial g l w : structure_ok g -> mget Nat.compare 0 (fin g) = None -> accepts (preprocess g) l w <-> accepts g l w.
Proof.
  intros S N. unfold preprocess. rewrite (rebuild_accepts _ _ _ _ S).
  assert (P : forall s l v t, changed_path g (fun a => Some (wt a)) s l v t <-> run g s l v t).
  { clear l w. intros s l v t. split; [induction 1 as [s|s a v l w t Ha E P IH]|induction 1 as [s|s a l w t Ha R IH]]; try constructor; try assumption.
    - injection E as <-. constructor; assumption.
    - reflexivity. }
  split.
  - intros (t & v & fw & C & F & _ & ->). exists t, v, fw. split; [apply P, C|auto].
  - intros (t & v & fw & R & F & ->). exists t, v, fw. split; [apply P, R|]. split; [exact F|]. split; [right; intros ->; congruence|reflexivity].
Qed.
Print Assumptions C141_preprocess_partial.
Example C141_witness : accepts (preprocess exw) [(xa, xb); (xb, xb)] 15.
Proof. apply C141_preprocess_partial; [apply structure_of|reflexivity|exact accepts_exw]. Qed.
(** C141: the finality of the initial state is lost. *)
Theorem C141_initial_refuted : exists g l w, well_formed g /\ accepts g l w /\ forall w', ~ accepts (preprocess g) l w'.
Proof.
  exists (of_ops [OAddTransition 0 (Arc 0 xa xa 1); OSetFinal 0 0]), [(xa, xa)], 1%Z. split; [split; [apply structure_of|split; [apply sym_check_sound; vm_compute; reflexivity|apply check_ok; vm_compute; reflexivity]]|]. split.
  - exists 0, 1%Z, 0%Z. split; [|split; reflexivity]. change 1%Z with (1 + 0)%Z. apply (run_cons _ 0 (Arc 0 xa xa 1)); [left; reflexivity|constructor].
  - intros w' H. unfold preprocess in H. apply rebuild_accepts in H; [|apply structure_of]. destruct H as (t & v & fw & _ & F & [K|K] & _); [discriminate K|]. destruct t; [congruence|]. discriminate F.
Qed.
Print Assumptions C141_initial_refuted.
