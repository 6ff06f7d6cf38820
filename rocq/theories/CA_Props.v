(** hfst-check-alpha and hfst-dump-alphabets: properties C163 and C164. *)
From Verif Require Import Base BT_Model SU_Spec CA_Spec CA_Model CA_Proofs.
From Coq Require Import Sorted.

(** C163: hfst-check-alpha lists the symbols that only one of two transducers has, if there are
    any.  Missing: the sentence printed if there are none, see below. *)
Definition listed (s : sentence) (P Q : bstr -> Prop) : Prop :=
  match s with only_in l => l <> [] /\ lists_difference l P Q | is_superset => forall x, P x -> Q x end.
Lemma sentence_listed d P Q : lists_difference d P Q -> (forall x, Q x \/ ~ Q x) -> listed (sentence_for d) P Q.
Proof.
  intros L D. pose proof (no_mismatch d P Q L D) as M. destruct d as [|y d]; cbn in *; [apply M; reflexivity|]. split; [discriminate|exact L].
Qed.
Lemma four g h : in_byte_order (alpha g) -> in_byte_order (alpha h) ->
  lists_difference (set_difference (symbols_used g) (symbols_used h)) (occurs g) (occurs h) /\
  lists_difference (set_difference (symbols_used h) (symbols_used g)) (occurs h) (occurs g) /\
  lists_difference (set_difference (alpha g) (alpha h)) (in_alphabet g) (in_alphabet h) /\
  lists_difference (set_difference (alpha h) (alpha g)) (in_alphabet h) (in_alphabet g).
Proof.
  intros S1 S2. split; [|split; [|split]]; apply difference_lists; try assumption; try apply symbols_used_sorted; try apply symbols_used_occurs; intros x; reflexivity.
Qed.
Lemma occurs_dec g x : occurs g x \/ ~ occurs g x.
Proof. rewrite <- symbols_used_occurs. apply in_dec_bstr. Qed.
Theorem C163_listed_partial xs ys i g h r :
  nth_error xs i = Some g -> nth_error ys i = Some h -> in_byte_order (alpha g) -> in_byte_order (alpha h) ->
  nth_error (fst (check_alpha xs ys)) i = Some r ->
  listed (first_found r) (occurs g) (occurs h) /\ listed (second_found r) (occurs h) (occurs g) /\
  listed (first_sigma r) (in_alphabet g) (in_alphabet h) /\ listed (second_sigma r) (in_alphabet h) (in_alphabet g).
Proof.
  unfold check_alpha. generalize false. revert ys i. induction xs as [|g' xs IH]; intros ys i m X Y S1 S2 R; [destruct i; discriminate|].
  destruct ys as [|h' ys]; [destruct i; discriminate|]. cbn [check_archives] in R. destruct (check_pair g' h') as [r' m'] eqn:E.
  destruct (check_archives xs ys (if m' then true else m)) as [rs e] eqn:E'. cbn [fst] in R. destruct i as [|i]; cbn [nth_error] in X, Y, R.
  - injection X as ->. injection Y as ->. injection R as ->. unfold check_pair in E. injection E as <- _.
    destruct (four g h S1 S2) as (L1 & L2 & L3 & L4). cbn [first_found second_found first_sigma second_sigma].
    repeat split; apply sentence_listed; try assumption; intros x; try apply occurs_dec; apply in_dec_bstr.
  - apply (IH ys i (if m' then true else m)); try assumption. rewrite E'. exact R.
Qed.
Print Assumptions C163_listed_partial.
(** There is a report for every two transducers that are at the same place. *)
Theorem C163_all xs ys : length (fst (check_alpha xs ys)) = Nat.min (length xs) (length ys).
Proof.
  unfold check_alpha. generalize false. revert ys. induction xs as [|g xs IH]; intros ys m; [reflexivity|]. destruct ys as [|h ys]; [reflexivity|].
  cbn [check_archives]. destruct (check_pair g h) as [r m']. specialize (IH ys (if m' then true else m)). destruct (check_archives xs ys (if m' then true else m)) as [rs e].
  cbn [fst length Nat.min] in *. rewrite IH. reflexivity.
Qed.
Print Assumptions C163_all.
(** The exit code tells whether any two of them have different symbols. *)
Lemma pair_mismatch g h : in_byte_order (alpha g) -> in_byte_order (alpha h) -> snd (check_pair g h) = false <-> same_symbols g h.
Proof.
  intros S1 S2. destruct (four g h S1 S2) as (L1 & L2 & L3 & L4). unfold check_pair. cbn [snd]. rewrite !orb_false_iff.
  rewrite (no_mismatch _ _ _ L1 (occurs_dec h)), (no_mismatch _ _ _ L2 (occurs_dec g)), (no_mismatch _ _ _ L3), (no_mismatch _ _ _ L4) by (intros x; apply in_dec_bstr).
  unfold same_symbols. split.
  - intros [[[H1 H2] H3] H4]. split; intros x; split; auto.
  - intros [H K]. repeat split; intros x; try apply H; apply K.
Qed.
Theorem C163_exit xs ys : Forall (fun g => in_byte_order (alpha g)) xs -> Forall (fun g => in_byte_order (alpha g)) ys ->
  snd (check_alpha xs ys) = false <-> forall g h, In (g, h) (combine xs ys) -> same_symbols g h.
Proof.
  intros FX FY. unfold check_alpha.
  assert (G : forall xs ys m, Forall (fun g => in_byte_order (alpha g)) xs -> Forall (fun g => in_byte_order (alpha g)) ys ->
    snd (check_archives xs ys m) = false <-> m = false /\ forall g h, In (g, h) (combine xs ys) -> same_symbols g h).
  { clear. induction xs as [|g xs IH]; intros ys m FX FY; [cbn; intuition|]. destruct ys as [|h ys]; [cbn; intuition|].
    inversion FX as [|? ? X1 X2]; inversion FY as [|? ? Y1 Y2]; subst. pose proof (pair_mismatch g h X1 Y1) as M. cbn [check_archives combine]. destruct (check_pair g h) as [r m'].
    cbn [snd] in M. specialize (IH ys (if m' then true else m) X2 Y2). destruct (check_archives xs ys (if m' then true else m)) as [rs e]. cbn [snd] in *. rewrite IH. split.
    - intros [H K]. destruct m'; [discriminate|]. split; [exact H|]. intros a b [Q|Q]; [injection Q as <- <-; apply M; reflexivity|apply K, Q].
    - intros [-> K]. assert (m' = false) as -> by (apply M, K; left; reflexivity). split; [reflexivity|]. intros a b Q. apply K. right. exact Q. }
  rewrite (G xs ys false FX FY). tauto.
Qed.
Print Assumptions C163_exit.

Definition ab : graph := Graph [[Arc 1 (B "a") (B "b") 0]; []] [(1, 0%Z)] [EPS; IDN; UNK; B "a"; B "b"].
Definition aa : graph := Graph [[Arc 1 (B "a") (B "a") 0]; []] [(1, 0%Z)] [EPS; IDN; UNK; B "a"].
Lemma ab_sorted : in_byte_order (alpha ab).
Proof. repeat constructor. Qed.
Lemma aa_sorted : in_byte_order (alpha aa).
Proof. repeat constructor. Qed.
Example C163_witness : check_alpha [aa; aa] [aa; ab] = ([Report is_superset is_superset is_superset is_superset; Report is_superset (only_in [B "b"]) is_superset (only_in [B "b"])], true).
Proof. reflexivity. Qed.
(** C163 is false of the sentence that the one is a superset of the other: it is printed of the
    first transducer just when its symbols are a subset, here a proper one. *)
Theorem C163_superset_refuted : exists g h r, in_byte_order (alpha g) /\ in_byte_order (alpha h) /\
  fst (check_alpha [g] [h]) = [r] /\ first_found r = is_superset /\ first_sigma r = is_superset /\
  (exists x, occurs h x /\ ~ occurs g x) /\ (exists x, in_alphabet h x /\ ~ in_alphabet g x).
Proof.
  exists aa, ab, (Report is_superset (only_in [B "b"]) is_superset (only_in [B "b"])).
  split; [exact aa_sorted|]. split; [exact ab_sorted|]. split; [reflexivity|]. split; [reflexivity|]. split; [reflexivity|].
  split; exists (B "b").
  - rewrite <- !symbols_used_occurs. split; [right; left; reflexivity|]. cbn. intros [H|[]]. discriminate H.
  - unfold in_alphabet. split; [do 4 right; left; reflexivity|]. cbn. intros [H|[H|[H|[H|[]]]]]; discriminate H.
Qed.
Print Assumptions C163_superset_refuted.

Lemma line_for_line f x : line_for f x = symbol_line f x.
Proof. unfold line_for, in_lines. destruct f; cbn [map concat symbol_line]; rewrite ?app_nil_r, <- ?app_assoc; reflexivity. Qed.
(** C164: hfst-dump-alphabets prints a line for each symbol of the alphabet and then a line for
    each symbol of the transitions, as asked for, in byte order; all of them with format tsv, those
    that look like tags with the others.  Partial: a symbol in both is printed twice, see below. *)
Theorem C164_dump_partial f meta seen gs : Forall (fun g => in_byte_order (alpha g)) gs ->
  exists parts, Forall2 (fun g p => in_byte_order (fst p) /\ in_byte_order (snd p) /\
      (forall x, In x (fst p) <-> meta = true /\ in_alphabet g x /\ (f = TSV \/ tag_like x)) /\
      (forall x, In x (snd p) <-> seen = true /\ occurs g x /\ (f = TSV \/ tag_like x))) gs parts /\
    dump_alphabets f meta seen gs =
      concat (map (fun p => text_before f ++ concat (map (line_for f) (fst p ++ snd p))) parts) ++ text_after f.
Proof.
  intros F. set (keep := filter (fun s => negb (only_multichars f && negb (is_multichar s)))).
  exists (map (fun g => (if meta then keep (alpha g) else [], if seen then keep (symbols_used g) else [])) gs). split.
  - induction F as [|g gs S F IH]; [constructor|]. cbn [map]. constructor; [|exact IH]. cbn [fst snd].
    split; [destruct meta; [apply sorted_filter, S|constructor]|]. split; [destruct seen; [apply sorted_filter, symbols_used_sorted|constructor]|]. split; intros x.
    + destruct meta; [|cbn; intuition discriminate]. unfold keep, in_alphabet. rewrite filter_In, shown. tauto.
    + destruct seen; [|cbn; intuition discriminate]. unfold keep. rewrite filter_In, shown, symbols_used_occurs. tauto.
  - unfold dump_alphabets. assert (Q : text_after f = match f with VISLCG3_TAGS => "009"%char :: B ";" ++ ["010"%char] | _ => [] end) by (destruct f; reflexivity).
    rewrite Q. f_equal. clear F Q. assert (Q : head_lines f = text_before f) by (destruct f; reflexivity).
    assert (Q' : forall l, map (line_for f) l = map (symbol_line f) l) by (intros l; apply map_ext; intros x; apply line_for_line). induction gs as [|g gs IH]; [reflexivity|]. cbn [flat_map map concat]. rewrite IH. f_equal.
    cbn [fst snd]. unfold dump_one. rewrite Q, Q'. f_equal. rewrite map_app, concat_app, <- !flat_map_concat_map.
    f_equal; [destruct meta|destruct seen]; try reflexivity; apply dump_filter.
Qed.
Print Assumptions C164_dump_partial.
(** The same symbol twice, in both alphabets. *)
Theorem C164_twice_refuted : exists g x, in_byte_order (alpha g) /\ tag_like x /\
  dump_alphabets VISLCG3_LIST true true [g] = text_before VISLCG3_LIST ++ line_for VISLCG3_LIST x ++ line_for VISLCG3_LIST x.
Proof.
  exists (Graph [[Arc 1 (B "+Noun") (B "+Noun") 0]; []] [(1, 0%Z)] [B "+Noun"]), (B "+Noun"). split; [repeat constructor|].
  split; [|reflexivity]. exists "+"%char, "N"%char, "o"%char, (B "un"). auto.
Qed.
Print Assumptions C164_twice_refuted.
Example C164_witness : dump_alphabets TSV false true [ab; aa] = B "a" ++ ["010"%char] ++ B "b" ++ ["010"%char] ++ B "a" ++ ["010"%char] /\
  dump_alphabets VISLCG3_TAGS true false [aa] = text_before VISLCG3_TAGS ++ concat (map (line_for VISLCG3_TAGS) [EPS; IDN; UNK]) ++ "009"%char :: B ";" ++ ["010"%char].
Proof. split; reflexivity. Qed.
