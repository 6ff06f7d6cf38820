(** Properties C06, C11-C13, C43-C47, C53-C57: string utilities. *)
From Verif Require Import Base Str_Model Str_Spec Str_Proofs Str_Proofs2 Tok_Spec.

(** C06: whatever symbols have been requested, the numbers handed out are the
    positions in one duplicate-free list T starting with epsilon, unknown, identity;
    get_symbol is lookup in T (throwing beyond its end); later requests only append
    to T, so no number ever changes. *)
Theorem C06_numbering : forall hist t ns, requests numbering_init hist = Ok (t, ns) ->
  exists T, NoDup T /\
    firstn 3 T = [B "@_EPSILON_SYMBOL_@"; B "@_UNKNOWN_SYMBOL_@"; B "@_IDENTITY_SYMBOL_@"] /\
    (forall s, In s T <-> In s (firstn 3 T) \/ In s hist) /\
    Forall2 (fun s n => nth_error T n = Some s) hist ns /\
    (forall n, get_symbol t n = match nth_error T n with Some s => Ok s | None => Throw end) /\
    (forall more t' ns', requests t more = Ok (t', ns') ->
       exists T', (forall n, get_symbol t' n = match nth_error (T ++ T') n with Some s => Ok s | None => Throw end) /\
                  Forall2 (fun s n => nth_error (T ++ T') n = Some s) more ns').
Proof.
  intros hist t ns H. destruct (requests_ok hist _ _ _ num_ok_init H) as (Hok & Hf & ext & He & Hi).
  exists (n2s t). split; [apply Hok|]. split; [rewrite He; reflexivity|]. split.
  - intros s. rewrite He. cbn [numbering_init n2s app firstn]. split.
    + intros K. apply (in_app_or [_; _; _] ext) in K. destruct K as [K|K]; [left; exact K|right; auto].
    + intros [K|K]; [apply (in_or_app [_; _; _] ext); left; exact K|].
      apply In_nth_error in K. destruct K as [k K].
      assert (In s (n2s t)) as Hin.
      { clear -Hf K. revert k K. induction Hf as [|s0 n l l' H0 Hf IH]; intros k K; [destruct k; discriminate|].
        destruct k as [|k]; [simpl in K; injection K as ->; eapply nth_error_In; exact H0|]. exact (IH k K). }
      rewrite He in Hin. exact Hin.
  - split; [exact Hf|]. split; [reflexivity|]. intros more t' ns' H'.
    destruct (requests_ok more _ _ _ Hok H') as (_ & Hf' & ext' & He' & _). exists ext'. rewrite <- He'.
    split; [reflexivity|exact Hf'].
Qed.
Print Assumptions C06_numbering.
(** ... and requests for non-empty symbols always succeed. *)
Theorem C06_numbering_total : forall hist, Forall (fun s => s <> []) hist ->
  exists t ns, requests numbering_init hist = Ok (t, ns).
Proof. intros hist H. apply requests_total. exact H. Qed.
Print Assumptions C06_numbering_total.
(** Harmonization vectors translate numbers of a symbol list to global numbers (0 for
    the empty entries) ... *)
Theorem C06_harmonization_vector : forall hist t ns ss t' v,
  requests numbering_init hist = Ok (t, ns) -> get_harmonization_vector t ss = Ok (t', v) ->
  Forall2 (fun s n => s = [] /\ n = 0 \/ s <> [] /\ get_symbol t' n = Ok s) ss v /\
  (forall n s, get_symbol t n = Ok s -> get_symbol t' n = Ok s).
Proof.
  intros hist t ns ss t' v H H'. destruct (requests_ok hist _ _ _ num_ok_init H) as (Hok & _).
  destruct (harmv_ok ss _ _ _ Hok H') as (_ & Hf & ext & He). split.
  - clear -Hf. induction Hf as [|s n l l' K _ IH]; constructor; [|exact IH].
    destruct K as [K|[K1 K2]]; [left; exact K|right]. split; [exact K1|].
    unfold get_symbol. rewrite K2. reflexivity.
  - intros n s. unfold get_symbol. rewrite He. destruct (nth_error (n2s t) n) eqn:E; [|discriminate].
    rewrite nth_error_app1; [rewrite E; auto|]. apply nth_error_Some. congruence.
Qed.
Print Assumptions C06_harmonization_vector.
(** ... and reverse ones global numbers to those of the given map (0 where it has none). *)
Theorem C06_reverse_harmonization_vector : forall hist t ns m n,
  requests numbering_init hist = Ok (t, ns) ->
  nth_error (get_reverse_harmonization_vector t m) n =
  match get_symbol t n with
  | Ok s => Some (match mget bcmp s m with Some k => k | None => 0 end)
  | _ => None
  end.
Proof.
  intros hist t ns m n H. destruct (requests_ok hist _ _ _ num_ok_init H) as ((_ & Hl & _) & _).
  unfold get_reverse_harmonization_vector, get_symbol. rewrite nth_error_map.
  destruct (Nat.lt_ge_cases n (S (max_number t))) as [L|L].
  - assert (E : nth_error (seq 0 (max_number t + 1)) n = Some n).
    { rewrite (nth_error_nth' _ 0) by (rewrite seq_length; lia). rewrite seq_nth by lia. reflexivity. }
    rewrite E. cbn [option_map]. destruct (nth_error (n2s t) n) eqn:K; [reflexivity|].
    apply nth_error_None in K. lia.
  - rewrite (proj2 (nth_error_None (seq _ _) n)) by (rewrite seq_length; lia).
    rewrite (proj2 (nth_error_None (n2s t) n)) by lia. reflexivity.
Qed.
Print Assumptions C06_reverse_harmonization_vector.
Example C06_witness : exists t,
  requests numbering_init [B "a"; B "@_UNKNOWN_SYMBOL_@"; B "b"; B "a"] = Ok (t, [3; 1; 4; 3]) /\
  get_symbol t 4 = Ok (B "b") /\ get_symbol t 5 = Throw.
Proof. eexists. split; [vm_compute; reflexivity|]. split; reflexivity. Qed.

(** C11 *)
Theorem C11_replace_all : forall h n r, n <> [] ->
  exists x, replace_all h n r = Ok x /\ replaced n r h x /\ (forall y, replaced n r h y -> y = x).
Proof.
  intros h n r Hn. destruct (replace_all_replaced h n r Hn) as (x & E & H). exists x. split; [exact E|]. split; [exact H|].
  intros y Hy. symmetry. eapply replaced_fun; eauto.
Qed.
Print Assumptions C11_replace_all.
Theorem C11_replace_all_absent : forall h n r, n <> [] -> ~ occurs n h -> replace_all h n r = Ok h.
Proof. intros h n r Hn H. apply replace_all_eq; [exact Hn|apply replaced_not_occurs; exact H]. Qed.
Print Assumptions C11_replace_all_absent.
Example C11_witness : replace_all (B "aaab") (B "aa") (B "aaa") = Ok (B "aaaab") /\
  replace_all (B "xyz") (B "aa") (B "b") = Ok (B "xyz").
Proof. vm_compute. tauto. Qed.

(** C12: the escaped symbol never contains a blank (so the columns of the AT&T line are
    not disturbed) ... *)
Theorem C12_att_escape_no_blank : forall s, exists e, att_escape s = Ok e /\ Forall (fun c => ~ blank c) e.
Proof. exact att_escape_total. Qed.
Print Assumptions C12_att_escape_no_blank.
(** ... and is read back as the same symbol for every reversible symbol. *)
Theorem C12_att_roundtrip_partial : forall s, att_reversible s -> exists e, att_escape s = Ok e /\ att_unescape e = Ok s.
Proof. exact att_roundtrip. Qed.
Print Assumptions C12_att_roundtrip_partial.
(** The claim "unless it contains an escape sequence" is false: this symbol contains
    none (not even an @), and comes back different. *)
Theorem C12_att_roundtrip_without_escapes_refuted : exists s e s',
  ~ In "@"%char s /\ att_escape s = Ok e /\ att_unescape e = Ok s' /\ s' <> s.
Proof.
  exists (B " _EPSILON_SYMBOL_ "). do 2 eexists. split; [vm_compute; intuition discriminate|].
  split; [vm_compute; reflexivity|]. split; [vm_compute; reflexivity|]. vm_compute. discriminate.
Qed.
Print Assumptions C12_att_roundtrip_without_escapes_refuted.
Example C12_witness : att_reversible (B "@P.FOO.BAR@") /\ att_reversible (B "new york") /\
  att_escape (B "new york") = Ok (B "new@_SPACE_@york") /\ att_unescape (B "new@_SPACE_@york") = Ok (B "new york").
Proof.
  split; [|split; [|vm_compute; tauto]].
  - right; left. split.
    + repeat (constructor; [unfold blank; intuition discriminate|]). constructor.
    + repeat split; apply occursb_false; vm_compute; reflexivity.
  - right; right. split; [vm_compute; intuition discriminate|]. intros a x y b E H. cbv in E.
    do 8 (destruct a as [|? a];
      [inversion E; subst; first [split; discriminate|destruct H; discriminate]|
       first [discriminate E|injection E as _ E]]). destruct a; discriminate.
Qed.

(** C13: symbols survive except "%0", "%?" (taken for the escaped forms of 0 and ?);
    identity alone is written as unknown. *)
Theorem C13_prolog_symbol_roundtrip_partial : forall s, s <> B "%0" -> s <> B "%?" -> s <> B "@_IDENTITY_SYMBOL_@" ->
  exists e, prologize_symbol s = Ok e /\ deprologize_symbol e = Ok s.
Proof.
  intros s H1 H2 H3. destruct (prologize_spec s) as (e & E & _ & D). exists e. split; [exact E|].
  rewrite (D (conj H1 H2)). apply bstr_eqb_neq in H3. rewrite H3. reflexivity.
Qed.
Print Assumptions C13_prolog_symbol_roundtrip_partial.
(** Symbol pairs of arcs, where a lone ? is identity. *)
Theorem C13_prolog_arc_roundtrip_partial : forall i o,
  (i <> B "%0" /\ i <> B "%?") -> (o <> B "%0" /\ o <> B "%?") ->
  (forall r, i <> r ++ B "\") -> (forall r, o <> r ++ B "\") ->
  (i = B "@_IDENTITY_SYMBOL_@" <-> o = B "@_IDENTITY_SYMBOL_@") ->
  exists e, print_prolog_arc_symbols i o = Ok e /\ get_prolog_arc_symbols e = Ok (Some (i, o)).
Proof. exact prolog_arc_roundtrip. Qed.
Print Assumptions C13_prolog_arc_roundtrip_partial.
Theorem C13_percent_zero_refuted : exists s e s',
  prologize_symbol s = Ok e /\ deprologize_symbol e = Ok s' /\ s' <> s.
Proof.
  exists (B "%0"). do 2 eexists. split; [vm_compute; reflexivity|]. split; [vm_compute; reflexivity|]. vm_compute; discriminate.
Qed.
Print Assumptions C13_percent_zero_refuted.
Theorem C13_trailing_backslash_refuted : exists s e,
  print_prolog_arc_symbols s s = Ok e /\ get_prolog_arc_symbols e = Ok None.
Proof. exists (B "a\"). eexists. split; vm_compute; reflexivity. Qed.
Print Assumptions C13_trailing_backslash_refuted.
Example C13_witness : exists e,
  print_prolog_arc_symbols (["a"; "034"; "b"; "\"; "c"]%char) (B "0") = Ok e /\
  get_prolog_arc_symbols e = Ok (Some (["a"; "034"; "b"; "\"; "c"]%char, B "0")).
Proof. eexists. split; vm_compute; reflexivity. Qed.

(** C43 *)
Theorem C43_strip_add_percents_partial : forall s, ~ In "@"%char s -> rbind (addPercents s) stripPercents = Ok s.
Proof. exact strip_add_percents. Qed.
Print Assumptions C43_strip_add_percents_partial.
Theorem C43_strip_add_percents_refuted : exists s, rbind (addPercents s) stripPercents <> Ok s.
Proof. exists (B "@PERCENT@"). vm_compute. discriminate. Qed.
Print Assumptions C43_strip_add_percents_refuted.
Example C43_witness : addPercents (B "50%<x>") = Ok (B "50%%%<x%>") /\ stripPercents (B "50%%%<x%>") = Ok (B "50%<x>").
Proof. vm_compute. tauto. Qed.

(** C44: no write outside the allocated bytes, and the result is the unescaping. *)
Theorem C44_strip_percents : forall z s, exists t, lexc_strip_percents z s = Ok t /\ lexc_unescaped z s t.
Proof. intros z s. destruct (strip_percents_spec z s) as (t & T & E). exists t. auto. Qed.
Print Assumptions C44_strip_percents.
Example C44_witness : lexc_strip_percents true (B "a0%0@x%0@") = Ok (Some (B "a@0@@ZERO@@x%0@")) /\
  lexc_strip_percents false (B "%0%0%") = Ok None /\ lexc_strip_percents false (B "%0%0") = Ok (Some (B "@ZERO@@ZERO@")).
Proof. vm_compute. tauto. Qed.

(** C45 *)
Theorem C45_strstrip_partial : forall s, no_nul s -> (s = [] \/ exists c, In c s /\ ~ white c) ->
  exists t, strstrip s = Ok t /\ trimmed s t.
Proof. exact strstrip_trims. Qed.
Print Assumptions C45_strstrip_partial.
(** A non-empty string of blanks makes it read the byte before its buffer. *)
Theorem C45_strstrip_blank_refuted : forall s, s <> [] -> Forall white s -> strstrip s = Ub.
Proof. exact strstrip_ub. Qed.
Print Assumptions C45_strstrip_blank_refuted.
Example C45_witness : strstrip (B "  a b ") = Ok (B "a b") /\ strstrip (B " ") = Ub.
Proof. vm_compute. tauto. Qed.

(** C46: [al] is an alignment of s1 and s2 of minimal cost; the two vectors are al with
    the gaps shown as the padding symbol; only equal symbols are paired. *)
Definition gap (o : option bstr) : bstr := match o with Some x => x | None => B "@@ANOTHER_EPSILON@@" end.
Theorem C46_alignment : forall s1 s2, exists al,
  find_med_alingment s1 s2 = Ok (map gap (map fst al), map gap (map snd al)) /\
  aligns s1 s2 al /\ (forall al', aligns s1 s2 al' -> cost al <= cost al') /\
  Forall (fun e => match e with (Some x, Some y) => x = y | _ => True end) al.
Proof.
  intros s1 s2. destruct (med_spec s1 s2) as (al & E & H). exists al. split; [|exact H].
  rewrite E. rewrite !map_map. reflexivity.
Qed.
Print Assumptions C46_alignment.
Theorem C46_alignment_faithful : forall s1 s2,
  ~ In (B "@@ANOTHER_EPSILON@@") s1 -> ~ In (B "@@ANOTHER_EPSILON@@") s2 ->
  exists u v, find_med_alingment s1 s2 = Ok (u, v) /\ length u = length v /\
    filter (fun x => negb (bstr_eqb x (B "@@ANOTHER_EPSILON@@"))) u = s1 /\
    filter (fun x => negb (bstr_eqb x (B "@@ANOTHER_EPSILON@@"))) v = s2.
Proof.
  intros s1 s2 H1 H2. destruct (C46_alignment s1 s2) as (al & E & (A1 & A2 & A3) & _).
  do 2 eexists. split; [exact E|]. split; [rewrite !map_length; reflexivity|].
  rewrite <- A2 in H1. rewrite <- A3 in H2.
  pose proof (keep_shown _ tt _ H1) as K1. pose proof (keep_shown _ tt _ H2) as K2.
  split; [etransitivity; [exact K1|exact A2]|etransitivity; [exact K2|exact A3]].
Qed.
Print Assumptions C46_alignment_faithful.
Example C46_witness : find_med_alingment [B "a"; B "b"; B "c"] [B "b"; B "d"] =
  Ok ([B "a"; B "b"; B "@@ANOTHER_EPSILON@@"; B "c"], [B "@@ANOTHER_EPSILON@@"; B "b"; B "d"; B "@@ANOTHER_EPSILON@@"]).
Proof. vm_compute. reflexivity. Qed.

(** C47 *)
Theorem C47_utf8_roundtrip : forall n, (n < 2097152)%N ->
  exists e, int2utf8 n = Some e /\ utf8_char e /\ forall rest, utf8toint (e ++ rest) = (n, rest).
Proof. exact int2utf8_spec. Qed.
Print Assumptions C47_utf8_roundtrip.
Theorem C47_large_rejected : forall n, (2097152 <= n)%N -> int2utf8 n = None.
Proof. exact int2utf8_large. Qed.
Print Assumptions C47_large_rejected.
Example C47_witness : int2utf8 8364%N = Some ["226"; "130"; "172"]%char /\ utf8toint ["226"; "130"; "172"; "x"]%char = (8364%N, B "x").
Proof. vm_compute. tauto. Qed.

(** C53: lexc name codes. *)
Theorem C53_name_codes : forall s, joinerDecode (joinerEncode s) = Ok s /\ regExpresionDecode (regExpresionEncode s) = Ok s.
Proof.
  intros s. split; apply decode_encode; simpl; lia.
Qed.
Print Assumptions C53_name_codes.
Theorem C53_name_codes_distinct : forall s t l,
  joinerEncode s <> regExpresionEncode t /\ joinerEncode s <> flagJoinerEncode t l /\
  regExpresionEncode s <> flagJoinerEncode t l /\ joinerEncode s <> xreDefinitionEncode t /\
  flagJoinerEncode s l <> xreDefinitionEncode t /\ flagJoinerEncode s true <> flagJoinerEncode t false /\
  (flagJoinerEncode s l = flagJoinerEncode t l -> s = t) /\ (xreDefinitionEncode s = xreDefinitionEncode t -> s = t).
Proof.
  intros s t l. repeat split; try (destruct l; discriminate); try discriminate.
  - intros E. destruct l; apply app_inv_head, app_inv_tail in E; exact E.
  - intros E. apply app_inv_head, app_inv_tail in E. exact E.
Qed.
Print Assumptions C53_name_codes_distinct.
Example C53_witness : joinerEncode (B "Noun") = B "$_LEXC_JOINER.Noun_$".
Proof. reflexivity. Qed.

(** C54: xre escapes. *)
Theorem C54_xre_percents_partial : forall s, ~ In "%"%char s -> xre_strip_percents (xre_add_percents s) = s.
Proof. exact xre_strip_add. Qed.
Print Assumptions C54_xre_percents_partial.
Theorem C54_xre_percents_refuted : exists s, xre_strip_percents (xre_add_percents s) <> s.
Proof. exists (B "50%"). vm_compute. discriminate. Qed.
Print Assumptions C54_xre_percents_refuted.
Theorem C54_strip_curly_partial : forall x, x <> [] -> strip_curly (B "{" ++ x ++ B "}") = x.
Proof. exact strip_curly_braces. Qed.
Print Assumptions C54_strip_curly_partial.
Theorem C54_strip_curly_plain : forall s, (forall r, s <> B "{" ++ r) -> (forall r, s <> r ++ B "}") -> strip_curly s = s.
Proof. exact strip_curly_plain. Qed.
Print Assumptions C54_strip_curly_plain.
Theorem C54_strip_curly_empty_refuted : strip_curly (B "{}") = B "}".
Proof. reflexivity. Qed.
Print Assumptions C54_strip_curly_empty_refuted.
Theorem C54_angle_brackets : forall s,
  (exists x, s = B "<" ++ x ++ B ">" /\ angle_bracket_substitution (escape_enclosing_angle_brackets s) = Some s) \/
  ((forall x, s <> B "<" ++ x ++ B ">") /\ escape_enclosing_angle_brackets s = s).
Proof.
  intros s.
  assert (D : (exists x, s = B "<" ++ x ++ B ">") \/ forall x, s <> B "<" ++ x ++ B ">").
  { destruct s as [|c s]; [right; discriminate|]. destruct (ascii_dec c "<") as [->|N].
    - destruct s as [|d s]; [right; intros x E; destruct x; discriminate|].
      destruct (exists_last (l := d :: s)) as (y & z & E); [discriminate|]. rewrite E.
      destruct (ascii_dec z ">") as [->|N]; [left; exists y; reflexivity|].
      right. intros x K. injection K as K. apply app_inj_tail in K. destruct K as [_ K]. contradiction.
    - right. intros x K. injection K as K _. contradiction. }
  destruct D as [[x ->]|D]; [left|right].
  - exists x. split; [reflexivity|]. destruct (angle_roundtrip x) as [-> H]. exact H.
  - split; [exact D|]. apply angle_only. exact D.
Qed.
Print Assumptions C54_angle_brackets.
Example C54_witness : xre_add_percents (B "a+b") = B "a%+b" /\ strip_curly (B "{a{}}") = B "a{}" /\
  escape_enclosing_angle_brackets (B "<b>") = B "@_<b>_@".
Proof. vm_compute. tauto. Qed.

(** C55: parse_quoted. *)
Theorem C55_quoted_plain_partial : forall strtol s, ~ In "\"%char s -> ~ In "010"%char s -> ~ In "013"%char s -> parse_quoted strtol s = Ok s.
Proof. exact parse_quoted_plain. Qed.
Print Assumptions C55_quoted_plain_partial.
Theorem C55_quoted_no_overflow : forall strtol s r, parse_quoted strtol s = Ok r -> length r <= length s.
Proof. intros strtol s r. apply parse_quoted_len. Qed.
Print Assumptions C55_quoted_no_overflow.
(** Every mix of plain bytes and one-letter escapes is decoded to what C means by it. *)
Theorem C55_quoted_escapes : forall strtol items, Forall item_ok items ->
  parse_quoted strtol (flat_map item_text items) = Ok (map item_byte items).
Proof. intros strtol items H. apply parse_quoted_fuel; [exact H|lia]. Qed.
Print Assumptions C55_quoted_escapes.
(** An octal or \u escape near the end makes it read on behind the string. *)
Theorem C55_quoted_out_of_bounds_refuted : forall strtol, parse_quoted strtol (B "a\1") = Ub /\ parse_quoted strtol (B "\u12") = Ub.
Proof. intros strtol. split; reflexivity. Qed.
Print Assumptions C55_quoted_out_of_bounds_refuted.
Example C55_witness : parse_quoted (fun _ => (65%Z, 2)) (B "x\t\q\x65y") = Ok ["x"; "009"; "q"; "A"; "y"]%char.
Proof. vm_compute. reflexivity. Qed.

(** C56: line numbers of tokens. *)
Theorem C56_token_lines_partial : forall ts t,
  first_line (positions_after (ts ++ [t])) = line_after (concat ts) /\
  last_line (positions_after (ts ++ [t])) = line_after (concat (ts ++ [t])).
Proof. intros ts t. split; [apply positions_first_line|apply positions_line]. Qed.
Print Assumptions C56_token_lines_partial.
(** Columns drift: splitting the same line into more tokens changes the column. *)
Theorem C56_token_columns_refuted : exists ts1 ts2, concat ts1 = concat ts2 /\
  last_column (positions_after ts1) <> last_column (positions_after ts2).
Proof. exists [B "ab"], [B "a"; B "b"]. split; [reflexivity|]. vm_compute. discriminate. Qed.
Print Assumptions C56_token_columns_refuted.
Example C56_witness : last_line (positions_after [["a"; "010"]%char; B "b"]) = 2.
Proof. reflexivity. Qed.

(** C57: strdup_nonconst_part. *)
Theorem C57_nonconst_part : forall p m q,
  strdup_nonconst_part (p ++ m ++ q) p q false = Ok m /\
  strdup_nonconst_part (p ++ m ++ q) p q true = strstrip m.
Proof. intros p m q. split; [apply strdup_part|apply strdup_strip]. Qed.
Print Assumptions C57_nonconst_part.
Theorem C57_nonconst_part_only : forall t p q z m, strdup_nonconst_part t p q z = Ok m -> exists x, t = p ++ x ++ q.
Proof. exact strdup_only. Qed.
Print Assumptions C57_nonconst_part_only.
Example C57_witness : strdup_nonconst_part (B "LEXICON Root ") (B "LEXICON") [] true = Ok (B "Root").
Proof. vm_compute. reflexivity. Qed.

(** C58: replace_zero. *)
Theorem C58_replace_zero_first : forall a b,
  (forall a' b', a ++ B "@ZERO@" ++ b = a' ++ B "@ZERO@" ++ b' -> length a <= length a') ->
  replace_zero (a ++ B "@ZERO@" ++ b) = a ++ B "0" ++ b.
Proof. exact replace_zero_first. Qed.
Print Assumptions C58_replace_zero_first.
Theorem C58_replace_zero_none : forall s, ~ occurs (B "@ZERO@") s -> replace_zero s = s.
Proof. exact replace_zero_none. Qed.
Print Assumptions C58_replace_zero_none.
(** The documented "replaces @ZERO@ with 0 in a string" is false: later occurrences stay. *)
Theorem C58_replace_zero_all_refuted : exists s, occurs (B "@ZERO@") (replace_zero s).
Proof. exists (B "@ZERO@@ZERO@"). exists (B "0"), []. reflexivity. Qed.
Print Assumptions C58_replace_zero_all_refuted.
Example C58_witness : replace_zero (B "a@ZERO@b") = B "a0b".
Proof. reflexivity. Qed.
