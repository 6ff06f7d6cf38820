(** Properties C32-C34 and C64: the optimized-lookup file format. *)
From Coq Require Import NArith.
From Verif Require Import Base Flags_Model OLF_Model OLF_Spec OLF_Proofs.
Local Open Scope N_scope.

(** C32.  A header written and read back is the same header, and the reader stops exactly
    after it; conversely, whatever the reader accepts is the written form of the header it
    returns.  So every other input is refused (next theorem). *)
Theorem C32_header_roundtrip :
  (forall h rest, header_fits h ->
     header_read (stream (header_write h ++ rest)) = Ok (h, stream rest))
  /\ (forall bs h is', header_read (stream bs) = Ok (h, is') ->
     header_fits h /\ exists rest, bs = header_write h ++ rest /\ is' = stream rest).
Proof.
  split; [exact header_roundtrip|].
  intros bs h is' H. apply header_read_inv in H. destruct H as (H1 & H2 & H3).
  split; [exact H1|]. exists (is_bytes is'). split; [|exact H3]. apply stream_inj. exact H2.
Qed.
Print Assumptions C32_header_roundtrip.

(** C32.  A stream of fewer than 56 bytes, or one in which one of the nine 32-bit flag words
    after the first 20 bytes is neither 0 nor 1, is refused with an exception; the reader has
    no other outcome than a header or the exception. *)
Theorem C32_header_refused :
  (forall bs, (length bs < 56)%nat -> header_read (stream bs) = Throw)
  /\ (forall bs k, (k < 9)%nat ->
        1 < unle (firstn 4 (skipn (20 + 4 * k) bs)) ->
        header_read (stream bs) = Throw)
  /\ (forall bs, (exists h is', header_read (stream bs) = Ok (h, is'))
                 \/ header_read (stream bs) = Throw).
Proof.
  split; [|split].
  - intros bs L. destruct (header_read_cases (stream bs)) as [[[h is'] E]|E]; [|exact E].
    apply C32_header_roundtrip in E. destruct E as (_ & rest & -> & _).
    rewrite app_length, header_write_length in L. lia.
  - intros bs k Hk Hb. destruct (header_read_cases (stream bs)) as [[[h is'] E]|E]; [|exact E].
    exfalso. apply C32_header_roundtrip in E. destruct E as (_ & rest & -> & _).
    revert Hb. apply N.le_ngt. unfold header_write.
    repeat rewrite <- app_assoc.
    assert (P : forall m n k r, (m <= n)%nat -> skipn n (le m k ++ r) = skipn (n - m) r).
    { intros m n k0 r L. replace n with (m + (n - m))%nat at 1 by lia.
      rewrite skipn_add, skipn_le. reflexivity. }
    unfold wr_bool.
    do 9 (destruct k as [|k];
      [ cbn [Nat.mul Nat.add];
        repeat (rewrite P by lia); cbn [Nat.sub skipn]; rewrite firstn_le;
        match goal with |- context [if ?b then _ else _] => destruct b end;
        vm_compute; discriminate |]).
    lia.
  - intros bs. destruct (header_read_cases (stream bs)) as [[[h is'] E]|E]; eauto.
Qed.
Print Assumptions C32_header_refused.

Definition ex_header : header := header_make 3 5 7 9 true.
Example C32_witness :
  header_fits ex_header /\ length (header_write ex_header) = 56%nat
  /\ firstn 8 (header_write ex_header)
     = [ascii_of_N 3; zero; ascii_of_N 5; zero; ascii_of_N 7; zero; zero; zero]
  /\ header_read (stream (header_write ex_header ++ B "rest")) = Ok (ex_header, stream (B "rest")).
Proof. repeat split; vm_compute; try reflexivity; discriminate. Qed.

(** C33.  The alphabet made from a symbol table, written and read back, is the same
    alphabet, and the reader stops exactly after it. *)
Theorem C33_alphabet_roundtrip st a rest :
  Forall nul_free st -> N.of_nat (length st) <= 65535 -> alphabet_of_table st = Ok a ->
  alphabet_for st a
  /\ alphabet_read true (length st) (stream (alphabet_write a ++ rest)) = Ok (a, stream rest).
Proof.
  intros Hn L H. unfold alphabet_of_table in H.
  destruct (N.ltb_spec 65535 (N.of_nat (length st))); [lia|].
  destruct (classify_all alphabet0 0 st) as [a'|] eqn:E; [|discriminate]. injection H as <-.
  pose proof (classify_all_for _ _ E L) as Ha. split; [exact Ha|].
  apply alphabet_roundtrip; assumption.
Qed.
Print Assumptions C33_alphabet_roundtrip.

(** C33.  Whatever the reader accepts is an alphabet with consistent flag table and special
    numbers, of the announced size, and the bytes consumed are its written form - except
    that the very last symbol may lack its terminator at the end of the stream. *)
Theorem C33_alphabet_read_exact count bs a is' :
  N.of_nat count <= 65535 -> alphabet_read true count (stream bs) = Ok (a, is') ->
  alphabet_for (a_table a) a /\ Forall nul_free (a_table a) /\ length (a_table a) = count
  /\ ((exists rest, bs = alphabet_write a ++ rest /\ is' = stream rest)
      \/ (bs ++ [zero] = alphabet_write a /\ last (a_table a) [] <> [])).
Proof.
  intros Hc H. apply alphabet_read_inv in H; [|exact Hc].
  destruct H as (H1 & H2 & H3 & H4). split; [exact H1|]. split; [exact H2|].
  split; [exact H3|]. destruct H4 as [H4|(H4 & _ & H5)]; [left; exact H4|right; split; assumption].
Qed.
Print Assumptions C33_alphabet_read_exact.

(** C33.  The exception above does happen: a stream cut right before the last terminator is
    read as the full alphabet. *)
Theorem C33_unterminated_accepted st s a :
  Forall nul_free (st ++ [s]) -> s <> [] -> N.of_nat (length (st ++ [s])) <= 65535 ->
  alphabet_of_table (st ++ [s]) = Ok a ->
  exists bs is', bs ++ [zero] = alphabet_write a
    /\ alphabet_read true (length (st ++ [s])) (stream bs) = Ok (a, is').
Proof.
  intros Hn Hs L H. destruct (C33_alphabet_roundtrip _ _ [] Hn L H) as (Ha & _).
  exists (sym_bytes st ++ s). eexists.
  split; [|apply alphabet_unterminated; assumption].
  unfold alphabet_write. rewrite (proj1 Ha).
  change (concat (map (fun s => s ++ [NUL]) (st ++ [s]))) with (sym_bytes (st ++ [s])).
  rewrite sym_bytes_snoc, <- app_assoc. reflexivity.
Qed.
Print Assumptions C33_unterminated_accepted.

Definition ex_table : list bstr :=
  [B "@_EPSILON_SYMBOL_@"; B "a"; B "@_IDENTITY_SYMBOL_@"; B "@P.X.Y@"; B "@_UNKNOWN_SYMBOL_@";
   B "@D.X@"].
Example C33_witness :
  Forall nul_free ex_table
  /\ (exists a, alphabet_of_table ex_table = Ok a /\ a_identity a = 2 /\ a_unknown a = 4
      /\ a_default a = 65535 /\ length (operations (a_fd a)) = 2%nat
      /\ length (alphabet_write a) = 74%nat).
Proof.
  split.
  - unfold ex_table. repeat constructor; unfold nul_free; cbn;
      intros H; repeat (destruct H as [H|H]; [discriminate|]); exact H.
  - eexists. split; [vm_compute; reflexivity|]. vm_compute. repeat split.
Qed.

(** C34.  A transducer whose header describes its alphabet and tables is, written and read
    back, the same header, alphabet and tables; the reader stops exactly after it. *)
Theorem C34_transducer_roundtrip t rest :
  consistent t -> canonical_tables t ->
  exists bs, transducer_write t = Ok bs
    /\ transducer_read (stream (bs ++ rest)) = Ok (t, stream rest).
Proof.
  intros Hc Ht. destruct (transducer_rw t rest Hc) as (bs & H1 & H2).
  - rewrite (proj1 Ht). auto.
  - exists bs. split; [exact H1|]. rewrite H2, map_norm_id by exact Ht. destruct t; reflexivity.
Qed.
Print Assumptions C34_transducer_roundtrip.

(** C34.  Weighted tables under an unweighted header (what conversion to the unweighted
    format builds) come back with exactly the weights dropped, and the same states final. *)
Theorem C34_weights_dropped t rest :
  consistent t -> h_weighted (tr_header t) = false ->
  exists bs t', transducer_write t = Ok bs
    /\ transducer_read (stream (bs ++ rest)) = Ok (t', stream rest)
    /\ tr_header t' = tr_header t /\ tr_alphabet t' = tr_alphabet t
    /\ Forall2 drop_index (t_index (tr_tables t)) (t_index (tr_tables t'))
    /\ Forall2 drop_trans (t_trans (tr_tables t)) (t_trans (tr_tables t'))
    /\ map index_final (t_index (tr_tables t')) = map index_final (t_index (tr_tables t))
    /\ map trans_final (t_trans (tr_tables t')) = map trans_final (t_trans (tr_tables t)).
Proof.
  intros Hc Hw. destruct (transducer_rw t rest Hc) as (bs & H1 & H2).
  - rewrite Hw. discriminate.
  - exists bs. eexists. split; [exact H1|]. split; [exact H2|].
    cbn [tr_header tr_alphabet tr_tables t_index t_trans]. rewrite Hw.
    assert (M : forall A (f : A -> A) (P : A -> A -> Prop) l, (forall x, P x (f x)) ->
                Forall2 P l (map f l)).
    { intros A f P l H. induction l; cbn; constructor; auto. }
    repeat split.
    + apply M. intros e. unfold drop_index, norm_index. cbn [negb andb ie_input ie_target].
      destruct (index_final e); repeat split; intros; congruence.
    + apply M. intros e. repeat split.
    + rewrite map_map. apply map_ext. intros e. unfold norm_index, index_final.
      cbn [negb andb ie_input ie_target].
      destruct (ie_input e =? NO_SYMBOL) eqn:E1; [|reflexivity]. cbn [andb].
      destruct (ie_target e =? NO_TABLE_INDEX) eqn:E2; cbn [negb]; [rewrite E2|]; reflexivity.
    + rewrite map_map. reflexivity.
Qed.
Print Assumptions C34_weights_dropped.

(** C34.  Whatever the reader accepts is a consistent transducer; for a weighted one the
    bytes consumed are its written form, so no truncated file is accepted. *)
Theorem C34_read_exact bs t is' :
  transducer_read (stream bs) = Ok (t, is') ->
  consistent t /\ t_wclass (tr_tables t) = h_weighted (tr_header t)
  /\ (h_weighted (tr_header t) = true ->
      exists bs' rest, transducer_write t = Ok bs' /\ bs = bs' ++ rest /\ is' = stream rest).
Proof.
  intros H. apply transducer_read_inv in H. destruct H as (H1 & H2 & H3).
  split; [exact H1|]. split; [exact H2|]. intros W. destruct (H3 W) as (r & b & ? & ? & ?).
  exists b, r. auto.
Qed.
Print Assumptions C34_read_exact.

(** C34.  Copying a consistent canonical transducer gives an equal one. *)
Theorem C34_copy t :
  consistent t -> canonical_tables t ->
  transducer_copy t (h_weighted (tr_header t)) = Ok t
  /\ transducer_copy t (negb (h_weighted (tr_header t))) = Throw.
Proof.
  intros Hc Ht. pose proof (map_norm_id t Ht) as M. destruct Hc as [_ _ _ _ C5 C6 _ _].
  unfold transducer_copy. rewrite Bool.eqb_reflx. cbn [negb].
  rewrite C5, C6, !Nat2N.id, !firstn_all, !Nat.ltb_irrefl. cbn [orb].
  split.
  - f_equal. destruct t as [h a tb]. cbn [tr_header tr_alphabet tr_tables] in *.
    f_equal. destruct tb as [c ix tr]. cbn [t_wclass t_index t_trans] in *.
    injection M as M1 M2 M3. rewrite M1. f_equal.
    unfold norm_trans in M3. rewrite M1 in M3. exact M3.
  - destruct (h_weighted (tr_header t)); reflexivity.
Qed.
Print Assumptions C34_copy.

Definition ex_alphabet (st : list bstr) : alphabet :=
  match alphabet_of_table st with Ok a => a | _ => alphabet0 end.
(** One state with a final weight, reached again by an [a] loop of weight 1.5. *)
Definition ex_transducer : transducer :=
  {| tr_header := header_make 2 2 5 3 true;
     tr_alphabet := ex_alphabet [B "@_EPSILON_SYMBOL_@"; B "a"];
     tr_tables :=
       {| t_wclass := true;
          t_index := [ {| ie_input := 65535; ie_target := 1056964608 |};
                       {| ie_input := 65535; ie_target := 4294967295 |};
                       {| ie_input := 1; ie_target := 2147483648 |};
                       {| ie_input := 65535; ie_target := 4294967295 |};
                       {| ie_input := 65535; ie_target := 4294967295 |} ];
          t_trans := [ {| te_input := 1; te_output := 1; te_target := 0; te_weight := 1069547520 |};
                       {| te_input := 65535; te_output := 65535; te_target := 4294967295; te_weight := 0 |};
                       {| te_input := 65535; te_output := 65535; te_target := 4294967295; te_weight := 0 |} ] |} |}.

Lemma small_index_fits l :
  forallb (fun e => (ie_input e <? 65536) && (ie_target e <? 4294967296)) l = true ->
  Forall index_fits l.
Proof.
  intros H. apply Forall_forall. intros e He. rewrite forallb_forall in H.
  apply H in He. apply andb_prop in He. destruct He as (H1 & H2).
  apply N.ltb_lt in H1, H2. split; assumption.
Qed.
Lemma small_trans_fits l :
  forallb (fun e => (te_input e <? 65536) && (te_output e <? 65536)
                    && (te_target e <? 4294967296) && (te_weight e <? 4294967296)) l = true ->
  Forall trans_fits l.
Proof.
  intros H. apply Forall_forall. intros e He. rewrite forallb_forall in H.
  apply H in He. repeat (apply andb_prop in He; destruct He as (He & ?)).
  repeat match goal with E : (_ <? _) = true |- _ => apply N.ltb_lt in E end.
  repeat split; assumption.
Qed.

Lemma ex_consistent : consistent ex_transducer.
Proof.
  constructor; cbn [ex_transducer tr_header tr_alphabet tr_tables t_index t_trans].
  - repeat split; vm_compute; reflexivity.
  - pose proof (C33_alphabet_roundtrip [B "@_EPSILON_SYMBOL_@"; B "a"]
                  (ex_alphabet [B "@_EPSILON_SYMBOL_@"; B "a"]) []) as H.
    assert (E : a_table (ex_alphabet [B "@_EPSILON_SYMBOL_@"; B "a"])
                = [B "@_EPSILON_SYMBOL_@"; B "a"]) by (vm_compute; reflexivity).
    rewrite E. apply H.
    + repeat constructor; unfold nul_free; cbn;
        intros K; repeat (destruct K as [K|K]; [discriminate|]); exact K.
    + vm_compute. discriminate.
    + vm_compute. reflexivity.
  - vm_compute. repeat constructor; unfold nul_free; cbn;
      intros K; repeat (destruct K as [K|K]; [discriminate|]); exact K.
  - vm_compute. reflexivity.
  - vm_compute. reflexivity.
  - vm_compute. reflexivity.
  - apply small_index_fits. vm_compute. reflexivity.
  - apply small_trans_fits. vm_compute. reflexivity.
Qed.

Example C34_witness :
  consistent ex_transducer /\ canonical_tables ex_transducer
  /\ (exists bs, transducer_write ex_transducer = Ok bs /\ length bs = 143%nat
      /\ transducer_read (stream bs) = Ok (ex_transducer, stream [])).
Proof.
  split; [exact ex_consistent|]. split; [split; [reflexivity|discriminate]|].
  eexists. split; [vm_compute; reflexivity|]. split; vm_compute; reflexivity.
Qed.

(** A symbol added to the alphabet of a transducer in memory (TransducerAlphabet::add_symbol,
    transducer.cc:64-72), as looking up a string with an unknown symbol does
    (Transducer::initialize_input, transducer.cc:326-335); the header keeps its count. *)
Definition with_symbol (t : transducer) (s : bstr) : transducer :=
  {| tr_header := tr_header t;
     tr_alphabet := set_table (tr_alphabet t) (a_table (tr_alphabet t) ++ [s]);
     tr_tables := tr_tables t |}.

(** C34 fails after such a lookup: the file then written is read back, without any error, as
    a transducer with other tables. *)
Theorem C34_after_unknown_lookup_refuted :
  exists t s bs t' is', consistent t /\ canonical_tables t
    /\ transducer_write (with_symbol t s) = Ok bs
    /\ transducer_read (stream bs) = Ok (t', is')
    /\ tr_tables t' <> tr_tables t.
Proof.
  exists ex_transducer, (B "z"). do 3 eexists.
  split; [exact ex_consistent|]. split; [split; [reflexivity|discriminate]|].
  split; [vm_compute; reflexivity|]. split; [vm_compute; reflexivity|].
  vm_compute. discriminate.
Qed.
Print Assumptions C34_after_unknown_lookup_refuted.

(** C34 fails for unweighted tables under a weighted header: the weight of each transition is
    written as one text character, so the file cannot be read. *)
Theorem C34_unweighted_tables_refuted :
  exists t bs, consistent t /\ transducer_write t = Ok bs
    /\ h_weighted (tr_header t) = true /\ t_wclass (tr_tables t) = false
    /\ transducer_read (stream bs) = Throw.
Proof.
  exists {| tr_header := tr_header ex_transducer; tr_alphabet := tr_alphabet ex_transducer;
            tr_tables := {| t_wclass := false; t_index := t_index (tr_tables ex_transducer);
                            t_trans := t_trans (tr_tables ex_transducer) |} |}.
  eexists. split.
  - destruct ex_consistent. constructor; assumption.
  - split; [vm_compute; reflexivity|]. repeat split; vm_compute; reflexivity.
Qed.
Print Assumptions C34_unweighted_tables_refuted.

(** C64.  Setting a header flag to true makes it true, leaves the other flags, the counts and
    sizes alone; setting it to false has the same effect as setting it to true. *)
Theorem C64_set_flag_partial h f v :
  probe_flag (set_flag h f true) f = true
  /\ (forall g, g <> f -> probe_flag (set_flag h f v) g = probe_flag h g)
  /\ set_flag h f false = set_flag h f true
  /\ firstn 20 (header_write (set_flag h f v)) = firstn 20 (header_write h).
Proof.
  split; [destruct f; reflexivity|]. split; [|split; [reflexivity|]].
  - intros g Hg. destruct f, g; try reflexivity; congruence.
  - unfold header_write. cbn [set_flag h_input_symbols h_symbols h_index_size h_target_size
      h_states h_transitions]. cbn [le app firstn]. reflexivity.
Qed.
Print Assumptions C64_set_flag_partial.

Theorem C64_clear_flag_refuted : exists h f, probe_flag (set_flag h f false) f <> false.
Proof. exists ex_header, Cyclic. vm_compute. discriminate. Qed.
Print Assumptions C64_clear_flag_refuted.

Example C64_witness : probe_flag (set_flag ex_header Cyclic true) Cyclic = true
  /\ probe_flag ex_header Cyclic = false.
Proof. split; reflexivity. Qed.
