(** What the optimized-lookup file format properties say, independently of how the
    readers and writers work. *)
From Verif Require Import Base Flags_Model OLF_Model.
Local Open Scope N_scope.

(** The numbers of a header fit their 16- and 32-bit fields. *)
Definition header_fits (h : header) : Prop :=
  h_input_symbols h < 2 ^ 16 /\ h_symbols h < 2 ^ 16 /\ h_index_size h < 2 ^ 32
  /\ h_target_size h < 2 ^ 32 /\ h_states h < 2 ^ 32 /\ h_transitions h < 2 ^ 32.

(** A stream with nothing read yet. *)
Definition stream (bs : list ascii) : istream := {| is_bytes := bs; is_eof := false |}.

(** No NUL byte in a symbol (the format cannot store one). *)
Definition nul_free (s : bstr) : Prop := ~ In zero s.

(** The number of the last symbol equal to [s], or 65535 when there is none. *)
Definition last_number (s : bstr) (l : list bstr) (n : N) : Prop :=
  (exists i, nth_error l i = Some s /\ n = N.of_nat i
             /\ forall j, nth_error l j = Some s -> (j <= i)%nat)
  \/ (~ In s l /\ n = 65535).

(** The numbered flag diacritics of a symbol table, in order. *)
Definition numbered_flags (l : list bstr) : list (nat * bstr) :=
  filter (fun p => is_diacritic (snd p)) (combine (seq 0 (length l)) l).

(** An alphabet belongs to a symbol table: same symbols in order, the flag table made by
    defining exactly the flags of the table under their numbers, the numbers of the three
    special symbols, the number of symbols. *)
Definition alphabet_for (st : list bstr) (a : alphabet) : Prop :=
  a_table a = st
  /\ define_all fd_empty (numbered_flags st) = Some (a_fd a)
  /\ last_number (B "@_UNKNOWN_SYMBOL_@") st (a_unknown a)
  /\ last_number (B "@_DEFAULT_SYMBOL_@") st (a_default a)
  /\ last_number (B "@_IDENTITY_SYMBOL_@") st (a_identity a)
  /\ a_orig_count a = N.of_nat (length st).

(** Table entries fit their fields. *)
Definition index_fits (e : index_entry) : Prop := ie_input e < 2 ^ 16 /\ ie_target e < 2 ^ 32.
Definition trans_fits (e : trans_entry) : Prop :=
  te_input e < 2 ^ 16 /\ te_output e < 2 ^ 16 /\ te_target e < 2 ^ 32 /\ te_weight e < 2 ^ 32.

(** A transducer whose header describes its alphabet and tables. *)
Record consistent (t : transducer) : Prop := {
  cn_header : header_fits (tr_header t);
  cn_alphabet : alphabet_for (a_table (tr_alphabet t)) (tr_alphabet t);
  cn_nul : Forall nul_free (a_table (tr_alphabet t));
  cn_symbols : h_symbols (tr_header t) = N.of_nat (length (a_table (tr_alphabet t)));
  cn_isize : h_index_size (tr_header t) = N.of_nat (length (t_index (tr_tables t)));
  cn_tsize : h_target_size (tr_header t) = N.of_nat (length (t_trans (tr_tables t)));
  cn_index : Forall index_fits (t_index (tr_tables t));
  cn_trans : Forall trans_fits (t_trans (tr_tables t))
}.

(** Tables of the class the header announces.  Unweighted tables carry no weights and mark
    a final state by target 1. *)
Definition canonical_tables (t : transducer) : Prop :=
  t_wclass (tr_tables t) = h_weighted (tr_header t)
  /\ (h_weighted (tr_header t) = false ->
      Forall (fun e => index_final e = true -> ie_target e = 1) (t_index (tr_tables t))
      /\ Forall (fun e => te_weight e = 0) (t_trans (tr_tables t))).

(** Dropping the weights of tables: final index entries are marked by target 1, the weight
    field of every transition is 0, and nothing else changes. *)
Definition drop_index (e e' : index_entry) : Prop :=
  ie_input e' = ie_input e
  /\ (index_final e = true -> ie_target e' = 1)
  /\ (index_final e = false -> ie_target e' = ie_target e).
Definition drop_trans (e e' : trans_entry) : Prop :=
  te_input e' = te_input e /\ te_output e' = te_output e /\ te_target e' = te_target e
  /\ te_weight e' = 0.
