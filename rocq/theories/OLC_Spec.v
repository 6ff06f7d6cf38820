(** Specification vocabulary for the conversion between basic and optimized-lookup transducers. *)
From Coq Require Import Permutation.
From Verif Require Import Base Flags_Model BT_Model BT_Spec OLF_Model OLL_Model.

(** Inputs that consume no symbol: epsilon and flag diacritics. *)
Definition free_input (x : bstr) : bool := bstr_eqb x (B "@_EPSILON_SYMBOL_@") || is_diacritic x.

(** "@I. ... @" symbols of pattern matching. *)
Definition insertion (x : bstr) : Prop := exists y, x = B "@I." ++ y ++ B "@".
Definition no_insertions (g : graph) : Prop := forall s a, In a (nth s (sts g) []) -> ~ insertion (isy a).

(** The weights that occur survive their encoding, and none is encoded as the reserved bit
    pattern 0xFFFFFFFF (a NaN). *)
Definition weight_in (g : graph) (w : Z) : Prop :=
  (exists s a, In a (nth s (sts g) []) /\ wt a = w) \/ (exists s, mget Nat.compare s (fin g) = Some w).
Definition faithful (enc : Z -> N) (dec : N -> Z) (g : graph) : Prop :=
  forall w, weight_in g w -> dec (enc w) = w /\ enc w <> 4294967295%N.

(** Sizes for which no index wraps around. *)
Definition small (tr : transducer) : Prop :=
  (N.of_nat (length (t_index (tr_tables tr))) + 65536 < 2147483648)%N
  /\ (N.of_nat (length (t_trans (tr_tables tr))) < 2147483648)%N.

(** Table entry [e] represents arc [a]: the names of its symbol numbers are the arc's symbols,
    its target is where the arc's target is found, its weight is the arc's weight. *)
Definition stands_for (dec : N -> Z) (names : list bstr) (addr : nat -> N) (a : arc) (e : trans_entry) : Prop :=
  nth_error names (N.to_nat (te_input e)) = Some (isy a)
  /\ nth_error names (N.to_nat (te_output e)) = Some (osy a)
  /\ te_target e = addr (tgt a)
  /\ dec (te_weight e) = wt a.

(** The tables represent the transducer [g], state [s] being found at index [addr s]. *)
Record represents (dec : N -> Z) (tr : transducer) (g : graph) (addr : nat -> N) : Prop := {
  (** lookup starts in state 0 *)
  rep_start : addr 0 = 0%N;
  (** different states are found at different places *)
  rep_apart : forall s1 s2, s1 < length (sts g) -> s2 < length (sts g) -> addr s1 = addr s2 -> s1 = s2;
  (** final weights *)
  rep_final : forall s, s < length (sts g) ->
    final_weight dec (tr_tables tr) (addr s) = Ok (mget Nat.compare s (fin g));
  (** the entries tried without reading input are the epsilon and flag arcs *)
  rep_free : forall s, s < length (sts g) ->
    exists hit es l, free_entries (tr_alphabet tr) (tr_tables tr) (addr s) = Ok (hit, es)
      /\ Permutation l (filter (fun a => free_input (isy a)) (nth s (sts g) []))
      /\ Forall2 (stands_for dec (a_table (tr_alphabet tr)) addr) l es
      /\ (hit = true -> es <> []);
  (** the entries tried for an input symbol are the arcs with that symbol, in order *)
  rep_symbol : forall s x k, s < length (sts g) -> nth_error (a_table (tr_alphabet tr)) k = Some x ->
    (N.of_nat k < h_input_symbols (tr_header tr))%N -> k <> 0 ->
    exists hit es, symbol_entries (tr_tables tr) (addr s) (N.of_nat k) = Ok (hit, es)
      /\ Forall2 (stands_for dec (a_table (tr_alphabet tr)) addr) (filter (fun a => bstr_eqb (isy a) x) (nth s (sts g) [])) es
      /\ (hit = true -> es <> []);
  (** a symbol that is no input is found nowhere, or looking for it leaves the table *)
  rep_other : forall s x k, s < length (sts g) -> nth_error (a_table (tr_alphabet tr)) k = Some x ->
    (h_input_symbols (tr_header tr) <= N.of_nat k)%N -> free_input x = false ->
    symbol_entries (tr_tables tr) (addr s) (N.of_nat k) = Ok (false, [])
    \/ symbol_entries (tr_tables tr) (addr s) (N.of_nat k) = Ub;
  (** symbol numbers are unambiguous, epsilon has number 0, and the numbers below the header's
      number of input symbols are those of the input symbols that are neither epsilon nor flags *)
  rep_names : NoDup (a_table (tr_alphabet tr));
  rep_epsilon : nth_error (a_table (tr_alphabet tr)) 0 = Some (B "@_EPSILON_SYMBOL_@");
  rep_inputs : forall x,
    (exists k, nth_error (a_table (tr_alphabet tr)) k = Some x /\ (N.of_nat k < h_input_symbols (tr_header tr))%N /\ k <> 0)
    <-> exists s a, In a (nth s (sts g) []) /\ isy a = x /\ free_input x = false
}.
