(** Formulaic definitions: property C174. *)
From Verif Require Import Base HST_Model MD_Spec MD_Model MD_Proofs FO_Spec FO_Model.
From Coq Require Import NArith Lia.

(** The outcome of describing a result by the text [full]. *)
Definition described_by (full : bstr) (dest : props) (result : res props) : Prop :=
  (well_formed full -> exists q, result = Ok q) /\
  (forall q, result = Ok q ->
     kept full (get_property (B "formulaic-definition") q) /\ length (get_property (B "formulaic-definition") q) <= 1024 /\
     forall k, k <> B "formulaic-definition" -> get_property k q = get_property k dest).
Lemma described dest full : described_by full dest (set_formula_maybe_truncate dest full).
Proof.
  assert (G : forall s q, set_property check_utf8 FORMULA s dest = Ok q -> get_property FORMULA q = s /\ forall k, k <> FORMULA -> get_property k q = get_property k dest).
  { intros s q H. unfold set_property in H. destruct (check_utf8 s); [|discriminate H]. injection H as <-. unfold get_property.
    split; [rewrite (mget_mset_same bcmp bcmp_eq); reflexivity|]. intros k N. rewrite (mget_mset_other bcmp bcmp_eq) by exact N. reflexivity. }
  unfold set_formula_maybe_truncate. destruct (Nat.ltb_spec 1024 (length full)) as [L|L]; split.
  - intros _. eexists. reflexivity.
  - intros q H. apply G in H. destruct H as [E O]. change (B "formulaic-definition") with FORMULA. rewrite E. split; [right; auto|]. split; [cbn; lia|exact O].
  - intros W. unfold set_property. rewrite (proj2 (check_utf8_spec full) W). eexists. reflexivity.
  - intros q H. apply G in H. destruct H as [E O]. change (B "formulaic-definition") with FORMULA. rewrite E. split; [left; auto|]. split; [exact L|exact O].
Qed.

(** C174: the formula of a result on one transducer is the operation and the formula of its
    argument. *)
Theorem C174_one dest src op shown : part (get_property (B "formulaic-definition") src) shown ->
  described_by (op ++ B " " ++ shown) dest (set_formula_of_one dest src op).
Proof.
  intros H. unfold set_formula_of_one, get_formula. change FORMULA with (B "formulaic-definition").
  destruct H as [[N ->]|[-> ->]]; [|apply described]. destruct (get_property (B "formulaic-definition") src); [congruence|]. apply described.
Qed.
Print Assumptions C174_one.
(** On two, it is the operation between the formulas of the arguments. *)
Theorem C174_two dest lhs rhs op shown1 shown2 :
  part (get_property (B "formulaic-definition") lhs) shown1 -> part (get_property (B "formulaic-definition") rhs) shown2 ->
  described_by (shown1 ++ B " " ++ op ++ B " " ++ shown2) dest (set_formula_of_two dest lhs rhs op).
Proof.
  intros H1 H2. unfold set_formula_of_two, get_formula. change FORMULA with (B "formulaic-definition").
  destruct H1 as [[N1 ->]|[-> ->]], H2 as [[N2 ->]|[-> ->]];
    try (destruct (get_property (B "formulaic-definition") lhs) eqn:E1; [congruence|]);
    try (destruct (get_property (B "formulaic-definition") rhs) eqn:E2; [congruence|]);
    cbn [nonempty negb andb]; apply described.
Qed.
Print Assumptions C174_two.
(** Of a string, it is the operation and the first character if that is ASCII, U8 otherwise; the
    empty string is refused. *)
Theorem C174_string dest op : set_formula_of_string dest [] op = Throw /\
  (forall c r, (0 < N_of_ascii c < 128)%N -> described_by (op ++ B " " ++ [c]) dest (set_formula_of_string dest (c :: r) op)) /\
  (forall c r, (128 <= N_of_ascii c)%N -> described_by (op ++ B " U8") dest (set_formula_of_string dest (c :: r) op)).
Proof.
  split; [reflexivity|]. split; intros c r H; unfold set_formula_of_string.
  - destruct (N.ltb_spec 0 (N_of_ascii c)); [|lia]. destruct (N.ltb_spec (N_of_ascii c) 128); [|lia]. apply described.
  - destruct (N.ltb_spec (N_of_ascii c) 128); [lia|]. rewrite andb_false_r. apply described.
Qed.
Print Assumptions C174_string.
(** So a result can always be described when its operation and its arguments can. *)
Theorem C174_never_fails dest lhs rhs op : well_formed op ->
  well_formed (get_property (B "formulaic-definition") lhs) -> well_formed (get_property (B "formulaic-definition") rhs) ->
  (exists q, set_formula_of_one dest lhs op = Ok q) /\ (exists q, set_formula_of_two dest lhs rhs op = Ok q).
Proof.
  intros W W1 W2.
  assert (P : forall d, well_formed d -> exists s, part d s /\ well_formed s).
  { intros [|c d] H; [exists (B "."); split; [right; auto|apply ascii_text; ascii_bytes]|exists (c :: d); split; [left; split; [discriminate|reflexivity]|exact H]]. }
  destruct (P _ W1) as (s1 & P1 & S1), (P _ W2) as (s2 & P2 & S2). split.
  - apply (C174_one dest lhs op s1 P1). apply well_formed_app; [exact W|]. apply well_formed_app; [apply ascii_text; ascii_bytes|exact S1].
  - apply (C174_two dest lhs rhs op s1 s2 P1 P2). repeat (apply well_formed_app; [first [exact S1|exact W|apply ascii_text; ascii_bytes]|]). exact S2.
Qed.
Print Assumptions C174_never_fails.
Example C174_witness : part [] (B ".") /\ well_formed (B "F") /\
  set_formula_of_two [(B "name", B "n")] [(FORMULA, B "F")] [] (B "o") = Ok [(FORMULA, B "F o ."); (B "name", B "n")] /\
  set_formula_of_string [] (B "cat") (B "S") = Ok [(FORMULA, B "S c")].
Proof. split; [right; auto|]. split; [apply check_utf8_spec; reflexivity|]. split; reflexivity. Qed.
