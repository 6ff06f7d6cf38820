(** Specification vocabulary for lookup in the optimized-lookup format. *)
From Verif Require Import Base Flags_Model Flags_Spec BT_Model BT_Spec An_Spec LK_Model OLF_Model OLC_Model OLC_Spec OLL_Model.
From Verif Require Tok_Model Tok_Spec LK_Spec.

Definition EPSILON : bstr := B "@_EPSILON_SYMBOL_@".
Definition UNKNOWN : bstr := B "@_UNKNOWN_SYMBOL_@".
Definition IDENTITY : bstr := B "@_IDENTITY_SYMBOL_@".
Definition DEFAULT : bstr := B "@_DEFAULT_SYMBOL_@".

(** The symbols the transducer reads. *)
Definition input_symbol (g : graph) (x : bstr) : Prop :=
  exists s a, In a (nth s (sts g) []) /\ isy a = x /\ free_input x = false.

(** * Tokenization: leftmost-longest over these symbols, single characters elsewhere *)

(** Number of bytes of a character starting with byte [b]; 0 if none does. *)
Definition char_length (b : ascii) : nat :=
  let n := N_of_ascii b in
  if (n <? 128)%N then 1 else if (n <? 192)%N then 0 else if (n <? 224)%N then 2 else if (n <? 240)%N then 3 else 4.
Definition one_char (c : bstr) : Prop := match c with [] => False | b :: _ => length c = char_length b end.
Definition tokens (g : graph) (s : bstr) (ts : list bstr) : Prop :=
  Tok_Spec.segmentation (fun x => input_symbol g x \/ x = EPSILON) (fun c _ => one_char c) s ts.

(** * Runs *)

(** A transition taken, with the token it reads, if any. *)
Definition step : Type := arc * option bstr.

(** [lookup_run g s e r ts t]: from state [s] and flag values [e], the run [r] reads the tokens
    [ts] and ends in [t].  Every flag on the way is allowed.  Unknown and identity read the
    tokens that are not input symbols. *)
Inductive lookup_run (g : graph) : nat -> fenv -> list step -> list bstr -> nat -> Prop :=
| lr_end s e : lookup_run g s e [] [] s
| lr_epsilon s e a r ts t : In a (nth s (sts g) []) -> isy a = EPSILON ->
    lookup_run g (tgt a) e r ts t -> lookup_run g s e ((a, None) :: r) ts t
| lr_flag s e a x r ts t : In a (nth s (sts g) []) -> denotes (isy a) x -> snd (Flags_Spec.step x e) = true ->
    lookup_run g (tgt a) (fst (Flags_Spec.step x e)) r ts t -> lookup_run g s e ((a, None) :: r) ts t
| lr_known s e a x r ts t : In a (nth s (sts g) []) -> isy a = x -> input_symbol g x ->
    lookup_run g (tgt a) e r ts t -> lookup_run g s e ((a, Some x) :: r) (x :: ts) t
| lr_unknown s e a x r ts t : In a (nth s (sts g) []) -> isy a = UNKNOWN \/ isy a = IDENTITY -> ~ input_symbol g x ->
    lookup_run g (tgt a) e r ts t -> lookup_run g s e ((a, Some x) :: r) (x :: ts) t.

(** What is shown for a step: epsilon as the empty string, a token on the output side of
    unknown and identity. *)
Definition show (x : bstr) : bstr := if bstr_eqb x EPSILON then [] else x.
Definition shown (p : step) : bstr * bstr :=
  match p with
  | (a, None) => (show (isy a), show (osy a))
  | (a, Some x) => (isy a, if bstr_eqb (osy a) UNKNOWN || bstr_eqb (osy a) IDENTITY then x else show (osy a))
  end.
Definition run_weight (r : list step) : Z := path_weight (map fst r).

(** The run [r] over [ts] gives the result with weight [w] and symbol pairs [ps]. *)
Definition result (g : graph) (ts : list bstr) (r : list step) (w : Z) (ps : list (bstr * bstr)) : Prop :=
  exists t fw, lookup_run g 0 env0 r ts t /\ mget Nat.compare t (fin g) = Some fw
    /\ w = (run_weight r + fw)%Z /\ ps = map shown r.

(** Between two tokens, the run takes no two flag transitions to the same state from the same
    flag values. *)
Definition same_values (e1 e2 : fenv) : Prop := forall f, e1 f = e2 f.
Inductive unrepeated : list (nat * fenv) -> fenv -> list step -> Prop :=
| ur_end seen e : unrepeated seen e []
| ur_epsilon seen e a r : isy a = EPSILON -> unrepeated seen e r -> unrepeated seen e ((a, None) :: r)
| ur_flag seen e a x r : denotes (isy a) x -> (forall e', In (tgt a, e') seen -> ~ same_values e' e) ->
    unrepeated ((tgt a, e) :: seen) (fst (Flags_Spec.step x e)) r -> unrepeated seen e ((a, None) :: r)
| ur_read seen e a x r : unrepeated [] e r -> unrepeated seen e ((a, Some x) :: r).

(** * Histories: a transducer after any number of lookups (which may add symbols to its
    alphabet, as long as symbol numbers fit in 16 bits) *)
Inductive used (dec : N -> Z) (tr : transducer) : alphabet -> Tok_Model.encoder -> Prop :=
| used_fresh en : new_encoder (tr_alphabet tr) (N.to_nat (h_input_symbols (tr_header tr))) = Ok en ->
    used dec tr (tr_alphabet tr) en
| used_again al en depth limit s res al' en' : used dec tr al en -> no_nul s ->
    (N.of_nat (length (a_table al) + length s) <= 65535)%N ->
    lookup_fd_pairs dec depth limit (tr_tables tr) al en s = Ok (res, al', en') -> used dec tr al' en'.

(** Flags carry no empty values; there is no default symbol; symbols contain no NUL; there are
    fewer than 32767 of them. *)
Definition plain (g : graph) : Prop :=
  (forall x f, In x (alpha g) -> denotes x f -> nonempty_value f)
  /\ ~ In DEFAULT (alpha g)
  /\ (forall x, In x (alpha g) -> x <> [] /\ no_nul x)
  /\ NoDup (alpha g) /\ (N.of_nat (length (alpha g)) < 32767)%N.

(** The text does not contain the name of the epsilon symbol. *)
Definition no_epsilon (s : bstr) : Prop := ~ exists u v, s = u ++ EPSILON ++ v.
