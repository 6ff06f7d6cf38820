(** Properties C01-C05: flag diacritics. *)
From Verif Require Import Base Flags_Model Flags_Spec Flags_Proofs.

(** C01: is_diacritic recognises exactly the written forms @O.F@ (O in R,D,C, F
    non-empty) and @O.F.V@ (F may not contain a dot; F and V may be empty). *)
Theorem C01_is_diacritic_grammar : forall s,
  is_diacritic s = true <->
  (exists o f, In o ["R"; "D"; "C"]%string /\ f <> [] /\ no_dot f /\ s = form1 o f) \/
  (exists o f v, In o ["P"; "N"; "R"; "D"; "C"; "U"]%string /\ no_dot f /\ s = form2 o f v).
Proof. exact is_diacritic_grammar. Qed.
Print Assumptions C01_is_diacritic_grammar.

Theorem C01_accessors_without_value : forall o f,
  In o ["R"; "D"; "C"]%string -> f <> [] -> no_dot f ->
  let s := form1 o f in
  get_operator s = B o /\ get_feature s = f /\ get_value s = [] /\ has_value s = false.
Proof. exact accessors_form1. Qed.
Print Assumptions C01_accessors_without_value.

Theorem C01_accessors_with_value : forall o f v,
  In o ["P"; "N"; "R"; "D"; "C"; "U"]%string -> no_dot f ->
  let s := form2 o f v in
  get_operator s = B o /\ get_feature s = f /\ get_value s = v /\ has_value s = true.
Proof. exact accessors_form2. Qed.
Print Assumptions C01_accessors_with_value.

Example C01_witness :
  is_diacritic (B "@U.CASE.NOM@") = true /\ is_diacritic (B "@D.CASE@") = true /\
  is_diacritic (B "@P.CASE@") = false /\ is_diacritic (B "@U.CASE.NOM") = false /\
  get_value (B "@U.CASE.NOM@") = B "NOM".
Proof. vm_compute. tauto. Qed.

(** The comment in the code documents @[A-Z][.][A-Z]+([.][A-Z]+)?@ ; the code
    accepts strings outside that grammar. *)
Theorem C01_documented_regex_refuted :
  is_diacritic (B "@P..@") = true /\ is_diacritic (B "@R.a.b.c@d@") = true.
Proof. vm_compute. tauto. Qed.
Print Assumptions C01_documented_regex_refuted.

(** C02: the numeric machine implements the calculus on every sequence. *)
Theorem C02_fdstate_semantics : forall defs t ks xs,
  define_all fd_empty defs = Some t ->
  (Z.of_nat (length (value_map t)) <= 32767)%Z ->
  (Z.of_nat (length (feature_map t)) <= 65535)%Z ->
  Forall2 (symbol_meaning defs) ks xs ->
  Forall (fun x => match x with Some y => nonempty_value y | None => True end) xs ->
  run_symbols t ks (fdstate_new t) = Some (results xs env0).
Proof. exact fd_semantics. Qed.
Print Assumptions C02_fdstate_semantics.

Definition demo_defs : list (nat * bstr) :=
  [(3, B "@P.CASE.NOM@"); (4, B "@U.CASE.GEN@"); (5, B "@N.CASE.GEN@"); (6, B "@R.CASE@"); (7, B "@C.CASE@")].
Definition demo_flags : list (option flag) :=
  [Some (FP (B "CASE") (B "NOM")); None; Some (FU (B "CASE") (B "GEN"));
   Some (FN (B "CASE") (B "GEN")); Some (FR (B "CASE") None);
   Some (FU (B "CASE") (B "GEN")); Some (FC (B "CASE")); Some (FR (B "CASE") None)].
Example C02_witness : exists t,
  define_all fd_empty demo_defs = Some t /\
  (Z.of_nat (length (value_map t)) <= 32767)%Z /\ (Z.of_nat (length (feature_map t)) <= 65535)%Z /\
  Forall2 (symbol_meaning demo_defs) [3; 99; 4; 5; 6; 4; 7; 6] demo_flags /\
  Forall (fun x => match x with Some y => nonempty_value y | None => True end) demo_flags /\
  results demo_flags env0 = [true; true; false; true; true; false; true; false].
Proof.
  assert (Hd : no_dot (B "CASE")) by (intros H; simpl in H; intuition discriminate).
  eexists. split; [vm_compute; reflexivity|].
  split; [vm_compute; discriminate|]. split; [vm_compute; discriminate|].
  split; [repeat constructor; unfold symbol_meaning; simpl;
    first [exact (den_P (B "CASE") (B "NOM") Hd) | exact (den_U (B "CASE") (B "GEN") Hd)
          | exact (den_N (B "CASE") (B "GEN") Hd) | apply (den_R (B "CASE") Hd); discriminate
          | apply (den_C (B "CASE") Hd); discriminate]|].
  split; [repeat constructor; discriminate|]. vm_compute. reflexivity.
Qed.

(** With an empty value the numeric machine departs from the calculus: "@P.F.@"
    sets a value, yet a following "@R.F@" is refused. *)
Theorem C02_empty_value_refuted : exists defs t ks xs,
  define_all fd_empty defs = Some t /\
  Forall2 (symbol_meaning defs) ks xs /\
  run_symbols t ks (fdstate_new t) <> Some (results xs env0).
Proof.
  exists [(3, B "@P.F.@"); (4, B "@R.F@")].
  eexists. exists [3; 4], [Some (FP (B "F") []); Some (FR (B "F") None)].
  assert (Hd : no_dot (B "F")) by (intros H; simpl in H; intuition discriminate).
  split; [vm_compute; reflexivity|]. split.
  - repeat constructor; unfold symbol_meaning; simpl;
      [exact (den_P (B "F") [] Hd) | apply (den_R (B "F") Hd); discriminate].
  - vm_compute. discriminate.
Qed.
Print Assumptions C02_empty_value_refuted.

(** C03: the string machine decides the calculus, whatever the table held before. *)
Theorem C03_is_valid_string : forall l xs t,
  Forall2 reads l xs -> fst (fl_is_valid_string l t) = accepted xs.
Proof. exact fl_valid_spec. Qed.
Print Assumptions C03_is_valid_string.

(** Every vector of symbols has a reading, so C03 covers every vector. *)
Theorem C03_total : forall l, exists xs, Forall2 reads l xs.
Proof.
  induction l as [|s l [xs IH]]; [exists []; constructor|].
  destruct (is_diacritic s) eqn:E.
  - apply is_diacritic_denotes in E. destruct E as [x Hx]. exists (Some x :: xs). constructor; assumption.
  - exists (None :: xs). constructor; [|assumption]. intros y Hy.
    assert (is_diacritic s = true) by (apply is_diacritic_denotes; exists y; exact Hy). congruence.
Qed.
Print Assumptions C03_total.

Example C03_witness :
  fst (fl_is_valid_string [B "a"; B "@P.CASE.NOM@"; B "b"; B "@U.CASE.NOM@"] fl_new) = true /\
  fst (fl_is_valid_string [B "a"; B "@P.CASE.NOM@"; B "b"; B "@D.CASE.NOM@"]
        (snd (fl_is_valid_string [B "@R.X@"] fl_new))) = false.
Proof. vm_compute. tauto. Qed.

(** C04: the two machines accept the same flag sequences. *)
Theorem C04_machines_agree : forall defs t ks ss u,
  define_all fd_empty defs = Some t ->
  (Z.of_nat (length (value_map t)) <= 32767)%Z ->
  (Z.of_nat (length (feature_map t)) <= 65535)%Z ->
  Forall2 (fun k s => last_def defs k = Some s) ks ss ->
  Forall (fun s => forall x, denotes s x -> nonempty_value x) ss ->
  option_map (forallb (fun b => b)) (run_symbols t ks (fdstate_new t))
  = Some (fst (fl_is_valid_string ss u)).
Proof.
  intros defs t ks ss u Hd Hv Hf HF HN.
  assert (K : exists xs, Forall2 (symbol_meaning defs) ks xs /\ Forall2 reads ss xs /\
              Forall (fun x => match x with Some y => nonempty_value y | None => True end) xs).
  { destruct (define_all_ok _ _ _ fd_empty_ok Hd) as (_ & _ & Hk).
    clear -HF HN Hk. induction HF as [|k s ks ss Hks HF IH]; [exists []; repeat constructor|].
    inversion HN as [|? ? Hn HN']; subst. destruct (IH HN') as (xs & H1 & H2 & H3).
    specialize (Hk k). rewrite Hks in Hk. destruct Hk as ((x & Hx) & _).
    exists (Some x :: xs). repeat split; constructor; auto.
    unfold symbol_meaning. rewrite Hks. exact Hx. }
  destruct K as (xs & H1 & H2 & H3).
  rewrite (fd_semantics defs t ks xs Hd Hv Hf H1 H3), (fl_valid_spec ss xs u H2). reflexivity.
Qed.
Print Assumptions C04_machines_agree.

Example C04_witness : exists t,
  define_all fd_empty demo_defs = Some t /\
  Forall2 (fun k s => last_def demo_defs k = Some s) [3; 6; 4]
    [B "@P.CASE.NOM@"; B "@R.CASE@"; B "@U.CASE.GEN@"] /\
  run_symbols t [3; 6; 4] (fdstate_new t) = Some [true; true; false].
Proof. eexists. split; [vm_compute; reflexivity|]. split; [repeat constructor|vm_compute; reflexivity]. Qed.

(** Without the restriction on values the two machines disagree. *)
Theorem C04_empty_value_refuted : exists defs t ks ss,
  define_all fd_empty defs = Some t /\
  Forall2 (fun k s => last_def defs k = Some s) ks ss /\
  option_map (forallb (fun b => b)) (run_symbols t ks (fdstate_new t)) = Some false /\
  fst (fl_is_valid_string ss fl_new) = true.
Proof.
  exists [(3, B "@P.F.@"); (4, B "@R.F@")]. eexists. exists [3; 4], [B "@P.F.@"; B "@R.F@"].
  split; [vm_compute; reflexivity|]. split; [repeat constructor|]. vm_compute. tauto.
Qed.
Print Assumptions C04_empty_value_refuted.

(** C05 is false of the code: FdTable::is_valid_string answers true whenever it
    answers, also for sequences the calculus rejects. *)
Theorem C05_is_valid_string_always_true : forall t ks b,
  fdtable_is_valid_string t ks = Some b -> b = true.
Proof. exact fdtable_valid_true. Qed.
Print Assumptions C05_is_valid_string_always_true.

Theorem C05_is_valid_string_refuted : exists defs t ks xs,
  define_all fd_empty defs = Some t /\ Forall2 (symbol_meaning defs) ks xs /\
  accepted xs = false /\ fdtable_is_valid_string t ks = Some true.
Proof.
  exists [(3, B "@R.F.x@")]. eexists. exists [3], [Some (FR (B "F") (Some (B "x")))].
  split; [vm_compute; reflexivity|]. split.
  - repeat constructor. unfold symbol_meaning; simpl.
    apply (den_Rv (B "F") (B "x")). intros H; simpl in H; intuition discriminate.
  - vm_compute. tauto.
Qed.
Print Assumptions C05_is_valid_string_refuted.

(** The string overload relies on find_diacritic, which never finds anything. *)
Theorem C05_find_diacritic_never_finds : forall s, find_diacritic s = None.
Proof. exact find_diacritic_none. Qed.
Print Assumptions C05_find_diacritic_never_finds.
