(** Property C35: conversion of a basic transducer to the optimized-lookup tables. *)
From Coq Require Import Sorted Permutation NArith.
From Verif Require Import Base OrdMap Flags_Model BT_Model BT_Spec An_Model An_Props LK_Model OLF_Model OLC_Model OLL_Model OLC_Spec OLC_Proofs OLC_Proofs6 OLC_Proofs7.

(** C35: the tables represent the transducer.  Partial: the input sides contain no "@I.x@"
    symbols (the claim is false for them, see below), the encodings of the weights are
    faithful, and the tables have fewer than 2^31 entries. *)
Theorem C35_tables_partial : forall enc dec g weighted tr,
  structure_ok g -> no_insertions g -> faithful enc dec g ->
  to_ol enc g weighted = Ok tr -> small tr ->
  exists addr, represents dec tr g addr.
Proof. exact converted. Qed.
Print Assumptions C35_tables_partial.

Lemma symbol_table_size g : symbols_ok g -> specials_ok g -> NoDup (alpha g) -> length (symbol_table g) = length (alpha g).
Proof.
  intros S (E & _) N. apply Permutation_length, NoDup_Permutation; [apply symbol_table_NoDup|exact N|].
  intros x. rewrite symbol_table_In. split; [|tauto]. intros [->|[H|(a & Ha & H)]]; [exact E|exact H|].
  apply all_arcs_In in Ha. destruct Ha as (s & Ha). destruct (S s a Ha) as (H1 & H2). destruct H as [-> | ->]; assumption.
Qed.

(** C35: the conversion neither fails nor runs forever as long as there are at most 65535
    symbols ... *)
Theorem C35_converts : forall enc g weighted,
  well_formed g -> NoDup (alpha g) -> (N.of_nat (length (alpha g)) <= 65535)%N ->
  exists tr, to_ol enc g weighted = Ok tr.
Proof. intros enc g weighted (_ & S & P) N L. apply conversion_total. rewrite (symbol_table_size g S P N). exact L. Qed.
Print Assumptions C35_converts.

(** ... but with 65536 symbols, one more than the largest 16-bit number, it never returns ... *)
Theorem C35_diverges : forall enc g weighted,
  well_formed g -> NoDup (alpha g) -> N.of_nat (length (alpha g)) = 65536%N ->
  to_ol enc g weighted = Diverge.
Proof. intros enc g weighted (_ & S & P) N L. apply conversion_diverges. rewrite (symbol_table_size g S P N). exact L. Qed.
Print Assumptions C35_diverges.

(** ... and with more symbols it throws. *)
Theorem C35_throws : forall enc g weighted,
  well_formed g -> NoDup (alpha g) -> (65536 < N.of_nat (length (alpha g)))%N ->
  to_ol enc g weighted = Throw.
Proof.
  intros enc g weighted (_ & S & P) N L. unfold to_ol. rewrite (symbol_table_size g S P N).
  destruct (N.ltb_spec 65536 (N.of_nat (length (alpha g)))) as [_|C]; [reflexivity|lia].
Qed.
Print Assumptions C35_throws.

(** Weights as 32-bit patterns, for the examples. *)
Definition enc0 (w : Z) : N := Z.to_N (w + 1000).
Definition dec0 (n : N) : Z := (Z.of_N n - 1000)%Z.

(** Deciding the hypotheses on concrete transducers. *)
Definition symbols_of (l : list bstr) : list bstr :=
  fold_left (fun acc x => sadd bcmp x acc) (B "@_EPSILON_SYMBOL_@" :: B "@_UNKNOWN_SYMBOL_@" :: B "@_IDENTITY_SYMBOL_@" :: l) [].
Definition wf_b (g : graph) : bool :=
  forallb (forallb (fun a => smem bcmp (isy a) (alpha g) && smem bcmp (osy a) (alpha g))) (sts g)
  && smem bcmp (B "@_EPSILON_SYMBOL_@") (alpha g) && smem bcmp (B "@_UNKNOWN_SYMBOL_@") (alpha g)
  && smem bcmp (B "@_IDENTITY_SYMBOL_@") (alpha g).
Lemma state_In {P : arc -> bool} g : forallb (forallb P) (sts g) = true -> forall s a, In a (nth s (sts g) []) -> P a = true.
Proof.
  intros H s a Ha. rewrite forallb_forall in H. destruct (Nat.lt_ge_cases s (length (sts g))) as [L|L]; [|rewrite nth_overflow in Ha by exact L; destruct Ha].
  specialize (H _ (nth_In _ [] L)). rewrite forallb_forall in H. apply H, Ha.
Qed.
Lemma small_wf g : structure_ok g -> wf_b g = true -> well_formed g.
Proof.
  intros S H. unfold wf_b in H. rewrite !andb_true_iff in H. destruct H as (((H & H1) & H2) & H3).
  split; [exact S|]. split; [|split; [|split]; apply (smem_In bcmp bcmp_eq); assumption].
  intros s a Ha. pose proof (state_In g H s a Ha) as X. cbv beta in X. apply andb_true_iff in X.
  split; apply (smem_In bcmp bcmp_eq); apply X.
Qed.
Lemma small_faithful g :
  forallb (forallb (fun a => ((-1000 <=? wt a) && (wt a <? 1000))%Z)) (sts g) && forallb (fun q => ((-1000 <=? snd q) && (snd q <? 1000))%Z) (fin g) = true ->
  faithful enc0 dec0 g.
Proof.
  intros H. apply andb_true_iff in H. destruct H as (H1 & H2).
  assert (K : forall w, weight_in g w -> ((-1000 <=? w) && (w <? 1000))%Z = true).
  { intros w [(s & a & Ha & <-)|(s & Hs)]; [apply (state_In g H1 s a Ha)|].
    rewrite forallb_forall in H2. apply (H2 (s, w)).
    clear -Hs. induction (fin g) as [|[s' w'] f IH]; [discriminate|]. simpl in Hs. destruct (Nat.compare s s') eqn:C.
    - apply Nat.compare_eq in C. subst s'. injection Hs as <-. left. reflexivity.
    - right. apply IH, Hs.
    - right. apply IH, Hs. }
  intros w Hw. specialize (K w Hw). apply andb_true_iff in K. destruct K as (K1 & K2). apply Z.leb_le in K1. apply Z.ltb_lt in K2.
  unfold enc0, dec0. split; [rewrite Z2N.id; lia|lia].
Qed.
Lemma small_no_insertions g : forallb (forallb (fun a => negb (is_insertion (isy a)))) (sts g) = true -> no_insertions g.
Proof.
  intros H s a Ha I. pose proof (state_In g H s a Ha) as X. cbv beta in X. rewrite (insertion_detected _ I) in X. discriminate.
Qed.
Lemma small_nodup (l : list bstr) : (fix go l := match l with [] => true | x :: r => negb (existsb (bstr_eqb x) r) && go r end) l = true -> NoDup l.
Proof.
  induction l as [|x r IH]; intros H; constructor; apply andb_true_iff in H; destruct H as (H1 & H2).
  - intros C. apply negb_true_iff in H1. assert (X : existsb (bstr_eqb x) r = true) by (apply existsb_exists; exists x; split; [exact C|apply bstr_eqb_refl]). congruence.
  - apply IH, H2.
Qed.

(** C35 without the restriction is false: the arcs of a state are written sorted with "@I.x@"
    symbols among the flags, but lookup stops at the first entry that is neither epsilon nor a
    flag, so the flag arc behind it is lost. *)
Definition ins_ex : graph :=
  Graph [[Arc 1 (B "@P.F.V@") (B "@P.F.V@") 0; Arc 1 (B "@I.x@") (B "@I.x@") 0]; []] [(1, 0%Z)]
    (symbols_of [B "@P.F.V@"; B "@I.x@"]).
Theorem C35_insertion_refuted : exists enc dec g tr,
  well_formed g /\ faithful enc dec g /\ to_ol enc g true = Ok tr /\ small tr /\ forall addr, ~ represents dec tr g addr.
Proof.
  exists enc0, dec0, ins_ex. destruct (to_ol enc0 ins_ex true) as [tr| | |] eqn:E; vm_compute in E; try discriminate E.
  injection E as E. exists tr.
  split; [apply small_wf; [apply small_structure; [reflexivity|discriminate]|vm_compute; reflexivity]|].
  split; [apply small_faithful; vm_compute; reflexivity|]. split; [reflexivity|].
  subst tr. split; [split; vm_compute; reflexivity|]. intros addr R.
  destruct (rep_free _ _ _ _ R 0 ltac:(vm_compute; lia)) as (hit & es & l & E1 & P & F & _).
  rewrite (rep_start _ _ _ _ R) in E1. vm_compute in E1. injection E1 as _ <-. inversion F; subst.
  apply Permutation_length in P. vm_compute in P. discriminate.
Qed.
Print Assumptions C35_insertion_refuted.

(** ** Witnesses *)
(** 0 -a:b/1-> 1, 0 -eps:x/2-> 0, 0 -a:c/3-> 2, 0 -flag-> 1, 1 -b:b-> 2, 1 -a:a-> 0; 1 and 2 are final. *)
Definition olc_ex : graph :=
  Graph [[Arc 1 (B "a") (B "b") 1; Arc 0 (B "@_EPSILON_SYMBOL_@") (B "x") 2; Arc 2 (B "a") (B "c") 3; Arc 1 (B "@P.F.V@") (B "@P.F.V@") 4];
         [Arc 2 (B "b") (B "b") 0; Arc 0 (B "a") (B "a") 0]; []] [(1, 5%Z); (2, (-6)%Z)]
    (symbols_of [B "a"; B "b"; B "c"; B "x"; B "@P.F.V@"]).
Example C35_witness : exists tr,
  well_formed olc_ex /\ no_insertions olc_ex /\ faithful enc0 dec0 olc_ex /\ NoDup (alpha olc_ex)
  /\ to_ol enc0 olc_ex true = Ok tr /\ small tr
  /\ length (t_index (tr_tables tr)) = 10 /\ length (t_trans (tr_tables tr)) = 9.
Proof.
  destruct (to_ol enc0 olc_ex true) as [tr| | |] eqn:E; vm_compute in E; try discriminate E.
  injection E as E. exists tr.
  split; [apply small_wf; [apply small_structure; [reflexivity|discriminate]|vm_compute; reflexivity]|].
  split; [apply small_no_insertions; vm_compute; reflexivity|].
  split; [apply small_faithful; vm_compute; reflexivity|].
  split; [apply small_nodup; vm_compute; reflexivity|]. split; [reflexivity|]. subst tr.
  split; [split; vm_compute; reflexivity|]. split; vm_compute; reflexivity.
Qed.

(** There are transducers of every size, in particular with 65536 symbols and more. *)
Example C35_sizes_witness : forall n, exists g, well_formed g /\ NoDup (alpha g) /\ length (alpha g) = 3 + n.
Proof.
  intros n. set (l := map (fun k => repeat "a"%char (S k)) (seq 0 n)).
  exists (Graph [[]] [] (B "@_EPSILON_SYMBOL_@" :: B "@_UNKNOWN_SYMBOL_@" :: B "@_IDENTITY_SYMBOL_@" :: l)). cbn [alpha].
  assert (NI : forall c x, c <> "a"%char -> ~ In (c :: x) l).
  { intros c x D H. apply in_map_iff in H. destruct H as (k & H & _). cbn [repeat] in H. congruence. }
  split; [|split].
  - split; [apply small_structure; [reflexivity|discriminate]|]. split; [|split; [|split]; cbn [alpha]; simpl; tauto].
    intros s a Ha. destruct s as [|[|s]]; destruct Ha.
  - constructor; [intros [H|[H|H]]; [discriminate H|discriminate H|]; exact (NI "@"%char _ ltac:(discriminate) H)|].
    constructor; [intros [H|H]; [discriminate H|]; exact (NI "@"%char _ ltac:(discriminate) H)|].
    constructor; [intros H; exact (NI "@"%char _ ltac:(discriminate) H)|].
    apply FinFun.Injective_map_NoDup; [|apply seq_NoDup]. intros j k E. apply (f_equal (@length ascii)) in E. rewrite !repeat_length in E. lia.
  - cbn [length]. unfold l. rewrite map_length, seq_length. reflexivity.
Qed.
