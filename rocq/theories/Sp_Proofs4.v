(** Proofs about the spell checker: the alphabet translator, termination of the search for corrections. *)
From Coq Require Import Permutation NArith.
From Verif Require Import Base OrdMap Flags_Model Flags_Spec Flags_Proofs BT_Model BT_Spec OLF_Model OLC_Model OLC_Spec OLC_Proofs OLC_Proofs5 OLL_Model OLL_Spec OLL_Proofs OLL_Proofs2 OLL_Proofs3 Sp_Model Sp_Spec Sp_Proofs Sp_Proofs2 Sp_Proofs3.
From Verif Require Import Tok_Model Tok_Spec Tok_Proofs.
From Verif Require An_Spec.

(** * The alphabet translator *)
Lemma symbol_map_fold l : forall m0 i0 x,
  match mget bcmp x (fst (fold_left (fun '(m, i) x => (mset bcmp x i m, (i + 1)%N)) l (m0, i0))) with
  | Some j => (exists k, nth_error l k = Some x /\ j = (i0 + N.of_nat k)%N) \/ mget bcmp x m0 = Some j
  | None => ~ In x l /\ mget bcmp x m0 = None
  end.
Proof.
  induction l as [|y l IH]; intros m0 i0 x; cbn [fold_left fst].
  - destruct (mget bcmp x m0); [right; reflexivity|split; [intros []|reflexivity]].
  - specialize (IH (mset bcmp y i0 m0) (i0 + 1)%N x). destruct (mget bcmp x (fst _)) as [j|].
    + destruct IH as [(k & Ek & ->)|M]; [left; exists (S k); split; [exact Ek|lia]|]. destruct (bstr_eqb_spec x y) as [-> |Ne].
      * rewrite (mget_mset_same _ bcmp_eq) in M. injection M as <-. left. exists 0. split; [reflexivity|lia].
      * rewrite (mget_mset_other _ bcmp_eq) in M by congruence. auto.
    + destruct IH as (Ni & M). destruct (bstr_eqb_spec x y) as [-> |Ne]; [rewrite (mget_mset_same _ bcmp_eq) in M; discriminate|].
      rewrite (mget_mset_other _ bcmp_eq) in M by congruence. split; [intros [->|H]; [congruence|auto]|exact M].
Qed.
Lemma symbol_map_spec l x : match mget bcmp x (string_symbol_map l) with Some j => nth_error l (N.to_nat j) = Some x | None => ~ In x l end.
Proof.
  pose proof (symbol_map_fold l [] 0%N x) as H. unfold string_symbol_map. destruct (mget bcmp x (fst _)) as [j|].
  - destruct H as [(k & Ek & ->)|C]; [|discriminate]. rewrite N.add_0_l, Nat2N.id. exact Ek.
  - exact (proj1 H).
Qed.
Lemma translator_loop_spec from to l : forall i tr, translator_loop from to i l = Ok tr -> forall k y, nth_error l k = Some y -> y <> [] ->
  is_flag_symbol from (i + N.of_nat k) = false -> (i + N.of_nat k)%N <> a_unknown from -> exists j, nth_error tr k = Some j /\ mget bcmp y to = Some j.
Proof.
  induction l as [|x l IH]; intros i tr E k y Ek Ny NFl NU; [destruct k; discriminate|]. cbn [translator_loop] in E. destruct k as [|k].
  - injection Ek as ->. replace (i + N.of_nat 0)%N with i in * by lia. rewrite NFl, (proj2 (N.eqb_neq _ _) NU) in E. cbn [orb] in E.
    destruct (mget bcmp y to) as [j|]; [|destruct y; [congruence|discriminate]]. destruct (translator_loop from to (i + 1) l) as [r| | |]; cbn [rmap rbind] in E; try discriminate.
    injection E as <-. exists j. auto.
  - replace (i + N.of_nat (S k))%N with (i + 1 + N.of_nat k)%N in * by lia.
    assert (X : exists z r, translator_loop from to (i + 1) l = Ok r /\ tr = z :: r).
    { destruct (is_flag_symbol from i || (i =? a_unknown from)%N); [|destruct (mget bcmp x to); [|destruct x; [|discriminate]]];
      destruct (translator_loop from to (i + 1) l) as [r| | |]; cbn [rmap rbind] in E; try discriminate; injection E as <-; eauto. }
    destruct X as (z & r & Er & ->). exact (IH _ _ Er k y Ek Ny NFl NU).
Qed.

Section Translator.
  Variables (dec : N -> Z) (tr : transducer) (g : graph) (trm : transducer) (m : graph) (addrm : nat -> N).
  Hypothesis RM : represents dec trm m addrm.
  Let names := a_table (tr_alphabet tr).
  Let namesm := a_table (tr_alphabet trm).
  Hypothesis HAM : alphabet_of_table namesm = Ok (tr_alphabet trm).
  Hypothesis HsmallM : (N.of_nat (length namesm) < 32767)%N.
  Hypothesis HsymM : forall x, In x namesm -> x <> [] /\ no_nul x.

  Lemma translator_spec translator : build_alphabet_translator (tr_alphabet trm) (tr_alphabet tr) = Ok translator ->
    forall k y, nth_error namesm k = Some y -> input_symbol g y -> y <> UNKNOWN ->
    exists j, nth_error translator k = Some j /\ nth_error names (N.to_nat j) = Some y.
  Proof.
    intros E k y Ek Iy Nu. destruct k as [|k].
    { unfold namesm in Ek. rewrite (rep_epsilon _ _ _ _ RM) in Ek. injection Ek as <-. destruct Iy as (s & a & _ & _ & C). discriminate C. }
    unfold build_alphabet_translator in E. fold names namesm in E. destruct namesm as [|x0 l] eqn:En; [discriminate|]. cbn [tl nth_error] in *.
    destruct (translator_loop _ _ 1 l) as [r| | |] eqn:El; cbn [rmap rbind] in E; try discriminate. injection E as <-.
    assert (NDm : NoDup (x0 :: l)) by (rewrite <- En; exact (rep_names _ _ _ _ RM)).
    destruct (translator_loop_spec _ _ _ _ _ El k y Ek) as (j & Ej & Mj).
    - apply HsymM. right. exact (nth_error_In _ _ Ek).
    - replace (1 + N.of_nat k)%N with (N.of_nat (S k)) by lia. rewrite (flag_symbol_spec (x0 :: l) _ (S k) HAM NDm). cbn [nth_error]. rewrite Ek.
      destruct Iy as (s & a & _ & _ & Fr). unfold free_input in Fr. apply orb_false_iff in Fr. apply Fr.
    - destruct (alphabet_of_table_Ok (x0 :: l) _ HAM NDm) as (_ & _ & _ & _ & U & _). rewrite U. destruct (position UNK (x0 :: l)) as [u|] eqn:Pu.
      + intros C. assert (u = S k) by lia. subst u. apply position_nth in Pu. cbn [nth_error] in Pu. apply Nu. change UNK with UNKNOWN in Pu. congruence.
      + intros C. assert (L : k < length l) by (apply nth_error_Some; congruence). cbn [length] in HsmallM. change OLF_Model.NO_SYMBOL with 65535%N in C. lia.
    - exists j. split; [exact Ej|]. pose proof (symbol_map_spec names y) as S. rewrite Mj in S. exact S.
  Qed.

  (** Tokens are numbered as the error model reads them. *)
  Lemma tokm_of k x : numbered trm m (a_unknown (tr_alphabet trm)) k x -> x <> EPSILON -> input_symbol m x \/ input_symbol m UNKNOWN -> tokm trm m k x.
  Proof.
    intros [([Ix|Ex] & Ek)|(Nx & -> & No)] Ne Hx; [|contradiction|].
    - exists x. split; [left; auto|]. split; assumption.
    - assert (Nx' : ~ input_symbol m x) by (intros C; apply Nx; left; exact C). destruct Hx as [C|Iu]; [contradiction|]. exists UNKNOWN. split; [right; auto|]. split; [exact Iu|].
      destruct (alphabet_of_table_Ok namesm _ HAM (rep_names _ _ _ _ RM)) as (_ & _ & _ & _ & U & _). rewrite U in *. destruct (position UNK namesm) as [u|] eqn:Pu; [|congruence].
      rewrite Nat2N.id. exact (position_nth _ _ _ Pu).
  Qed.
  Lemma unknown_numbered : input_symbol m UNKNOWN -> a_unknown (tr_alphabet trm) <> OLF_Model.NO_SYMBOL.
  Proof.
    intros Iu. destruct (alphabet_of_table_Ok namesm _ HAM (rep_names _ _ _ _ RM)) as (_ & _ & _ & _ & U & _). rewrite U.
    destruct (proj2 (rep_inputs _ _ _ _ RM UNKNOWN) Iu) as (k & Ek & _). apply nth_error_In in Ek. fold namesm in Ek. destruct (position_In _ _ Ek) as (u & Pu).
    change UNK with UNKNOWN. rewrite Pu. apply position_nth in Pu. assert (L : u < length namesm) by (apply nth_error_Some; congruence).
    change OLF_Model.NO_SYMBOL with 65535%N. lia.
  Qed.
End Translator.

(** * Termination *)
Definition trail (h : graph) (v : list nat) (s : nat) : Prop :=
  NoDup v /\ (forall x, In x v -> x < length (sts h)) /\ forall x, In x v -> exists c, path h x c s /\ Forall An_Spec.free_arc c.
Lemma trail_start h s : s < length (sts h) -> trail h [s] s.
Proof. intros L. split; [constructor; [intros []|constructor]|]. split; [intros x [<- |[]]; exact L|]. intros x [<- |[]]. exists []. split; constructor. Qed.
Lemma trail_step h v s a : structure_ok h -> (forall q c, ~ An_Spec.cycle An_Spec.free_arc h q c) -> trail h v s -> In a (nth s (sts h) []) -> An_Spec.free_arc a ->
  trail h (tgt a :: v) (tgt a) /\ S (length v) <= length (sts h).
Proof.
  intros HS Cy (ND & Bd & Ps) Ha Fa. assert (Ht : tgt a < length (sts h)) by exact (proj1 (proj2 HS) s a Ha).
  assert (Ni : ~ In (tgt a) v).
  { intros H. destruct (Ps (tgt a) H) as (c & P & Fc). apply (Cy (tgt a) (c ++ [a])). split; [destruct c; discriminate|]. split; [exact (path_snoc _ _ _ _ _ P Ha)|].
    apply Forall_app. split; [exact Fc|]. constructor; [exact Fa|constructor]. }
  assert (ND' : NoDup (tgt a :: v)) by (constructor; assumption). split.
  - split; [exact ND'|]. split; [intros x [<- |Hx]; [exact Ht|exact (Bd x Hx)]|]. intros x [<- |Hx]; [exists []; split; constructor|].
    destruct (Ps x Hx) as (c & P & Fc). exists (c ++ [a]). split; [exact (path_snoc _ _ _ _ _ P Ha)|]. apply Forall_app. split; [exact Fc|]. constructor; [exact Fa|constructor].
  - assert (Lv : length (tgt a :: v) <= length (seq 0 (length (sts h)))) by (apply NoDup_incl_length; [exact ND'|]; intros x [<- |Hx]; apply in_seq; [lia|specialize (Bd x Hx); lia]).
    rewrite seq_length in Lv. exact Lv.
Qed.

Section Ends.
  Variables (g m : graph).
  Hypothesis HS : structure_ok g.
  Hypothesis HSM : structure_ok m.
  Hypothesis Cy : forall q c, ~ An_Spec.cycle An_Spec.free_arc g q c.
  Hypothesis CyM : forall q c, ~ An_Spec.cycle An_Spec.free_arc m q c.
  Let L := length (sts g).
  Let M := length (sts m).
  Definition meas (ts : list bstr) (vm vl : list nat) : nat := length ts * (S M * S L) + (M - length vm) * S L + (L - length vl).
  Lemma step3_drops p q e ts p' q' e' ts' w o vm vl : step3 g m (p, q, e, ts) (p', q', e', ts') w o -> trail m vm p -> trail g vl q -> q < length (sts g) ->
    exists vm' vl', trail m vm' p' /\ trail g vl' q' /\ q' < length (sts g) /\ meas ts' vm' vl' < meas ts vm vl.
  Proof.
    intros St Tm Tg Hq.
    assert (Jb : forall y, jstep g (arcs_of m p y) q p' q' w o -> (exists a, In a (nth p (sts m) []) /\ isy a = y /\ p' = tgt a) /\ q' < length (sts g)).
    { intros y J. split.
      - destruct J as [(a & Ha & _ & -> & _)|(a & b & Ha & _ & _ & _ & -> & _)]; apply arcs_of_spec in Ha; exists a; split; try apply Ha; split; try reflexivity; apply Ha.
      - destruct J as [(a & Ha & _ & _ & -> & _)|(a & b & _ & Hb & _ & _ & _ & -> & _)]; [exact Hq|exact (proj1 (proj2 HS) q b Hb)]. }
    destruct St as [(b & Hb & Fs & -> & -> & -> & _)|[(J & _ & ->)|(x & y & -> & _ & J & _)]].
    - destruct (trail_step g vl q b HS Cy Tg Hb (free_step_arc _ _ _ Fs)) as (T' & Lt). exists vm, (tgt b :: vl). split; [exact Tm|]. split; [exact T'|].
      split; [exact (proj1 (proj2 HS) q b Hb)|]. unfold meas. cbn [length]. unfold L. lia.
    - destruct (Jb _ J) as ((a & Ha & Ei & ->) & Hq'). destruct (trail_step m vm p a HSM CyM Tm Ha (or_introl Ei)) as (T' & Lt). exists (tgt a :: vm), [q'].
      split; [exact T'|]. split; [apply trail_start, Hq'|]. split; [exact Hq'|]. unfold meas. cbn [length]. fold M in Lt.
      replace (M - length vm) with (S (M - S (length vm))) by lia. cbn [Nat.mul]. lia.
    - destruct (Jb _ J) as ((a & Ha & Ei & ->) & Hq'). exists [tgt a], [q'].
      split; [apply trail_start; exact (proj1 (proj2 HSM) p a Ha)|]. split; [apply trail_start, Hq'|]. split; [exact Hq'|]. unfold meas. cbn [length].
      assert ((M - 1) * S L <= M * S L) by (apply Nat.mul_le_mono_r; lia). cbn [Nat.mul]. set (u := (M - length vm) * S L). set (v := (M - 1) * S L) in *. set (z := M * S L) in *. set (t := length ts' * _). lia.
  Qed.
  Lemma low3_bound d : forall p q e ts vm vl, trail m vm p -> trail g vl q -> q < length (sts g) -> meas ts vm vl <= d -> low3 g m d (p, q, e, ts).
  Proof.
    induction d as [|d IH]; intros p q e ts vm vl Tm Tg Hq Ms.
    - intros (((p' & q') & e') & ts') w o St. destruct (step3_drops _ _ _ _ _ _ _ _ _ _ vm vl St Tm Tg Hq) as (vm' & vl' & _ & _ & _ & Lt). lia.
    - intros (((p' & q') & e') & ts') w o St. destruct (step3_drops _ _ _ _ _ _ _ _ _ _ vm vl St Tm Tg Hq) as (vm' & vl' & T1 & T2 & H3 & Lt).
      apply (IH p' q' e' ts' vm' vl' T1 T2 H3). lia.
  Qed.
End Ends.
