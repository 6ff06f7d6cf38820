(** Proofs about hfst-repeat. *)
From Verif Require Import Base SF_Spec SF_Model SF_Props RP_Spec RP_Model.

Lemma power_app A n m w : power A (n + m) w <-> exists u v, w = u ++ v /\ power A n u /\ power A m v.
Proof.
  revert w. induction m as [|m IH]; intros w.
  - rewrite Nat.add_0_r. split; [intros H; exists w, []; rewrite app_nil_r; cbn; auto|intros (u & v & -> & H & E)].
    cbn in E. subst v. rewrite app_nil_r. exact H.
  - rewrite Nat.add_succ_r. cbn [power]. split.
    + intros (x & y & -> & P & Y). apply IH in P. destruct P as (u & v & -> & U & V). exists u, (v ++ y). rewrite app_assoc.
      split; [reflexivity|]. split; [exact U|]. exists v, y. auto.
    + intros (u & v & -> & U & (v1 & v2 & -> & V1 & V2)). exists (u ++ v1), v2. rewrite app_assoc. split; [reflexivity|].
      split; [|exact V2]. apply IH. exists u, v1. auto.
Qed.
Lemma power_1 A w : power A 1 w <-> A w.
Proof.
  cbn. split; [intros (u & v & -> & -> & H); exact H|]. intros H. exists [], w. auto.
Qed.
Lemma star_power A w : star A w <-> exists n, power A n w.
Proof.
  split.
  - induction 1 as [|u v U S (n & P)]; [exists 0; reflexivity|]. exists (1 + n). apply power_app. exists u, v.
    split; [reflexivity|]. split; [apply power_1, U|exact P].
  - intros (n & P). revert w P. induction n as [|n IH]; intros w P; [cbn in P; subst; constructor|].
    apply (power_app A 1 n) in P. destruct P as (u & v & -> & U & V). apply (power_1 A) in U. constructor; [exact U|apply IH, V].
Qed.

Lemma plus_result t n : trans_ok t -> exists r, repeat_n_plus t n = Ok r /\ forall w, lang r w <-> repeated (lang t) (Z.to_nat n) None w.
Proof.
  intros T. unfold repeat_n_plus. destruct (C88_n t (Z.to_nat n) T) as (a & E & Ta & La). destruct (C88_star t T) as (s & E' & Ts & Ls & _).
  destruct (C87_concatenate a s Ta Ts) as (r & E'' & _ & Lr & _). exists r. rewrite E. cbn [rbind]. rewrite E'. cbn [rbind].
  split; [exact E''|]. intros w. rewrite Lr. split.
  - intros (u & v & -> & U & V). apply La in U. apply Ls, star_power in V. destruct V as (m & V). exists (Z.to_nat n + m).
    split; [lia|]. split; [exact I|]. apply power_app. exists u, v. auto.
  - intros (m & G & _ & P). replace m with (Z.to_nat n + (m - Z.to_nat n)) in P by lia. apply power_app in P.
    destruct P as (u & v & -> & U & V). exists u, v. split; [reflexivity|]. split; [apply La, U|]. apply Ls, star_power. eauto.
Qed.
Lemma to_uint_id z : (0 <= z <= INT_MAX)%Z -> to_uint z = z.
Proof. unfold INT_MAX, to_uint. intros H. apply Z.mod_small. lia. Qed.
Lemma to_ulong_id z : (0 <= z <= INT_MAX)%Z -> to_ulong z = z.
Proof. unfold INT_MAX, to_ulong. intros H. apply Z.mod_small. lia. Qed.
Lemma between_result t n k : trans_ok t -> (0 <= n <= k)%Z -> (k <= INT_MAX)%Z ->
  exists r, repeat_n_to_k t n k = Ok r /\ forall w, lang r w <-> repeated (lang t) (Z.to_nat n) (Some (Z.to_nat k)) w.
Proof.
  intros T H K. unfold repeat_n_to_k. destruct (C88_n t (Z.to_nat n) T) as (a & E & Ta & La).
  rewrite to_uint_id by lia. unfold repeat_n_minus. replace (k - n =? UINT_MAX)%Z with false by (symmetry; apply Z.eqb_neq; unfold UINT_MAX, INT_MAX in *; lia).
  destruct (C88_le_n t (Z.to_nat (k - n)) T) as (s & E' & Ts & Ls).
  destruct (C87_concatenate a s Ta Ts) as (r & E'' & _ & Lr & _). exists r. rewrite E. cbn [rbind]. rewrite E'. cbn [rbind].
  split; [exact E''|]. intros w. rewrite Lr. split.
  - intros (u & v & -> & U & V). apply La in U. apply Ls in V. destruct V as (m & M & V). exists (Z.to_nat n + m).
    split; [lia|]. split; [cbn; lia|]. apply power_app. exists u, v. auto.
  - intros (m & G & M & P). cbn in M. replace m with (Z.to_nat n + (m - Z.to_nat n)) in P by lia. apply power_app in P.
    destruct P as (u & v & -> & U & V). exists u, v. split; [reflexivity|]. split; [apply La, U|]. apply Ls. exists (m - Z.to_nat n). split; [lia|exact V].
Qed.
Lemma strtonumber_count v n : is_count v n -> hfst_strtonumber v = (Z.of_nat n, false) /\ (0 <= Z.of_nat n <= INT_MAX)%Z.
Proof.
  destruct v as [p q|]; [|intros []]. intros [-> H]. change largest_count with INT_MAX in H. split; [|lia]. unfold hfst_strtonumber.
  replace (INT_MAX * Z.pos q <? Z.of_nat n * Z.pos q)%Z with false by (symmetry; apply Z.ltb_ge; nia).
  replace (Z.of_nat n * Z.pos q <? INT_MIN * Z.pos q)%Z with false by (symmetry; apply Z.ltb_ge; unfold INT_MIN; nia).
  rewrite Z.div_mul by lia. reflexivity.
Qed.
Lemma from_options from lo : from_says from lo ->
  match from with None => (0%Z, false) | Some v => let (n, i) := hfst_strtonumber v in (to_ulong n, i) end = (Z.of_nat lo, false) /\
  (0 <= Z.of_nat lo <= INT_MAX)%Z.
Proof.
  destruct from as [v|]; cbn [from_says]; intros H.
  - destruct (strtonumber_count v lo H) as [-> B]. rewrite to_ulong_id by exact B. auto.
  - subst lo. split; [reflexivity|]. unfold INT_MAX. lia.
Qed.
Lemma to_options to hi : to_says to hi ->
  match to with None => (UINT_MAX, true) | Some v => let (n, i) := hfst_strtonumber v in (to_ulong n, i) end =
  match hi with Some k => (Z.of_nat k, false) | None => match to with None => (UINT_MAX, true) | Some _ => (0%Z, true) end end /\
  match hi with Some k => (0 <= Z.of_nat k <= INT_MAX)%Z | None => True end.
Proof.
  destruct to as [v|]; destruct hi as [k|]; cbn [to_says]; intros H.
  - assert (C : is_count v k) by (destruct v as [|[|]]; exact H). destruct (strtonumber_count v k C) as [-> B]. rewrite to_ulong_id by exact B. auto.
  - destruct v as [|[|]]; [destruct H|destruct H|]. split; [reflexivity|exact I].
  - destruct H.
  - auto.
Qed.
