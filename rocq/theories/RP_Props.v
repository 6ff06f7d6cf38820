(** hfst-repeat: property C162. *)
From Verif Require Import Base SF_Spec SF_Model SF_Props SF_Proofs5 SF_Proofs6 SF_Proofs7 SF_Proofs8 SF_Proofs9 RP_Spec RP_Model RP_Proofs.

Lemma empty_lang w : ~ lang empty_transducer w.
Proof. intros H. inversion H as [n Fi|n l m v Hi _]; subst; [discriminate Fi|destruct Hi]. Qed.
Lemma ta_not_empty : ~ lang ta [].
Proof.
  unfold lang. intros H. inversion H as [n Fi|n l m v Hi R E1 E2]; [discriminate Fi|].
  destruct Hi as [Hi|[]]. injection Hi as <- <-. discriminate E2.
Qed.

(** C162: the strings of the result are made of as many strings of the transducer as the options
    say.  Partial: --to=inf together with a --from other than 0 is refused, see below, and the
    numbers are at most [largest_count]. *)
Theorem C162_repeat_partial from to lo hi t :
  trans_ok t -> from_says from lo -> to_says to hi -> at_most lo hi ->
  (to = Some (Infinity false) -> lo = 0) ->
  exists r, hfst_repeat from to t = Ok r /\ forall w, lang r w <-> repeated (lang t) lo hi w.
Proof.
  intros T F O L Z0. unfold hfst_repeat, parse_options. destruct (from_options from lo F) as [-> Bf]. destruct (to_options to hi O) as [-> Bt].
  destruct hi as [k|].
  - cbn [at_most] in L. replace (Z.of_nat k <? Z.of_nat lo)%Z with false by (symmetry; apply Z.ltb_ge; lia). cbn [andb rbind].
    unfold repeat_one. cbn [from_infinity to_infinity least most]. rewrite (to_uint_id _ Bf), (to_uint_id _ Bt).
    destruct (between_result t (Z.of_nat lo) (Z.of_nat k) T) as (r & E & R); [lia|lia|]. exists r. rewrite !Nat2Z.id in R. auto.
  - assert (Q : exists m, match to with None => (UINT_MAX, true) | Some _ => (0%Z, true) end = (m, true) /\ (Z.of_nat lo <= m)%Z).
    { destruct to as [v|]; [|exists UINT_MAX; split; [reflexivity|unfold UINT_MAX, INT_MAX in *; lia]].
      exists 0%Z. split; [reflexivity|]. rewrite Z0; [lia|]. destruct v as [|[|]]; [destruct O|destruct O|reflexivity]. }
    destruct Q as (m & -> & Q). replace (m <? Z.of_nat lo)%Z with false by (symmetry; apply Z.ltb_ge; lia). cbn [andb rbind].
    unfold repeat_one. cbn [from_infinity to_infinity least most]. rewrite (to_uint_id _ Bf).
    destruct (plus_result t (Z.of_nat lo) T) as (r & E & R). exists r. rewrite Nat2Z.id in R. auto.
Qed.
Print Assumptions C162_repeat_partial.
(** Numbers in the wrong order are refused. *)
Theorem C162_order from to lo hi t : from_says from lo -> to_says to (Some hi) -> hi < lo -> hfst_repeat from to t = Throw.
Proof.
  intros F O L. unfold hfst_repeat, parse_options. destruct (from_options from lo F) as [-> _]. destruct (to_options to _ O) as [-> _].
  replace (Z.of_nat hi <? Z.of_nat lo)%Z with true by (symmetry; apply Z.ltb_lt; lia). reflexivity.
Qed.
Print Assumptions C162_order.
(** C162 is false of --from=N --to=inf for any positive N: it is refused. *)
Theorem C162_infinity_refuted v lo t : is_count v lo -> 0 < lo ->
  from_says (Some v) lo /\ to_says (Some (Infinity false)) None /\ hfst_repeat (Some v) (Some (Infinity false)) t = Throw.
Proof.
  intros F L. split; [exact F|]. split; [exact I|]. unfold hfst_repeat, parse_options. destruct (from_options (Some v) lo F) as [E _].
  cbn [hfst_strtonumber] in *. rewrite E. change (to_ulong 0) with 0%Z. replace (0 <? Z.of_nat lo)%Z with true by (symmetry; apply Z.ltb_lt; lia). reflexivity.
Qed.
Print Assumptions C162_infinity_refuted.
(** Nor is --to=-1 refused: the result accepts nothing at all. *)
Theorem C162_negative_refuted t : exists r, hfst_repeat None (Some (Fraction (-1) 1)) t = Ok r /\ forall w, ~ lang r w.
Proof.
  assert (E : hfst_repeat None (Some (Fraction (-1) 1)) t = concatenation epsilon_transducer empty_transducer) by reflexivity.
  destruct (C87_concatenate epsilon_transducer empty_transducer (single_ok false true) (single_ok false false)) as (r & E' & _ & L & _).
  exists r. rewrite E. split; [exact E'|]. intros w H. apply L in H. destruct H as (u & v & _ & _ & H). exact (empty_lang v H).
Qed.
Print Assumptions C162_negative_refuted.
(** Two or three strings of [ta]. *)
Example C162_witness : trans_ok ta /\ from_says (Some (Fraction 2 1)) 2 /\ to_says (Some (Fraction 3 1)) (Some 3) /\
  exists r, hfst_repeat (Some (Fraction 2 1)) (Some (Fraction 3 1)) ta = Ok r /\ lang r [(1, 1); (1, 1)] /\ lang r [(1, 1); (1, 1); (1, 1)] /\ ~ lang r [(1, 1)].
Proof.
  assert (F : from_says (Some (Fraction 2 1)) 2) by (cbn; unfold largest_count; lia).
  assert (O : to_says (Some (Fraction 3 1)) (Some 3)) by (cbn; unfold largest_count; lia).
  split; [exact ta_ok|]. split; [exact F|]. split; [exact O|].
  destruct (C162_repeat_partial _ _ 2 (Some 3) ta ta_ok F O) as (r & E & R); [cbn; lia|discriminate|]. exists r. split; [exact E|].
  assert (P1 : power (lang ta) 1 [(1, 1)]) by (apply power_1, ta_lang).
  assert (P2 : power (lang ta) 2 [(1, 1); (1, 1)]) by (exists [(1, 1)], [(1, 1)]; split; [reflexivity|]; split; [exact P1|exact ta_lang]).
  split; [apply R; exists 2; split; [lia|]; split; [cbn; lia|exact P2]|].
  split; [apply R; exists 3; split; [lia|]; split; [cbn; lia|]; exists [(1, 1); (1, 1)], [(1, 1)]; split; [reflexivity|]; split; [exact P2|exact ta_lang]|].
  intros H. apply R in H. destruct H as (n & G & _ & P).
  assert (K : forall n w, power (lang ta) n w -> n <= length w).
  { clear. induction n as [|n IH]; intros w P; [lia|]. destruct P as (u & v & -> & U & V). rewrite app_length. specialize (IH u U).
    enough (v <> []) by (destruct v; [congruence|cbn; lia]). intros ->. exact (ta_not_empty V). }
  specialize (K n _ P). cbn in K. lia.
Qed.
