(** hfst-split and hfst-multiply: properties C172 and C173. *)
From Verif Require Import Base BT_Model ATT_Model ATT_Proofs IN_Spec IN_Model IN_Proofs SX_Spec SX_Model SX_Proofs.
From Coq Require Import NArith ZArith Lia.
Close Scope Z_scope.

(** C172: hfst-split writes the i-th transducer of the archive, alone, to the file numbered i, and
    touches no other file. *)
Theorem C172_split {T} prefix ext (l : list T) (fs : bstr -> option (list T)) :
  (forall i t, nth_error l i = Some t -> exists name, numbered prefix ext (i + 1) name /\ hfst_split prefix ext l fs name = Some [t]) /\
  (forall name, (forall i, 1 <= i <= length l -> ~ numbered prefix ext i name) -> hfst_split prefix ext l fs name = fs name).
Proof.
  unfold hfst_split. change 0%N with (N.of_nat 0). split.
  - intros i t H. exists (out_name prefix ext (N.of_nat (0 + i + 1))). split; [apply (print_nat_numbered prefix ext (i + 1)); lia|]. apply split_nth, H.
  - intros name H. apply split_other. intros i I E. apply (H i); [lia|]. rewrite E. apply print_nat_numbered. lia.
Qed.
Print Assumptions C172_split.
(** The name and its final NUL fit into the room allocated, whatever the number (64 bits). *)
Theorem C172_room prefix ext n : (n < 2 ^ 64)%N -> length (out_name prefix ext n) + 1 <= out_room prefix ext.
Proof.
  intros H. unfold out_name, out_room. rewrite !app_length. change (length (B "123456789012345678901234567890")) with 30.
  assert (L : length (print_nat n) <= 20); [|lia]. apply print_nat_length; [|lia].
  change (N.of_nat 20) with 20%N. eapply N.lt_trans; [exact H|reflexivity].
Qed.
Print Assumptions C172_room.
Example C172_witness : let fs := hfst_split (B "p") (B ".hfst") [7; 8; 9] (fun x => if bstr_eqb x (B "old") then Some [1] else None) in
  fs (B "p1.hfst") = Some [7] /\ fs (B "p2.hfst") = Some [8] /\ fs (B "p3.hfst") = Some [9] /\ fs (B "p4.hfst") = None /\ fs (B "old") = Some [1].
Proof. repeat split. Qed.

(** C173: hfst-multiply writes every transducer of the archive as often as it is told, in order.
    Partial: up to 2^32 - 1 times. *)
Theorem C173_multiply_partial {T} number k (l out : list T) : decimal number (N.of_nat k) -> (N.of_nat k < 2 ^ 32)%N ->
  (hfst_multiply number l out <-> each_repeated k l out).
Proof.
  intros D B. unfold hfst_multiply. rewrite <- (app_nil_r number).
  rewrite (strtoul_decimal number (N.of_nat k) []); [|exact D|eapply N.lt_trans; [exact B|reflexivity]|exact I].
  rewrite nat_N_Z. rewrite multiply_small; [tauto|]. change (2 ^ 32)%Z with (Z.of_N (2 ^ 32)). lia.
Qed.
Print Assumptions C173_multiply_partial.
(** Such a run exists. *)
Theorem C173_ends {T} number k (l : list T) : decimal number (N.of_nat k) -> (N.of_nat k < 2 ^ 32)%N -> exists out, hfst_multiply number l out.
Proof.
  intros D B. exists (concat (map (fun t => repeat t k) l)). apply (C173_multiply_partial number k l _ D B).
  exists (map (fun t => repeat t k) l). split; [|reflexivity]. induction l as [|t l IH]; constructor; [apply repeat_each; reflexivity|exact IH].
Qed.
Print Assumptions C173_ends.
(** From 2^32 on the counter wraps around and the tool writes without end. *)
Theorem C173_endless_refuted {T} number n (t : T) l out : decimal number n -> (2 ^ 32 <= n < 2 ^ 64)%N -> ~ hfst_multiply number (t :: l) out.
Proof.
  intros D [B1 B2]. unfold hfst_multiply. rewrite <- (app_nil_r number). rewrite (strtoul_decimal number n []); [|exact D|exact B2|exact I].
  intros [_ H]. inversion H as [|? ? o r DU M]; subst. apply (duplicate_large _ _ _ _ DU); [|lia]. change (2 ^ 32)%Z with (Z.of_N (2 ^ 32)). lia.
Qed.
Print Assumptions C173_endless_refuted.
(** A negative number is not refused: the tool writes without end. *)
Theorem C173_negative_refuted {T} (t : T) l out : strtoul (B "-1") = (2 ^ 64 - 1, [])%Z /\ ~ hfst_multiply (B "-1") (t :: l) out.
Proof.
  split; [reflexivity|]. unfold hfst_multiply. replace (strtoul (B "-1")) with (2 ^ 64 - 1, @nil ascii)%Z by reflexivity.
  intros [_ H]. inversion H as [|? ? o r DU M]; subst. apply (duplicate_large _ _ _ _ DU); lia.
Qed.
Print Assumptions C173_negative_refuted.
(** A number with something after it is refused. *)
Theorem C173_trailing {T} a n c r (l out : list T) : decimal a n -> (n < 2 ^ 64)%N -> digit_value c = None -> ~ hfst_multiply (a ++ c :: r) l out.
Proof.
  intros D B N. unfold hfst_multiply. rewrite (strtoul_decimal a n (c :: r) D B N). intros [E _]. discriminate E.
Qed.
Print Assumptions C173_trailing.
Example C173_witness : decimal (B "2") (N.of_nat 2) /\ hfst_multiply (B "2") [7; 8] [7; 7; 8; 8].
Proof.
  assert (D : decimal (B "2") (N.of_nat 2)) by (apply (dec_one _ 2); split; [lia|reflexivity]). split; [exact D|].
  apply (C173_multiply_partial (B "2") 2); [exact D|reflexivity|]. exists [[7; 7]; [8; 8]]. split; [|reflexivity].
  constructor; [split; auto|]. constructor; [split; auto|]. constructor.
Qed.
