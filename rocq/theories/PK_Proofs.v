From Verif Require Import Base OrdMap BT_Model BT_Spec BT_Proofs Str_Model Str_Spec Str_Proofs ATT_Model ATT_Spec ATT_Proofs IN_Spec IN_Proofs SX_Proofs SU_Proofs PK_Spec PK_Model.
From Coq Require Import Lia NArith ZArith Sorted.
Close Scope Z_scope.

Lemma count_width_spec n w : width_of n w -> forall f j, j <= w -> w - j <= f -> count_width f (10 ^ N.of_nat j) n = w - j.
Proof.
  intros [U L]. induction f as [|f IH]; intros j J F; cbn [count_width]; [lia|].
  destruct (N.ltb_spec (10 ^ N.of_nat j) n) as [H|H].
  - assert (j <> w) by (intros ->; lia). replace (10 ^ N.of_nat j * 10)%N with (10 ^ N.of_nat (S j))%N by (rewrite Nat2N.inj_succ, N.pow_succ_r'; lia).
    rewrite IH by lia. lia.
  - destruct (Nat.eq_dec j w) as [->|N]; [lia|]. specialize (L j ltac:(lia)). lia.
Qed.
Lemma numwidth_spec n w : width_of n w -> w <= 9 -> numwidth n = w.
Proof.
  intros W B. unfold numwidth. change 1%N with (10 ^ N.of_nat 0)%N. rewrite (count_width_spec n w W) by lia. lia.
Qed.

Lemma zeros k : Forall is_digit (repeat "0"%char k) /\ value (repeat "0"%char k) 0 = 0%N.
Proof.
  induction k as [|k [F V]]; cbn [repeat]; [split; [constructor|reflexivity]|]. split.
  - constructor; [exists 0%N; reflexivity|exact F].
  - cbn [value]. exact V.
Qed.
Lemma precision_d_decimal w n : 1 <= w -> decimal (precision_d w n) n.
Proof.
  intros W. unfold precision_d. destruct (zeros (w - length (if (n =? 0)%N then [] else print_nat n))) as [F V].
  set (s := if (n =? 0)%N then [] else print_nat n) in *.
  assert (S' : Forall is_digit s /\ value s 0 = n).
  { subst s. destruct (N.eqb_spec n 0) as [->|_]; [split; [constructor|reflexivity]|]. split; [apply print_nat_digits|apply print_nat_value]. }
  destruct S' as [D E]. replace n with (value (repeat "0"%char (w - length s) ++ s) 0).
  - apply digits_decimal; [apply Forall_app; auto|]. intros K. apply app_eq_nil in K. destruct K as [K1 K2]. rewrite K2 in K1. cbn [length] in K1.
    rewrite Nat.sub_0_r in K1. destruct w; [lia|discriminate K1].
  - rewrite value_app by exact F. rewrite V, E. reflexivity.
Qed.

Lemma In_all_pairs_fold l : forall acc p, In p (fold_left (fun s a => sadd pcmp (label a) s) l acc) <-> In p acc \/ exists a, In a l /\ label a = p.
Proof.
  induction l as [|a l IH]; intros acc p; cbn [fold_left].
  - split; [auto|]. intros [H|(a & [] & _)]; exact H.
  - rewrite IH, (In_sadd pcmp pcmp_eq). split.
    + intros [[->|H]|(b & I & E)]; [right; exists a; split; [now left|reflexivity]|auto|right; exists b; split; [now right|exact E]].
    + intros [H|(b & [->|I] & E)]; [auto|left; left; symmetry; exact E|right; exists b; auto].
Qed.
Lemma all_pairs_used g p : In p (all_pairs g) <-> used_pair g p.
Proof.
  unfold all_pairs, used_pair. rewrite In_all_pairs_fold. split.
  - intros [[]|(a & I & E)]. apply in_concat in I. destruct I as (l & L & I). apply (In_nth _ _ []) in L. destruct L as (s & _ & <-). exists s, a. auto.
  - intros (s & a & I & E). right. exists a. split; [|exact E]. apply in_concat. exists (nth s (sts g) []). split; [|exact I].
    destruct (Nat.lt_ge_cases s (length (sts g))) as [L|L]; [apply nth_In, L|]. rewrite nth_overflow in I by exact L. destruct I.
Qed.
Lemma all_pairs_NoDup g : NoDup (all_pairs g).
Proof.
  apply (sorted_NoDup pcmp pcmp_eq). unfold all_pairs.
  assert (K : forall l acc, StronglySorted (klt pcmp) acc -> StronglySorted (klt pcmp) (fold_left (fun s a => sadd pcmp (label a) s) l acc)).
  { induction l as [|a l IH]; intros acc H; cbn [fold_left]; [exact H|]. apply IH. apply (sorted_sadd pcmp pcmp_eq pcmp_trans pcmp_op), H. }
  apply K. constructor.
Qed.

Definition last_target (p : bstr * bstr) (l : list arc) (v : N) : N :=
  fold_left (fun v a => if pair_eqb p (label a) then N.of_nat (tgt a + 1) else v) l v.
Lemma row_entries_gen l : forall pairs (f : bstr * bstr -> N),
  fold_left (fun m a => assign (label a) (N.of_nat (tgt a + 1)) m) l (map (fun p => (p, f p)) pairs) = map (fun p => (p, last_target p l (f p))) pairs.
Proof.
  induction l as [|a l IH]; intros pairs f; cbn [fold_left]; [reflexivity|].
  unfold assign at 2. rewrite map_map. cbn [fst].
  transitivity (fold_left (fun m a => assign (label a) (N.of_nat (tgt a + 1)) m) l (map (fun p => (p, if pair_eqb p (label a) then N.of_nat (tgt a + 1) else f p)) pairs)).
  - f_equal. apply map_ext. intros p. destruct (pair_eqb p (label a)); reflexivity.
  - rewrite (IH pairs (fun p => if pair_eqb p (label a) then N.of_nat (tgt a + 1) else f p)). reflexivity.
Qed.
Lemma last_target_spec p l : (exists a, In a l /\ label a = p /\ last_target p l 0 = N.of_nat (tgt a + 1)) \/
  (forall a, In a l -> label a <> p) /\ last_target p l 0 = 0%N.
Proof.
  induction l as [|a l IH] using rev_ind; [right; split; [intros a []|reflexivity]|].
  unfold last_target in *. rewrite fold_left_app. cbn [fold_left]. destruct (pair_eqb p (label a)) eqn:E.
  - apply pair_eqb_eq in E. left. exists a. split; [apply in_app_iff; right; now left|auto].
  - apply pair_eqb_neq in E. destruct IH as [(b & I & L & T)|[N T]].
    + left. exists b. split; [apply in_app_iff; now left|auto].
    + right. split; [|exact T]. intros b I. apply in_app_iff in I. destruct I as [I|[<-|[]]]; [exact (N b I)|]. congruence.
Qed.
Lemma row_entry g s w pairs : 1 <= w -> Forall2 (entry g s) pairs (map (fun e => precision_d w (snd e)) (row_entries pairs (arcs g s))).
Proof.
  intros W. unfold row_entries. rewrite (row_entries_gen (arcs g s) pairs (fun _ => 0%N)), map_map. cbn [snd].
  induction pairs as [|p pairs IH]; cbn [map]; constructor; [|exact IH].
  destruct (last_target_spec p (arcs g s)) as [(a & I & L & ->)|[N ->]].
  - left. exists a. split; [exact I|]. split; [exact L|]. apply precision_d_decimal, W.
  - right. split; [exact N|]. apply precision_d_decimal, W.
Qed.
Lemma symbol_text_written w x : (forall t, written x t -> length t <= w) -> exists t, written x t /\ symbol_text w x = t ++ [" "%char].
Proof.
  intros H. unfold symbol_text, precision_s. destruct (bstr_eqb_spec x BT_Model.EPS) as [E|E].
  - exists (B "0"). assert (W : written x (B "0")) by (left; auto). split; [exact W|]. rewrite firstn_all2 by exact (H _ W). reflexivity.
  - destruct (bstr_eqb_spec x UNK) as [U|U].
    + exists (B "@"). assert (W : written x (B "@")) by (right; left; auto). split; [exact W|]. rewrite firstn_all2 by exact (H _ W). reflexivity.
    + exists x. assert (W : written x x) by (right; right; auto). split; [exact W|]. rewrite firstn_all2 by exact (H _ W). reflexivity.
Qed.
Lemma symbol_cells w xs : (forall x t, In x xs -> written x t -> length t <= w) ->
  exists ws, Forall2 written xs ws /\ cells (concat (map (symbol_text w) xs)) ws.
Proof.
  unfold cells. induction xs as [|x xs IH]; intros H; [exists []; split; [constructor|reflexivity]|].
  destruct (symbol_text_written w x) as (t & T & E); [intros t; apply H; now left|].
  destruct IH as (ws & F & C); [intros y u I; apply H; now right|]. exists (t :: ws). split; [constructor; assumption|]. cbn [map concat]. rewrite E, C. reflexivity.
Qed.
