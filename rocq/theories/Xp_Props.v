(** C69, C70: extracting the paths of a transducer. *)
From Coq Require Import NArith Lia Sorting.Sorted.
From Verif Require Import Base OrdMap BT_Model BT_Proofs Flags_Model Flags_Spec Flags_Proofs LK_Model LK_Proofs Xp_Model Xp_Spec Xp_Proofs Xp_Proofs2.

(** C69: without a limit on their number, extract_paths terminates and adds to the results
    exactly the accepted paths that return to no state more than [c] times (all accepted
    paths when [c] is negative and the transducer acyclic). *)
Theorem C69_extract_paths : forall t c m old,
  symbol_table_ok t -> (0 <= c < 65535)%Z \/ (c < 0)%Z /\ acyclic t -> (m < 1)%Z ->
  exists n, forall fuel cyclic, n <= fuel -> (cyclic = true -> ~ acyclic t) ->
  exists R, extract_paths cyclic t fuel m c old = Ok R /\ forall r, In r R <-> In r old \/ reported t c false false r.
Proof.
  intros t c m old ST Bd Hm. exists (enough_fuel t c). intros fuel cyclic Fu Cy. unfold extract_paths.
  assert (E : cyclic && (m <? 1)%Z && (c <? 0)%Z = false).
  { destruct Bd as [Bd|[Bd A]]; [destruct (Z.ltb_spec c 0); [lia|apply Bool.andb_false_r]|]. destruct cyclic; [exfalso; exact (Cy eq_refl A)|reflexivity]. }
  rewrite E. destruct (extract_all_spec t c None false false m fuel) with (acc := old) as (R & ER & I1 & I2 & _ & I4 & _); [split; [exact ST|auto]|exact Bd|exact Fu|].
  exists R. split; [exact ER|]. intros r. split; [apply I2|]. intros [K|K]; [apply I1; exact K|apply I4; [left; exact Hm|exact K]].
Qed.
Print Assumptions C69_extract_paths.

(** C69, with a limit [m] on the number: the results are distinct accepted paths, all of
    them when there are fewer than [m]; there is at most one result too many, and none
    too many unless the empty path is accepted. *)
Theorem C69_extract_paths_limited : forall t c m,
  symbol_table_ok t -> (0 <= c < 65535)%Z \/ (c < 0)%Z /\ acyclic t -> (1 <= m)%Z ->
  exists n, forall fuel cyclic, n <= fuel ->
  exists R, extract_paths cyclic t fuel m c [] = Ok R /\ NoDup R /\ (forall r, In r R -> reported t c false false r) /\
    ((Z.of_nat (length R) < m)%Z -> forall r, reported t c false false r -> In r R) /\
    (Z.of_nat (length R) <= m + 1)%Z /\
    ((forall w, ~ reported t c false false (w, [])) -> (Z.of_nat (length R) <= m)%Z).
Proof.
  intros t c m ST Bd Hm. exists (enough_fuel t c). intros fuel cyclic Fu. unfold extract_paths.
  assert (E : cyclic && (m <? 1)%Z && (c <? 0)%Z = false) by (destruct (Z.ltb_spec m 1); [lia|destruct cyclic; reflexivity]).
  rewrite E. destruct (extract_all_spec t c None false false m fuel) with (acc := @nil tlp) as (R & ER & _ & I2 & I3 & I4 & I5 & I6);
    [split; [exact ST|auto]|exact Bd|exact Fu|].
  exists R. split; [exact ER|]. split; [apply sorted_nodup, I3; constructor|]. split; [intros r K; destruct (I2 r K) as [[]|K']; exact K'|].
  split; [intros L; apply I4; right; exact L|]. cbn [length] in *. split; [apply I5; lia|intros N; apply I6; [lia|exact N]].
Qed.
Print Assumptions C69_extract_paths_limited.

(** C69: a cyclic transducer without any limit is refused. *)
Theorem C69_refused : forall t m c fuel old, (m < 1)%Z -> (c < 0)%Z -> extract_paths true t fuel m c old = Throw.
Proof. intros t m c fuel old Hm Hc. unfold extract_paths. apply Z.ltb_lt in Hm, Hc. rewrite Hm, Hc. reflexivity. Qed.
Print Assumptions C69_refused.

(** 0 -a:b/1-> 1 -c:c/0-> 1, both final; and a flag diacritic. *)
Definition small_fst : tfst :=
  TFst [(Some 5%Z, [LArc 1 2 1 1; LArc 4 4 0 1]); (Some 2%Z, [LArc 3 3 0 1; LArc 5 5 0 1])] (Some 0)
    [(0, B "@_EPSILON_SYMBOL_@"); (1, B "a"); (2, B "b"); (3, B "c"); (4, B "@P.F.x@"); (5, B "@R.F.x@")].
Definition got (x : res (list tlp)) : list tlp := match x with Ok l => l | _ => [] end.
Lemma small_fst_ok : symbol_table_ok small_fst /\ no_empty_values small_fst.
Proof.
  split; [split; vm_compute; repeat (apply NoDup_cons; [intros H; repeat (destruct H as [H|H]; [discriminate|]); contradiction|]); apply NoDup_nil|].
  intros k x f I D. cbn in I. decompose [or] I; clear I; try contradiction;
    match goal with H : (_, _) = _ |- _ => injection H as <- <- end;
    try (assert (K : is_diacritic _ = true) by (apply is_diacritic_denotes; exists f; exact D); vm_compute in K; discriminate).
  - destruct f as [f v|f v|f [v|]|f [v|]|f|f v]; cbn [nonempty_value]; auto; pose proof (denotes_code _ _ D) as DC; vm_compute in DC; intros ->; decompose [and ex] DC; discriminate.
  - destruct f as [f v|f v|f [v|]|f [v|]|f|f v]; cbn [nonempty_value]; auto; pose proof (denotes_code _ _ D) as DC; vm_compute in DC; intros ->; decompose [and ex] DC; discriminate.
Qed.
Example C69_witness :
  symbol_table_ok small_fst /\ (0 <= 1 < 65535)%Z /\
  length (got (extract_paths true small_fst 20 0 1 [])) = 7 /\
  In (3%Z, [(B "a", B "b"); (B "c", B "c")]) (got (extract_paths true small_fst 20 0 1 [])) /\
  length (got (extract_paths true small_fst 20 3 1 [])) = 4.
Proof. split; [apply small_fst_ok|]. split; [lia|]. split; [vm_compute; reflexivity|]. split; [vm_compute; tauto|vm_compute; reflexivity]. Qed.

(** C69: the empty path is added even when the limit has been reached: one path is asked
    for and two are returned. *)
Theorem C69_limit_refuted : exists t c m R, symbol_table_ok t /\ (0 <= c)%Z /\ (1 <= m)%Z /\
  extract_paths true t 20 m c [] = Ok R /\ (m < Z.of_nat (length R))%Z.
Proof.
  exists small_fst, 0%Z, 1%Z, (got (extract_paths true small_fst 20 1 0 [])). split; [apply small_fst_ok|]. split; [lia|]. split; [lia|].
  split; [vm_compute; reflexivity|vm_compute; reflexivity].
Qed.
Print Assumptions C69_limit_refuted.

(** C69: with 65535 cycles allowed the search never ends, since the 16-bit counters never
    exceed that number. *)
Theorem C69_counter_refuted : exists t, symbol_table_ok t /\
  forall fuel cyclic, extract_paths cyclic t fuel 0 65535 [] = Diverge.
Proof.
  exists loop_fst. split.
  - split; vm_compute; repeat (apply NoDup_cons; [intros H; repeat (destruct H as [H|H]; [discriminate|]); contradiction|]); apply NoDup_nil.
  - intros fuel cyclic. unfold extract_paths. change (65535 <? 0)%Z with false. rewrite Bool.andb_false_r. unfold extract_all.
    change (t_start loop_fst) with (Some 0). cbn [option_map]. rewrite loop_diverges; [reflexivity|]. intros x. cbn. lia.
Qed.
Print Assumptions C69_counter_refuted.

(** C70: extract_paths_fd adds exactly the accepted paths whose input side satisfies the
    flag diacritics, with the flags blanked out on both sides when [filter_fd] is set.
    Partial: flags with empty values (C02) and symbol tables of more than 32766 symbols
    are left out. *)
Theorem C70_extract_paths_fd_partial : forall t c m filter_fd old,
  symbol_table_ok t -> no_empty_values t -> (Z.of_nat (length (t_syms t)) <= 32766)%Z ->
  (0 <= c < 65535)%Z \/ (c < 0)%Z /\ acyclic t -> (m < 1)%Z ->
  exists n, forall fuel cyclic, n <= fuel -> (cyclic = true -> ~ acyclic t) ->
  exists R, extract_paths_fd cyclic t fuel m c filter_fd old = Ok R /\ forall r, In r R <-> In r old \/ reported t c true filter_fd r.
Proof.
  intros t c m hide old ST NE Hl Bd Hm. exists (enough_fuel t c). intros fuel cyclic Fu Cy. unfold extract_paths_fd.
  assert (E : cyclic && (m <? 1)%Z && (c <? 0)%Z = false).
  { destruct Bd as [Bd|[Bd A]]; [destruct (Z.ltb_spec c 0); [lia|apply Bool.andb_false_r]|]. destruct cyclic; [exfalso; exact (Cy eq_refl A)|reflexivity]. }
  rewrite E. destruct (table_exists t Hl) as (tb & Tb & Hv & Hf). rewrite Tb.
  destruct (extract_all_spec t c (Some tb) true hide m fuel) with (acc := old) as (R & ER & I1 & I2 & _ & I4 & _); [split; [exact ST|auto]|exact Bd|exact Fu|].
  exists R. split; [exact ER|]. intros r. split; [apply I2|]. intros [K|K]; [apply I1; exact K|apply I4; [left; exact Hm|exact K]].
Qed.
Print Assumptions C70_extract_paths_fd_partial.
Theorem C70_extract_paths_fd_limited_partial : forall t c m filter_fd,
  symbol_table_ok t -> no_empty_values t -> (Z.of_nat (length (t_syms t)) <= 32766)%Z ->
  (0 <= c < 65535)%Z \/ (c < 0)%Z /\ acyclic t -> (1 <= m)%Z ->
  exists n, forall fuel cyclic, n <= fuel ->
  exists R, extract_paths_fd cyclic t fuel m c filter_fd [] = Ok R /\ NoDup R /\ (forall r, In r R -> reported t c true filter_fd r) /\
    ((Z.of_nat (length R) < m)%Z -> forall r, reported t c true filter_fd r -> In r R) /\
    (Z.of_nat (length R) <= m + 1)%Z /\
    ((forall w, ~ reported t c true filter_fd (w, [])) -> (Z.of_nat (length R) <= m)%Z).
Proof.
  intros t c m hide ST NE Hl Bd Hm. exists (enough_fuel t c). intros fuel cyclic Fu. unfold extract_paths_fd.
  assert (E : cyclic && (m <? 1)%Z && (c <? 0)%Z = false) by (destruct (Z.ltb_spec m 1); [lia|destruct cyclic; reflexivity]).
  rewrite E. destruct (table_exists t Hl) as (tb & Tb & Hv & Hf). rewrite Tb.
  destruct (extract_all_spec t c (Some tb) true hide m fuel) with (acc := @nil tlp) as (R & ER & _ & I2 & I3 & I4 & I5 & I6);
    [split; [exact ST|auto]|exact Bd|exact Fu|].
  exists R. split; [exact ER|]. split; [apply sorted_nodup, I3; constructor|]. split; [intros r K; destruct (I2 r K) as [[]|K']; exact K'|].
  split; [intros L; apply I4; right; exact L|]. cbn [length] in *. split; [apply I5; lia|intros N; apply I6; [lia|exact N]].
Qed.
Print Assumptions C70_extract_paths_fd_limited_partial.
Example C70_witness :
  symbol_table_ok small_fst /\ no_empty_values small_fst /\ (Z.of_nat (length (t_syms small_fst)) <= 32766)%Z /\
  length (got (extract_paths_fd true small_fst 20 0 1 false [])) = 6 /\
  In (2%Z, [([], []); ([], [])]) (got (extract_paths_fd true small_fst 20 0 1 true [])) /\
  ~ In (3%Z, [(B "a", B "b"); ([], [])]) (got (extract_paths_fd true small_fst 20 0 1 true [])).
Proof.
  split; [apply small_fst_ok|]. split; [apply small_fst_ok|]. split; [vm_compute; discriminate|]. split; [vm_compute; reflexivity|].
  split; [vm_compute; tauto|]. vm_compute. intros H. decompose [or] H; try discriminate; contradiction.
Qed.
