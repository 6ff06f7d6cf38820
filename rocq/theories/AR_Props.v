(** Tools that read archives. *)
From Verif Require Import Base AR_Spec AR_Model AR_Proofs.

(** hfst-head -n K puts out the first K transducers, hfst-head -n -K all but the last K. *)
Theorem C152_head {A} (k : Z) (xs : list A) :
  ((0 < k)%Z -> the_first (Z.to_nat k) xs (hfst_head k xs)) /\ ((0 < k)%Z -> all_but_last (Z.to_nat k) xs (hfst_head (- k) xs)).
Proof.
  split; intros K; unfold hfst_head.
  - replace (k >? 0)%Z with true by (symmetry; rewrite Z.gtb_ltb; apply Z.ltb_lt; exact K). rewrite head_loop_firstn by lia. rewrite Z.sub_0_r.
    exists (skipn (Z.to_nat k) xs). rewrite firstn_skipn, firstn_length. split; reflexivity.
  - replace (- k >? 0)%Z with false by (symmetry; rewrite Z.gtb_ltb; apply Z.ltb_ge; lia). replace (- k <? 0)%Z with true by (symmetry; apply Z.ltb_lt; lia).
    rewrite Z.opp_involutive, pop_backs_firstn. exists (skipn (length xs - Z.to_nat k) xs). rewrite firstn_skipn, skipn_length. split; [reflexivity|lia].
Qed.
Print Assumptions C152_head.
Example C152_witness : hfst_head 2 [4; 5; 6] = [4; 5] /\ hfst_head (-2) [4; 5; 6] = [4] /\ hfst_head (-4) [4; 5; 6] = [] /\ hfst_head 4 [4; 5; 6] = [4; 5; 6].
Proof. vm_compute. repeat split. Qed.

(** hfst-tail -n K puts out the last K transducers, hfst-tail -n +K those from the Kth on. *)
Theorem C153_tail {A} (k : Z) (xs : list A) :
  ((0 < k)%Z -> the_last (Z.to_nat k) xs (hfst_tail (tail_option false k) xs)) /\ ((0 < k)%Z -> all_but_first (Z.to_nat k - 1) xs (hfst_tail (tail_option true k) xs)).
Proof.
  split; intros K; unfold hfst_tail, tail_option.
  - replace (k >? 0)%Z with true by (symmetry; rewrite Z.gtb_ltb; apply Z.ltb_lt; exact K). rewrite tail_queue_skipn by (cbn; lia). cbn [app].
    exists (firstn (length xs - Z.to_nat k) xs). rewrite firstn_skipn, skipn_length. split; [reflexivity|lia].
  - replace (- k >? 0)%Z with false by (symmetry; rewrite Z.gtb_ltb; apply Z.ltb_ge; lia). replace (- k <? 0)%Z with true by (symmetry; apply Z.ltb_lt; lia).
    rewrite tail_skip_skipn. replace (Z.to_nat (k - 1 - 0)) with (Z.to_nat k - 1) by lia.
    exists (firstn (Z.to_nat k - 1) xs). rewrite firstn_skipn, firstn_length. split; reflexivity.
Qed.
Print Assumptions C153_tail.
Example C153_witness : hfst_tail (tail_option false 2) [4; 5; 6] = [5; 6] /\ hfst_tail (tail_option true 2) [4; 5; 6] = [5; 6] /\ hfst_tail (tail_option true 3) [4; 5; 6] = [6].
Proof. vm_compute. repeat split. Qed.
(** The usage text says that without -n all except the first are put out; the first is put out too. *)
Example C153_default_refuted : hfst_tail tail_default [4; 5; 6] = [4; 5; 6].
Proof. vm_compute. reflexivity. Qed.

(** The tools for two archives: the operation is applied to the transducers one by one, or to each of
    the first archive and the only one of the second.  If the numbers of transducers are different
    otherwise, the exit code is not 0. *)
Theorem C154_pairs {A C} (op : A -> A -> C) xs ys : xs <> [] -> ys <> [] ->
  exists o ok, binary_tool op xs ys = Ok (o, ok) /\ (ok = true <-> exists ps, paired xs ys ps) /\
    (forall ps, paired xs ys ps -> o = map (fun p => op (fst p) (snd p)) ps) /\ (ok = false -> o = map (fun p => op (fst p) (snd p)) (combine xs ys)).
Proof. exact (binary_tool_spec op xs ys). Qed.
Print Assumptions C154_pairs.
(** hfst-compare: exit code 0 if and only if the transducers so paired are all equal. *)
Theorem C154_compare {A} (eq : A -> A -> bool) xs ys : xs <> [] -> ys <> [] ->
  exists ok, hfst_compare eq xs ys = Ok ok /\ (ok = true <-> exists ps, paired xs ys ps /\ forall x y, In (x, y) ps -> eq x y = true).
Proof.
  intros N1 N2. destruct (binary_tool_spec eq xs ys N1 N2) as (o & ok & R & H1 & H2 & _). unfold hfst_compare. rewrite R. cbn [rmap].
  eexists. split; [reflexivity|]. rewrite andb_true_iff, H1, forallb_forall. split.
  - intros ((ps & P) & F). exists ps. split; [exact P|]. intros x y I. apply F. rewrite (H2 ps P). change (eq x y) with (op2 eq (x, y)). apply in_map. exact I.
  - intros (ps & P & F). split; [exists ps; exact P|]. intros b I. rewrite (H2 ps P) in I. apply in_map_iff in I. destruct I as ((x & y) & <- & I). apply F. exact I.
Qed.
Print Assumptions C154_compare.
Example C154_witness : binary_tool Nat.add [1; 2; 3] [10] = Ok ([11; 12; 13], true) /\ binary_tool Nat.add [1; 2] [10; 20] = Ok ([11; 22], true) /\
  binary_tool Nat.add [1; 2; 3] [10; 20] = Ok ([11; 22], false) /\ binary_tool Nat.add [1] [10; 20] = Ok ([11], false) /\
  hfst_compare Nat.eqb [1; 1] [1] = Ok true /\ hfst_compare Nat.eqb [1; 2] [1] = Ok false /\ paired [1; 2; 3] [10] [(1, 10); (2, 10); (3, 10)] /\ paired [1; 2] [10; 20] [(1, 10); (2, 20)].
Proof. vm_compute. repeat split; [apply (pr_one [1; 2; 3] 10)|apply (pr_each [1; 2] [10; 20]); reflexivity]. Qed.

(** hfst-compose does the same.  Partial: also the only one of the first archive should be composed with
    each of the second. *)
Theorem C155_compose_partial {A} (op : A -> A -> A) xs ys : xs <> [] -> ys <> [] -> length xs <> 1 \/ length ys = 1 ->
  exists o ok, hfst_compose op xs ys = Ok (o, ok) /\ (ok = true <-> exists ps, paired xs ys ps) /\ (forall ps, paired xs ys ps -> o = map (fun p => op (fst p) (snd p)) ps).
Proof.
  intros N1 N2 H. rewrite (hfst_compose_same op xs ys N1 N2 H). destruct (binary_tool_spec op xs ys N1 N2) as (o & ok & R & H1 & H2 & _).
  exists o, ok. split; [exact R|]. split; [exact H1|exact H2].
Qed.
Print Assumptions C155_compose_partial.
(** If the first archive has one transducer, it is replaced by the result each time: what is put out at
    last is the composition of it with all of the second archive. *)
Theorem C155_first {A} (op : A -> A -> A) x ys : ys <> [] ->
  exists o, hfst_compose op [x] ys = Ok (o, true) /\ length o = length ys /\ forall i, i < length ys -> nth_error o i = Some (fold_left op (firstn (S i) ys) x).
Proof.
  intros N. exists (accumulated op x ys). split; [exact (hfst_compose_first op x ys N)|]. clear N. revert x. induction ys as [|y ys IH]; intros x; cbn [accumulated length].
  - split; [reflexivity|]. intros i L. lia.
  - destruct (IH (op x y)) as (L & F). split; [f_equal; exact L|]. intros i H. destruct i as [|i]; [reflexivity|]. cbn [nth_error]. rewrite F by lia. reflexivity.
Qed.
Print Assumptions C155_first.
(** Composition of finite relations: the second result has nothing to do with the first operand and the
    second of the other archive, which relate 1 and 3. *)
Definition rel_compose (r s : list (nat * nat)) : list (nat * nat) := flat_map (fun '(a, b) => flat_map (fun '(c, d) => if b =? c then [(a, d)] else []) s) r.
Example C155_first_refuted : rel_compose [(1, 2)] [(2, 3)] = [(1, 3)] /\
  hfst_compose rel_compose [[(1, 2)]] [[(2, 5)]; [(2, 3)]] = Ok ([[(1, 5)]; []], true).
Proof. vm_compute. split; reflexivity. Qed.
Example C155_witness : length [1; 2; 3] <> 1 /\ hfst_compose Nat.add [1; 2; 3] [10] = Ok ([11; 12; 13], true) /\ hfst_compose Nat.add [1; 2; 3] [10; 20] = Ok ([11; 22], false) /\
  hfst_compose Nat.add [1] [10; 20] = Ok ([11; 31], true).
Proof. split; [discriminate|]. vm_compute. repeat split. Qed.
