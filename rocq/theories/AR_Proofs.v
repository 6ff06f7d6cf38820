(** Proofs about archives. *)
From Verif Require Import Base AR_Spec AR_Model.

Section Archives.
  Context {A : Type}.
  Lemma head_loop_firstn (xs : list A) n k : (n <= k)%Z -> head_loop xs n k = firstn (Z.to_nat (k - n)) xs.
  Proof.
    revert n. induction xs as [|x xs IH]; intros n L; cbn [head_loop]; [rewrite firstn_nil; reflexivity|].
    destruct (Z.ltb_spec n k) as [H|H].
    - rewrite IH by lia. replace (Z.to_nat (k - n)) with (S (Z.to_nat (k - (n + 1)))) by lia. reflexivity.
    - replace (Z.to_nat (k - n)) with 0 by lia. reflexivity.
  Qed.
  Lemma removelast_firstn' (q : list A) : removelast q = firstn (length q - 1) q.
  Proof.
    destruct q as [|x q] using rev_ind; [reflexivity|]. rewrite removelast_last, app_length. cbn [length].
    replace (length q + 1 - 1) with (length q) by lia. rewrite firstn_app, Nat.sub_diag, firstn_all. cbn. rewrite app_nil_r. reflexivity.
  Qed.
  Lemma pop_backs_firstn i (q : list A) : pop_backs i q = firstn (length q - i) q.
  Proof.
    revert q. induction i as [|i IH]; intros q; cbn [pop_backs]; [rewrite Nat.sub_0_r, firstn_all; reflexivity|].
    assert (E : match q with [] => [] | _ :: _ => removelast q end = removelast q) by (destruct q; reflexivity).
    rewrite E, IH, removelast_firstn', firstn_firstn, firstn_length. f_equal. lia.
  Qed.
  Lemma tail_queue_skipn (xs q : list A) k : (0 < k)%Z -> (Z.of_nat (length q) <= k)%Z ->
    tail_queue xs q k = skipn (length (q ++ xs) - Z.to_nat k) (q ++ xs).
  Proof.
    intros K. revert q. induction xs as [|x xs IH]; intros q L; cbn [tail_queue].
    - rewrite app_nil_r. replace (length q - Z.to_nat k) with 0 by lia. reflexivity.
    - cbv zeta. assert (E : q ++ x :: xs = (q ++ [x]) ++ xs) by (rewrite <- app_assoc; reflexivity).
      rewrite Z.gtb_ltb. destruct (Z.ltb_spec k (Z.of_nat (length (q ++ [x])))) as [H|H].
      + rewrite E. rewrite app_length in H. cbn in H. destruct (q ++ [x]) as [|y r] eqn:Q; [apply (f_equal (@length A)) in Q; rewrite app_length in Q; cbn in Q; lia|].
        apply (f_equal (@length A)) in Q. rewrite app_length in Q. cbn in Q. cbn [tl]. rewrite IH by lia. cbn [app length]. rewrite !app_length.
        replace (S (length r + length xs) - Z.to_nat k) with (S (length r + length xs - Z.to_nat k)) by lia. reflexivity.
      + rewrite IH by exact H. rewrite E. reflexivity.
  Qed.
  Lemma tail_skip_skipn (xs : list A) n k : tail_skip xs n (- k) = skipn (Z.to_nat (k - 1 - n)) xs.
  Proof.
    revert n. induction xs as [|x xs IH]; intros n; cbn [tail_skip]; [rewrite skipn_nil; reflexivity|]. cbv zeta.
    rewrite Z.opp_involutive, IH, Z.geb_leb. destruct (Z.leb_spec k (n + 1)) as [H|H].
    - replace (Z.to_nat (k - 1 - n)) with 0 by lia. replace (Z.to_nat (k - 1 - (n + 1))) with 0 by lia. reflexivity.
    - replace (Z.to_nat (k - 1 - n)) with (S (Z.to_nat (k - 1 - (n + 1)))) by lia. reflexivity.
  Qed.

  Context {C : Type}.
  Variable op : A -> A -> C.
  Definition op2 (p : A * A) : C := op (fst p) (snd p).
  Lemma pair_loop_one (xs : list A) y : xs <> [] -> pair_loop op xs [] (Some y) 1 = Ok (map (fun x => op x y) xs, [], []).
  Proof.
    induction xs as [|x xs IH]; intros N; [destruct (N eq_refl)|]. cbn [pair_loop is_good]. destruct xs as [|x' xs].
    - reflexivity.
    - change (is_good (x' :: xs)) with true. cbn [orb andb Nat.eqb negb]. rewrite IH by discriminate. reflexivity.
  Qed.
  Lemma pair_loop_each (xs ys : list A) n : xs <> [] -> ys <> [] -> n <> 0 \/ length ys <> 1 ->
    pair_loop op xs ys None n = Ok (map op2 (combine xs ys), skipn (length ys) xs, skipn (length xs) ys).
  Proof.
    revert ys n. induction xs as [|x xs IH]; intros ys n N1 N2 H; [destruct (N1 eq_refl)|]. destruct ys as [|y ys]; [destruct (N2 eq_refl)|].
    cbn [pair_loop]. destruct xs as [|x' xs].
    - cbn [is_good andb]. cbn [combine map length skipn]. rewrite skipn_nil. destruct ys; reflexivity.
    - destruct ys as [|y' ys].
      + assert (E : (S n =? 1) = false) by (apply Nat.eqb_neq; destruct H as [H|H]; [lia|cbn in H; lia]). rewrite E. reflexivity.
      + cbn [is_good andb orb negb]. rewrite IH; [|discriminate|discriminate|left; lia]. reflexivity.
  Qed.
  Lemma empty_skipn (xs : list A) n : is_good (skipn n xs) = (n <? length xs).
  Proof.
    revert n. induction xs as [|x xs IH]; intros n; [rewrite skipn_nil; destruct n; reflexivity|]. destruct n; [reflexivity|]. cbn [skipn length]. rewrite IH. reflexivity.
  Qed.
  Lemma paired_one_each (xs : list A) y ps : paired xs [y] ps -> ps = map (fun x => (x, y)) xs.
  Proof.
    intros H. inversion H; subst; [|reflexivity]. destruct xs as [|x [|x' xs]]; cbn in *; try lia. reflexivity.
  Qed.
  Lemma binary_tool_spec (xs ys : list A) : xs <> [] -> ys <> [] ->
    exists o ok, binary_tool op xs ys = Ok (o, ok) /\ (ok = true <-> exists ps, paired xs ys ps) /\ (forall ps, paired xs ys ps -> o = map op2 ps) /\ (ok = false -> o = map op2 (combine xs ys)).
  Proof.
    intros N1 N2. unfold binary_tool. replace (is_good xs && is_good ys) with true by (destruct xs; [destruct (N1 eq_refl)|]; destruct ys; [destruct (N2 eq_refl)|]; reflexivity).
    destruct (Nat.eq_dec (length ys) 1) as [E|E].
    - destruct ys as [|y [|y' ys]]; try discriminate E. assert (R : pair_loop op xs [y] None 0 = Ok (map (fun x => op x y) xs, [], [])).
      { destruct xs as [|x xs]; [destruct (N1 eq_refl)|]. cbn [pair_loop]. destruct xs as [|x' xs]; [reflexivity|].
        cbn [is_good andb orb negb Nat.eqb]. rewrite pair_loop_one by discriminate. reflexivity. }
      rewrite R. cbn [rmap]. eexists _, _. split; [reflexivity|]. split; [|split].
      + split; [|reflexivity]. intros _. exists (map (fun x => (x, y)) xs). apply pr_one.
      + intros ps H. rewrite (paired_one_each _ _ _ H), map_map. reflexivity.
      + discriminate.
    - rewrite (pair_loop_each xs ys 0 N1 N2) by (right; exact E). cbn [rmap]. eexists _, _. split; [reflexivity|]. rewrite !empty_skipn. split; [|split].
      + rewrite andb_true_iff, !negb_true_iff, !Nat.ltb_ge. split.
        * intros (L1 & L2). exists (combine xs ys). apply pr_each. lia.
        * intros (ps & H). inversion H; subst; [lia|]. destruct (E eq_refl).
      + intros ps H. inversion H; subst; [reflexivity|]. destruct (E eq_refl).
      + reflexivity.
  Qed.
End Archives.

Section Compose.
  Context {A : Type}.
  Variable op : A -> A -> A.
  Fixpoint accumulated (x : A) (ys : list A) : list A := match ys with [] => [] | y :: r => op x y :: accumulated (op x y) r end.
  Lemma compose_loop_one fuel (xs : list A) y f n : length xs <= fuel -> xs <> [] -> compose_loop op fuel xs [] f (Some y) n 1 = Ok (map (fun x => op x y) xs, [], []).
  Proof.
    revert fuel f n. induction xs as [|x xs IH]; intros fuel f n L N; [destruct (N eq_refl)|]. destruct fuel as [|fuel]; cbn in L; [lia|].
    cbn [compose_loop]. destruct xs as [|x' xs].
    - cbn [is_good andb orb]. rewrite andb_false_r. reflexivity.
    - cbn [is_good andb orb Nat.eqb]. rewrite IH; [reflexivity|cbn in *; lia|discriminate].
  Qed.
  Lemma compose_loop_first fuel (ys : list A) x s n : length ys <= fuel -> ys <> [] -> compose_loop op fuel [] ys (Some x) s 1 n = Ok (accumulated x ys, [], []).
  Proof.
    revert fuel x s n. induction ys as [|y ys IH]; intros fuel x s n L N; [destruct (N eq_refl)|]. destruct fuel as [|fuel]; cbn in L; [lia|].
    cbn [compose_loop accumulated]. destruct ys as [|y' ys].
    - cbn [is_good andb orb]. reflexivity.
    - cbn [is_good andb orb Nat.eqb]. rewrite IH; [reflexivity|cbn in *; lia|discriminate].
  Qed.
  Lemma compose_loop_each fuel (xs ys : list A) f s n m : length xs + length ys <= fuel -> xs <> [] -> ys <> [] -> m <> 0 \/ length ys <> 1 -> n <> 0 \/ length xs <> 1 ->
    compose_loop op fuel xs ys f s n m = Ok (map (op2 op) (combine xs ys), skipn (length ys) xs, skipn (length xs) ys).
  Proof.
    revert ys fuel f s n m. induction xs as [|x xs IH]; intros ys fuel f s n m L N1 N2 H1 H2; [destruct (N1 eq_refl)|]. destruct ys as [|y ys]; [destruct (N2 eq_refl)|].
    destruct fuel as [|fuel]; cbn in L; [lia|]. cbn [compose_loop]. destruct xs as [|x' xs]; destruct ys as [|y' ys].
    - cbn [is_good andb orb]. rewrite andb_false_r. reflexivity.
    - assert (E : (S n =? 1) = false) by (apply Nat.eqb_neq; destruct H2 as [H|H]; [lia|cbn in H; lia]). rewrite E. cbn [is_good andb orb]. reflexivity.
    - assert (E : (S m =? 1) = false) by (apply Nat.eqb_neq; destruct H1 as [H|H]; [lia|cbn in H; lia]). rewrite E. cbn [is_good andb orb]. rewrite andb_false_r. reflexivity.
    - cbn [is_good andb orb]. rewrite IH; [reflexivity|cbn in *; lia|discriminate|discriminate|left; lia|left; lia].
  Qed.
  Lemma hfst_compose_same (xs ys : list A) : xs <> [] -> ys <> [] -> length xs <> 1 \/ length ys = 1 -> hfst_compose op xs ys = binary_tool op xs ys.
  Proof.
    intros N1 N2 H. unfold hfst_compose, binary_tool. replace (is_good xs && is_good ys) with true by (destruct xs; [destruct (N1 eq_refl)|]; destruct ys; [destruct (N2 eq_refl)|]; reflexivity).
    f_equal. destruct (Nat.eq_dec (length ys) 1) as [E|E].
    - destruct ys as [|y [|y' ys]]; try discriminate E. destruct xs as [|x xs]; [destruct (N1 eq_refl)|].
      cbn [length Nat.add compose_loop pair_loop]. destruct xs as [|x' xs]; [reflexivity|]. cbn [is_good andb orb negb Nat.eqb]. rewrite pair_loop_one by discriminate. rewrite compose_loop_one; [reflexivity|cbn; lia|discriminate].
    - destruct H as [H|H]; [|destruct (E H)]. rewrite pair_loop_each by auto. apply compose_loop_each; auto.
  Qed.
  Lemma hfst_compose_first x (ys : list A) : ys <> [] -> hfst_compose op [x] ys = Ok (accumulated x ys, true).
  Proof.
    intros N. unfold hfst_compose. destruct ys as [|y ys]; [destruct (N eq_refl)|]. cbn [is_good andb]. cbn [length].
    change (1 + S (length ys)) with (S (S (length ys))). remember (S (length ys)) as k eqn:K. cbn [compose_loop accumulated]. destruct ys as [|y' ys].
    - cbn [is_good andb orb negb]. reflexivity.
    - cbn [is_good andb orb negb Nat.eqb]. rewrite compose_loop_first; [reflexivity|cbn in *; lia|discriminate].
  Qed.
End Compose.
