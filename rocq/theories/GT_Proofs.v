(** Proofs about the encoding of flags, the guessers and the walk through a transducer. *)
From Verif Require Import Base Flags_Model Flags_Spec Flags_Proofs BT_Model BT_Spec BT_Proofs BT_Proofs3 FH_Spec FH_Model FH_Proofs GT_Spec GT_Model.

(** ** Flags *)
Lemma flag_form s : is_flag s -> exists m, s = B "@" ++ m ++ B "@" /\ 2 < length m.
Proof.
  intros (x & D). destruct (denotes_forms s x D) as [(o & f & O & N & _ & ->)|(o & f & v & O & _ & ->)].
  - exists (B o ++ B "." ++ f). split; [unfold form1; rewrite <- !app_assoc; reflexivity|]. destruct f; [congruence|]. cbn in O. destruct O as [<-|[<-|[<-|[]]]]; cbn; lia.
  - exists (B o ++ B "." ++ f ++ B "." ++ v). split; [unfold form2; rewrite <- !app_assoc; reflexivity|]. cbn in O. rewrite !app_length. destruct O as [<-|[<-|[<-|[<-|[<-|[<-|[]]]]]]]; cbn; lia.
Qed.
Lemma set_ends_form c (d e : ascii) m : set_ends c (d :: m ++ [e]) = c :: m ++ [c].
Proof.
  unfold set_ends. destruct (m ++ [e]) as [|x r] eqn:E; [destruct m; discriminate E|]. rewrite <- E, removelast_last. reflexivity.
Qed.
Lemma between_form c m : between c (c :: m ++ [c]) = true.
Proof. unfold between. rewrite Ascii.eqb_refl. change (c :: m ++ [c]) with ((c :: m) ++ [c]). rewrite last_last, Ascii.eqb_refl. reflexivity. Qed.
Lemma between_inv c s : 1 < length s -> between c s = true -> exists m, s = c :: m ++ [c].
Proof.
  destruct s as [|x r]; [discriminate|]. cbn [length]. intros L H. unfold between in H. apply andb_true_iff in H. destruct H as (H1 & H2). apply Ascii.eqb_eq in H1. subst x.
  destruct r as [|y r] using rev_ind; [cbn in L; lia|]. change (c :: r ++ [y]) with ((c :: r) ++ [y]) in H2. rewrite last_last in H2. apply Ascii.eqb_eq in H2. subst y. exists r. reflexivity.
Qed.
Lemma percent_no_flag m : ~ is_flag ("%"%char :: m).
Proof. intros F. destruct (flag_form _ F) as (q & E & _). discriminate E. Qed.
Lemma encode_hidden s : hidden s (encode_symbol s).
Proof.
  unfold encode_symbol. destruct (is_diacritic s) eqn:E; [|apply hid_other; apply not_flag_iff; exact E]. apply flag_iff in E. destruct (flag_form s E) as (m & -> & _). unfold encode_flag. change (B "@" ++ m ++ B "@") with ("@"%char :: m ++ ["@"%char]) at 2. rewrite set_ends_form. exact (hid_flag m E).
Qed.
Lemma hidden_fun s t : hidden s t -> t = encode_symbol s.
Proof.
  intros [m F|s0 F]; unfold encode_symbol.
  - rewrite (proj2 (flag_iff _) F). unfold encode_flag. change (B "@" ++ m ++ B "@") with ("@"%char :: m ++ ["@"%char]). rewrite set_ends_form. reflexivity.
  - rewrite (proj2 (not_flag_iff _) F). reflexivity.
Qed.
Lemma reserved_iff s : reserved_symbol s = true <-> looks_hidden s.
Proof.
  unfold reserved_symbol. rewrite !andb_true_iff, Nat.ltb_lt. split.
  - intros ((L & H) & D). destruct (between_inv "%" s ltac:(lia) H) as (m & ->). rewrite set_ends_form in D. exists m. split; [reflexivity|]. apply flag_iff. exact D.
  - intros (m & -> & F). change (B "%" ++ m ++ B "%") with ("%"%char :: m ++ ["%"%char]). rewrite set_ends_form, between_form. split; [split; [|reflexivity]|exact (proj2 (flag_iff _) F)].
    destruct (flag_form _ F) as (q & E & L). apply (app_inv_head (B "@")) in E. apply app_inv_tail in E. subst q. cbn [length]. rewrite app_length. cbn [length]. lia.
Qed.
Lemma decode_flag_cases s : decode_symbol s = s \/ exists m, s = B "%" ++ m ++ B "%" /\ is_flag (B "@" ++ m ++ B "@") /\ decode_symbol s = B "@" ++ m ++ B "@".
Proof.
  unfold decode_symbol. destruct (is_diacritic (decode_flag s)) eqn:E; [|left; reflexivity]. unfold decode_flag in *. destruct (between "%" s) eqn:Bt; [|left; reflexivity]. right.
  apply flag_iff in E. destruct (flag_form _ E) as (m & Em & L). assert (Ls : 1 < length s). { destruct s as [|x [|y r]]; cbn [set_ends] in Em; [discriminate Em| |cbn [length]; lia]. apply (f_equal (@length _)) in Em. rewrite !app_length in Em. cbn in Em. lia. }
  destruct (between_inv "%" s Ls Bt) as (q & ->). rewrite set_ends_form in *. exists q. split; [reflexivity|]. split; [exact E|reflexivity].
Qed.
Lemma decode_encode s : ~ looks_hidden s -> decode_symbol (encode_symbol s) = s.
Proof.
  intros N. unfold encode_symbol. destruct (is_diacritic s) eqn:E.
  - apply flag_iff in E. destruct (flag_form s E) as (m & -> & _). unfold encode_flag. change (B "@" ++ m ++ B "@") with ("@"%char :: m ++ ["@"%char]) in *. rewrite set_ends_form.
    unfold decode_symbol, decode_flag. rewrite between_form, set_ends_form, (proj2 (flag_iff _) E). reflexivity.
  - destruct (decode_flag_cases s) as [H|(m & -> & F & _)]; [exact H|]. destruct N. exists m. split; [reflexivity|exact F].
Qed.
Lemma encoded_no_flag s : ~ is_flag (encode_symbol s).
Proof. destruct (encode_hidden s); [apply percent_no_flag|assumption]. Qed.

Lemma relabel_sts f g : sts (relabel f g) = map (map (fun a => Arc (tgt a) (f (isy a)) (f (osy a)) (wt a))) (sts g) /\ fin (relabel f g) = fin g.
Proof. unfold relabel. destruct (add_symbols_sts (copy_of g (map (map (fun a => Arc (tgt a) (f (isy a)) (f (osy a)) (wt a))) (sts g))) (map f (alpha g))) as [-> ->]. split; reflexivity. Qed.
Lemma add_pairs_alpha ps : forall g x, In x (alpha (add_pairs g ps)) <-> In x (alpha g) \/ exists p, In p ps /\ (x = fst p \/ x = snd p).
Proof.
  induction ps as [|p ps IH]; intros g x; cbn [add_pairs fold_left].
  - split; [auto|]. intros [H|(p & [] & _)]. exact H.
  - change (In x (alpha (add_pairs (add_symbol (add_symbol g (fst p)) (snd p)) ps)) <-> In x (alpha g) \/ exists q, In q (p :: ps) /\ (x = fst q \/ x = snd q)). rewrite IH. cbn [add_symbol with_alpha alpha]. rewrite !(In_sadd bcmp bcmp_eq). split.
    + intros [[->|[->|H]]|(q & Hq & E)]; [right; exists p; split; [left; reflexivity|auto]|right; exists p; split; [left; reflexivity|auto]|left; exact H|right; exists q; split; [right; exact Hq|exact E]].
    + intros [H|(q & [->|Hq] & E)]; [auto| |right; exists q; auto]. destruct E as [->| ->]; auto.
Qed.
Lemma relabel_alpha f g x : symbols_ok g -> In x (alpha (relabel f g)) <-> special x \/ exists y, In y (alpha g) /\ x = f y.
Proof.
  intros SO. unfold relabel. rewrite add_symbols_alpha. unfold copy_of. cbn [alpha]. rewrite add_pairs_alpha, in_map_iff.
  assert (E : In x (alpha empty_graph) <-> special x). { unfold special. cbn [empty_graph alpha initialize_alphabet]. unfold initialize_alphabet. rewrite !(In_sadd bcmp bcmp_eq). cbn [In]. unfold IDN, UNK, EPS. tauto. }
  rewrite E. split.
  - intros [(y & <- & H)|[H|(p & Hp & H)]]; [right; exists y; auto|auto|]. right. apply in_map_iff in Hp. destruct Hp as (a & <- & Ha). apply in_concat in Ha. destruct Ha as (l & Hl & Ha). apply in_map_iff in Hl. destruct Hl as (l0 & <- & Hl). apply in_map_iff in Ha. destruct Ha as (b & <- & Hb).
    destruct (In_nth _ _ [] Hl) as (s & _ & Es). subst l0. destruct (SO s b Hb) as (S1 & S2). cbn [label fst snd isy osy] in H. destruct H as [->| ->]; [exists (isy b)|exists (osy b)]; auto.
  - intros [H|(y & H & ->)]; [auto|]. left. exists y. auto.
Qed.
Lemma relabel_run f g : forall s l w t, run (relabel f g) s l w t <-> exists k, run g s k w t /\ l = map (fun p => (f (fst p), f (snd p))) k.
Proof.
  assert (N : forall s, nth s (sts (relabel f g)) [] = map (fun a => Arc (tgt a) (f (isy a)) (f (osy a)) (wt a)) (nth s (sts g) [])).
  { intros s. rewrite (proj1 (relabel_sts f g)). exact (map_nth (map (fun a => Arc (tgt a) (f (isy a)) (f (osy a)) (wt a))) (sts g) [] s). }
  intros s l w t. split.
  - induction 1 as [s|s a l w t Ha _ IH]; [exists []; split; [constructor|reflexivity]|]. rewrite N in Ha. apply in_map_iff in Ha. destruct Ha as (b & <- & Hb). destruct IH as (k & R & ->). exists ((isy b, osy b) :: k). split; [|reflexivity]. cbn [wt tgt] in *. exact (run_cons g s b k w t Hb R).
  - intros (k & R & ->). induction R as [s|s b k w t Hb _ IH]; [constructor|]. cbn [map fst snd].
    apply (run_cons (relabel f g) s (Arc (tgt b) (f (isy b)) (f (osy b)) (wt b))); [|exact IH]. rewrite N. apply in_map_iff. exists b. auto.
Qed.
Lemma relabel_accepts f g l w : accepts (relabel f g) l w <-> exists k, accepts g k w /\ l = map (fun p => (f (fst p), f (snd p))) k.
Proof.
  unfold accepts. rewrite (proj2 (relabel_sts f g)). split.
  - intros (t & v & x & R & F & E). apply relabel_run in R. destruct R as (k & R & ->). exists k. split; [exists t, v, x; auto|reflexivity].
  - intros (k & (t & v & x & R & F & E) & ->). exists t, v, x. split; [|auto]. apply relabel_run. exists k. auto.
Qed.
Lemma run_symbols g s l w t : symbols_ok g -> run g s l w t -> Forall (fun p => In (fst p) (alpha g) /\ In (snd p) (alpha g)) l.
Proof. intros SO. induction 1 as [|s a l w t Ha _ IH]; constructor; [exact (SO s a Ha)|exact IH]. Qed.
Lemma hidden_pairs k l : Forall2 (fun p q => hidden (fst p) (fst q) /\ hidden (snd p) (snd q)) k l <-> l = map (fun p => (encode_symbol (fst p), encode_symbol (snd p))) k.
Proof.
  split.
  - induction 1 as [|p [i o] k l (H1 & H2) _ IH]; [reflexivity|]. cbn [map fst snd] in *. rewrite (hidden_fun _ _ H1), (hidden_fun _ _ H2), IH. reflexivity.
  - intros ->. induction k as [|p k IH]; constructor; [split; apply encode_hidden|exact IH].
Qed.
Lemma existsb_false {A} (f : A -> bool) l : existsb f l = false -> forall x, In x l -> f x = false.
Proof. intros H x Hx. destruct (f x) eqn:E; [|reflexivity]. assert (existsb f l = true) by (apply existsb_exists; exists x; auto). congruence. Qed.

(** ** Guessers *)
Lemma add_arcs_arcs s l : forall r t, arcs (add_arcs r s l) t = if t =? s then arcs r s ++ l else arcs r t.
Proof.
  induction l as [|a l IH]; intros r t; cbn [add_arcs fold_left].
  - destruct (Nat.eqb_spec t s) as [->|_]; [rewrite app_nil_r|]; reflexivity.
  - change (arcs (add_arcs (add_transition r s a true) s l) t = (if t =? s then arcs r s ++ a :: l else arcs r t)). rewrite IH, !arcs_add_transition, Nat.eqb_refl. destruct (t =? s); [rewrite <- app_assoc|]; reflexivity.
Qed.
Lemma add_arcs_fin s l : forall r, fin (add_arcs r s l) = fin r.
Proof. induction l as [|a l IH]; intros r; [reflexivity|]. cbn [add_arcs fold_left]. change (fin (add_arcs (add_transition r s a true) s l) = fin r). rewrite IH. apply fin_add_transition. Qed.
Definition shift (a : arc) : arc := Arc (S (tgt a)) (isy a) (osy a) (wt a).
Lemma guess_states_spec weight g ls : forall s r,
  arcs (guess_states weight g s ls r) 0 = arcs r 0 ++ flat_map (fun j => guess_arcs weight (alpha g) (S j)) (seq s (length ls)) /\
  (forall j, j < s \/ s + length ls <= j -> arcs (guess_states weight g s ls r) (S j) = arcs r (S j)) /\
  (forall j, j < length ls -> arcs (guess_states weight g s ls r) (S (s + j)) = arcs r (S (s + j)) ++ map shift (nth j ls [])) /\
  finw (guess_states weight g s ls r) 0 = finw r 0 /\
  (forall j, j < s \/ s + length ls <= j -> finw (guess_states weight g s ls r) (S j) = finw r (S j)) /\
  (forall j, j < length ls -> finw r (S (s + j)) = None -> finw (guess_states weight g s ls r) (S (s + j)) = finw g (s + j)).
Proof.
  induction ls as [|l ls IH]; intros s r; cbn [guess_states length].
  - cbn [seq flat_map]. rewrite app_nil_r. repeat split; intros; lia || reflexivity.
  - match goal with |- context [guess_states weight g (S s) ls ?x] => set (r' := x) end.
    set (r1 := match finw g s with Some w => set_final_weight (add_state_n r (S s)) (S s) w | None => add_state_n r (S s) end) in *.
    assert (A1 : forall t, arcs r1 t = arcs r t). { intros t. unfold r1. destruct (finw g s); [transitivity (arcs (add_state_n (add_state_n r (S s)) (S s)) t); [reflexivity|]|]; rewrite !arcs_add_state_n; reflexivity. }
    assert (F1 : forall t, finw r1 t = if t =? S s then match finw g s with Some w => Some w | None => finw r (S s) end else finw r t).
    { intros t. unfold r1. destruct (finw g s) as [w|].
      - unfold finw, set_final_weight, with_fin. cbn [fin]. destruct (Nat.eqb_spec t (S s)) as [->|N]; [apply (mget_mset_same Nat.compare Nat.compare_eq_iff)|rewrite (mget_mset_other Nat.compare Nat.compare_eq_iff) by exact N; reflexivity].
      - destruct (Nat.eqb_spec t (S s)) as [->|N]; reflexivity. }
    assert (A : forall t, arcs r' t = if t =? S s then arcs r (S s) ++ map shift l else if t =? 0 then arcs r 0 ++ guess_arcs weight (alpha g) (S s) else arcs r t).
    { intros t. unfold r'. rewrite !add_arcs_arcs, !A1. reflexivity. }
    assert (F : forall t, finw r' t = finw r1 t) by (intros t; unfold r', finw; rewrite !add_arcs_fin; reflexivity).
    destruct (IH (S s) r') as (I1 & I2 & I3 & I4 & I5 & I6). rewrite F in I4. split; [|split; [|split; [|split; [|split]]]].
    + rewrite I1, A. cbn [Nat.eqb seq flat_map]. rewrite <- app_assoc. reflexivity.
    + intros j H. rewrite I2 by lia. rewrite A. destruct (Nat.eqb_spec (S j) (S s)); [lia|reflexivity].
    + intros [|j] H; [rewrite Nat.add_0_r, I2 by lia; rewrite A, Nat.eqb_refl; reflexivity|]. replace (s + S j) with (S s + j) by lia. rewrite I3 by lia. rewrite A. destruct (Nat.eqb_spec (S (S s + j)) (S s)); [lia|reflexivity].
    + rewrite I4, F1. reflexivity.
    + intros j H. rewrite I5 by lia. rewrite F, F1. destruct (Nat.eqb_spec (S j) (S s)); [lia|reflexivity].
    + intros [|j] H N; [rewrite Nat.add_0_r in *; rewrite I5 by lia; rewrite F, F1, Nat.eqb_refl, N; destruct (finw g s); reflexivity|]. replace (s + S j) with (S s + j) in * by lia. apply I6; [lia|]. rewrite F, F1. destruct (Nat.eqb_spec (S (S s + j)) (S s)); [lia|exact N].
Qed.
Lemma guess_suffix_arcs weight g :
  arcs (guess_suffix weight g) 0 = guess_arcs weight (alpha g) 0 ++ flat_map (fun j => guess_arcs weight (alpha g) (S j)) (seq 0 (length (sts g))) /\
  (forall j, arcs (guess_suffix weight g) (S j) = map shift (arcs g j)) /\
  finw (guess_suffix weight g) 0 = None /\ (forall j, finw (guess_suffix weight g) (S j) = if j <? length (sts g) then finw g j else None).
Proof.
  unfold guess_suffix. set (r := add_arcs (add_state_n empty_graph 0) 0 (guess_arcs weight (alpha g) 0)).
  assert (A : forall t, arcs r t = if t =? 0 then guess_arcs weight (alpha g) 0 else []). { intros t. unfold r. rewrite add_arcs_arcs, !arcs_add_state_n. destruct t as [|[|t]]; reflexivity. }
  assert (F : forall t, finw r t = None) by (intros t; unfold r, finw; rewrite add_arcs_fin; reflexivity).
  destruct (guess_states_spec weight g (sts g) 0 r) as (I1 & I2 & I3 & I4 & I5 & I6). split; [|split; [|split]].
  - rewrite I1, A. reflexivity.
  - intros j. destruct (Nat.lt_ge_cases j (length (sts g))) as [L|L]; [pose proof (I3 j L) as E; cbn [Nat.add] in E; rewrite E, A; reflexivity|]. rewrite I2 by lia. rewrite A. unfold arcs. rewrite nth_overflow by exact L. reflexivity.
  - rewrite I4. apply F.
  - intros j. destruct (Nat.ltb_spec j (length (sts g))) as [L|L]; [exact (I6 j L (F _))|rewrite I5 by lia; apply F].
Qed.
Lemma in_guess_arcs weight al d a : In a (guess_arcs weight al d) <-> tgt a = d /\ wt a = weight /\ isy a = osy a /\ (isy a = IDN \/ In (isy a) al).
Proof.
  unfold guess_arcs. cbn [In]. rewrite in_map_iff. split.
  - intros [<-|(x & <- & H)]; cbn; auto.
  - destruct a as [t i o w]. cbn. intros (-> & -> & -> & [->|H]); [left; reflexivity|right; exists o; auto].
Qed.
Lemma shifted_run weight g : forall s v w t, run (guess_suffix weight g) (S s) v w t <-> exists t', t = S t' /\ run g s v w t'.
Proof.
  destruct (guess_suffix_arcs weight g) as (_ & A & _). intros s v w t. split.
  - intros R. remember (S s) as s1 eqn:E. revert s E. induction R as [s1|s1 a l w t Ha _ IH]; intros s ->; [exists s; split; [reflexivity|constructor]|].
    change (In a (arcs (guess_suffix weight g) (S s))) in Ha. rewrite A in Ha. apply in_map_iff in Ha. destruct Ha as (b & <- & Hb). destruct (IH _ eq_refl) as (t' & -> & R). exists t'. split; [reflexivity|]. exact (run_cons g s b l w t' Hb R).
  - intros (t' & -> & R). induction R as [s|s b l w t Hb _ IH]; [constructor|]. apply (run_cons (guess_suffix weight g) (S s) (shift b)); [|exact IH]. change (In (shift b) (arcs (guess_suffix weight g) (S s))). rewrite A. apply in_map. exact Hb.
Qed.
Lemma suffix_arc weight g a : In a (arcs (guess_suffix weight g) 0) <-> (tgt a = 0 \/ exists j, j < length (sts g) /\ tgt a = S j) /\ wt a = weight /\ isy a = osy a /\ (isy a = IDN \/ In (isy a) (alpha g)).
Proof.
  rewrite (proj1 (guess_suffix_arcs weight g)), in_app_iff, in_flat_map. setoid_rewrite in_guess_arcs. split.
  - intros [(E & H)|(j & Hj & E & H)]; [auto|]. apply in_seq in Hj. split; [right; exists j; split; [lia|exact E]|exact H].
  - intros ([E|(j & L & E)] & H); [auto|]. right. exists j. split; [apply in_seq; lia|auto].
Qed.
Lemma suffix_run weight g l w t : run (guess_suffix weight g) 0 l w (S t) <->
  exists u v s x, l = u ++ v /\ u <> [] /\ copies (alpha g) u /\ s < length (sts g) /\ run g s v x t /\ w = (Z.of_nat (length u) * weight + x)%Z.
Proof.
  split.
  - intros R. remember 0 as s0 eqn:E0. remember (S t) as t1 eqn:E1. revert E0 E1. induction R as [s0|s0 a l w t1 Ha R IH]; intros E0 E1; [congruence|]; subst s0 t1.
    apply suffix_arc in Ha. destruct Ha as ([E|(j & L & E)] & Ew & Es & Hs).
    + destruct (IH E eq_refl) as (u & v & s & x & -> & N & C & L & R' & ->). exists ((isy a, osy a) :: u), v, s, x. split; [reflexivity|]. split; [discriminate|]. split; [constructor; [cbn; auto|exact C]|]. split; [exact L|]. split; [exact R'|]. cbn [length]. rewrite Ew. lia.
    + rewrite E in R. apply shifted_run in R. destruct R as (t' & Et & R). injection Et as <-. exists [(isy a, osy a)], l, j, w. split; [reflexivity|]. split; [discriminate|]. split; [constructor; [cbn; auto|constructor]|]. split; [exact L|]. split; [exact R|]. cbn [length]. rewrite Ew. lia.
  - intros (u & v & s & x & -> & N & C & L & R & ->). induction C as [|[i o] u (E & H) C IH]; [congruence|]. cbn [fst snd] in *. subst o. destruct u as [|p u].
    + cbn [app length]. replace (Z.of_nat 1 * weight + x)%Z with (weight + x)%Z by lia. apply (run_cons (guess_suffix weight g) 0 (Arc (S s) i i weight)); [|apply shifted_run; exists t; auto]. apply suffix_arc. cbn. split; [right; exists s; auto|auto].
    + replace (Z.of_nat (length ((i, i) :: p :: u)) * weight + x)%Z with (weight + (Z.of_nat (length (p :: u)) * weight + x))%Z by (cbn [length]; lia). apply (run_cons (guess_suffix weight g) 0 (Arc 0 i i weight)); [|apply IH; discriminate]. apply suffix_arc. cbn. auto.
Qed.
Lemma guess_suffix_accepts weight g l w : structure_ok g -> accepts (guess_suffix weight g) l w <->
  exists u v x, l = u ++ v /\ u <> [] /\ copies (alpha g) u /\ ending g v x /\ w = (Z.of_nat (length u) * weight + x)%Z.
Proof.
  intros (_ & _ & SF). destruct (guess_suffix_arcs weight g) as (_ & _ & F0 & F). split.
  - intros (t & x & f & R & Ff & ->). destruct t as [|t]; [unfold finw in F0; congruence|]. apply suffix_run in R. destruct R as (u & v & s & y & -> & N & C & L & R & ->). exists u, v, (y + f)%Z. split; [reflexivity|]. split; [exact N|]. split; [exact C|]. split; [|lia].
    exists s, t, y, f. split; [exact L|]. split; [exact R|]. split; [|reflexivity]. fold (finw (guess_suffix weight g) (S t)) in Ff. rewrite F in Ff. destruct (t <? length (sts g)); [exact Ff|discriminate Ff].
  - intros (u & v & x & -> & N & C & (s & t & y & f & L & R & Ff & ->) & ->). exists (S t), (Z.of_nat (length u) * weight + y)%Z, f. split; [apply suffix_run; exists u, v, s, y; repeat split; auto|]. split; [|lia].
    fold (finw (guess_suffix weight g) (S t)). rewrite F. destruct (Nat.ltb_spec t (length (sts g))) as [_|K]; [exact Ff|]. specialize (SF t f Ff). lia.
Qed.

(** ** Guessing endings *)
Lemma fold_links q weight ss : forall r t, NoDup ss -> arcs (fold_left (fun r s => add_transition r s (Arc q IDN IDN weight) true) ss r) t = arcs r t ++ if existsb (Nat.eqb t) ss then [Arc q IDN IDN weight] else [].
Proof.
  induction ss as [|s ss IH]; intros r t N; cbn [fold_left existsb]; [rewrite app_nil_r; reflexivity|]. inversion N as [|? ? N1 N2]; subst. rewrite IH by exact N2. rewrite arcs_add_transition. destruct (Nat.eqb_spec t s) as [->|_]; [|reflexivity]. cbn [orb].
  destruct (existsb (Nat.eqb s) ss) eqn:E; [|rewrite app_nil_r; reflexivity]. apply existsb_exists in E. destruct E as (x & Hx & E). apply Nat.eqb_eq in E. subst x. destruct (N1 Hx).
Qed.
Lemma fold_links_fin q weight ss : forall r, fin (fold_left (fun r s => add_transition r s (Arc q IDN IDN weight) true) ss r) = fin r.
Proof. induction ss as [|s ss IH]; intros r; [reflexivity|]. cbn [fold_left]. rewrite IH. apply fin_add_transition. Qed.
Lemma guess_prefix_arcs weight g : structure_ok g -> let q := length (sts g) in let a := Arc q IDN IDN weight in
  (forall t, t < q -> arcs (guess_prefix weight g) t = arcs g t ++ [a]) /\ arcs (guess_prefix weight g) q = [a; a] /\
  (forall t, t < q -> finw (guess_prefix weight g) t = finw g t) /\ finw (guess_prefix weight g) q = Some 0%Z.
Proof.
  intros SO q a. unfold guess_prefix. cbn [add_state]. fold q. set (r0 := with_sts g (sts g ++ [[]])). set (r1 := set_final_weight r0 q 0). set (r2 := add_transition r1 q (Arc q IDN IDN weight) true).
  assert (L0 : length (sts r0) = S q) by (cbn [r0 with_sts sts]; rewrite app_length; cbn [length]; fold q; lia).
  assert (A0 : forall t, arcs r0 t = arcs g t) by (intros t; exact (arcs_add_state g t)).
  assert (A1 : forall t, arcs r1 t = arcs g t) by (intros t; rewrite <- A0; exact (arcs_add_state_n r0 q t)).
  assert (L1 : length (sts r1) = S q) by (unfold r1, set_final_weight; cbn [with_fin sts]; rewrite length_add_state_n, L0; lia).
  assert (L2 : length (sts r2) = S q) by (unfold r2; rewrite length_add_transition, L1; cbn [tgt]; lia).
  assert (Aq : arcs g q = []) by (unfold arcs; apply nth_overflow; unfold q; lia).
  unfold get_max_state. rewrite L2. cbn [Nat.sub]. rewrite Nat.sub_0_r.
  assert (E : forall t, t <= q -> existsb (Nat.eqb t) (seq 0 (S q)) = true) by (intros t H; apply existsb_exists; exists t; split; [apply in_seq; lia|apply Nat.eqb_refl]).
  split; [|split; [|split]].
  - intros t H. rewrite fold_links by apply seq_NoDup. rewrite E by lia. unfold r2. rewrite arcs_add_transition, A1. destruct (Nat.eqb_spec t q); [lia|rewrite A1; reflexivity].
  - rewrite fold_links by apply seq_NoDup. rewrite E by lia. unfold r2. rewrite arcs_add_transition, A1, Nat.eqb_refl, Aq. reflexivity.
  - intros t H. unfold finw at 1. rewrite fold_links_fin. unfold r2. rewrite fin_add_transition. unfold r1, set_final_weight, with_fin. cbn [fin]. rewrite (mget_mset_other Nat.compare Nat.compare_eq_iff) by lia. reflexivity.
  - unfold finw. rewrite fold_links_fin. unfold r2. rewrite fin_add_transition. unfold r1, set_final_weight, with_fin. cbn [fin]. apply (mget_mset_same Nat.compare Nat.compare_eq_iff).
Qed.
Lemma guess_prefix_run weight g : structure_ok g -> forall s l w t, s < length (sts g) ->
  run (guess_prefix weight g) s l w t <-> (t < length (sts g) /\ run g s l w t) \/ (t = length (sts g) /\ exists p n x u, l = p ++ repeat (IDN, IDN) (S n) /\ run g s p x u /\ w = (x + Z.of_nat (S n) * weight)%Z).
Proof.
  intros SO. destruct (guess_prefix_arcs weight g SO) as (A & Aq & _). cbn zeta in *. set (q := length (sts g)) in *. pose proof (proj1 (proj2 SO)) as ST. fold q in ST.
  assert (Rq : forall l w t, run (guess_prefix weight g) q l w t <-> t = q /\ exists n, l = repeat (IDN, IDN) n /\ w = (Z.of_nat n * weight)%Z).
  { intros l w t. split.
    - intros R. remember q as s eqn:E in R. revert E. induction R as [s|s a l w t Ha _ IH]; intros E; [split; [exact E|exists 0; split; [reflexivity|lia]]|]. subst s. change (In a (arcs (guess_prefix weight g) q)) in Ha. rewrite Aq in Ha. assert (Ea : a = Arc q IDN IDN weight) by (destruct Ha as [<-|[<-|[]]]; reflexivity). subst a. cbn [tgt isy osy wt] in *. destruct (IH eq_refl) as (-> & n & -> & ->). split; [reflexivity|]. exists (S n). split; [reflexivity|lia].
    - intros (-> & n & -> & ->). induction n as [|n IH]; [constructor|]. replace (Z.of_nat (S n) * weight)%Z with (weight + Z.of_nat n * weight)%Z by lia. apply (run_cons (guess_prefix weight g) q (Arc q IDN IDN weight)); [|exact IH]. change (In (Arc q IDN IDN weight) (arcs (guess_prefix weight g) q)). rewrite Aq. left. reflexivity. }
  intros s l w t Ls. split.
  - intros R. revert Ls. induction R as [s|s a l w t Ha R IH]; intros Ls; [left; split; [exact Ls|constructor]|]. change (In a (arcs (guess_prefix weight g) s)) in Ha. rewrite A in Ha by exact Ls. apply in_app_iff in Ha. destruct Ha as [Ha|[<-|[]]].
    + destruct (IH (ST s a Ha)) as [(Lt & R')|(-> & p & n & x & u & -> & R' & ->)]; [left; split; [exact Lt|exact (run_cons g s a l w t Ha R')]|]. right. split; [reflexivity|]. exists ((isy a, osy a) :: p), n, (wt a + x)%Z, u. split; [reflexivity|]. split; [exact (run_cons g s a p x u Ha R')|lia].
    + cbn [tgt isy osy wt] in *. apply Rq in R. destruct R as (-> & n & -> & ->). right. split; [reflexivity|]. exists [], n, 0%Z, s. split; [reflexivity|]. split; [constructor|lia].
  - intros [(Lt & R)|(-> & p & n & x & u & -> & R & ->)].
    + revert Ls. induction R as [s|s a l w t Ha R IH]; intros Ls; [constructor|]. apply (run_cons (guess_prefix weight g) s a); [|exact (IH Lt (ST s a Ha))]. change (In a (arcs (guess_prefix weight g) s)). rewrite A by exact Ls. apply in_app_iff. left. exact Ha.
    + revert Ls. induction R as [s|s a l w t Ha R IH]; intros Ls.
      * cbn [app repeat]. replace (0 + Z.of_nat (S n) * weight)%Z with (weight + Z.of_nat n * weight)%Z by lia. apply (run_cons (guess_prefix weight g) s (Arc q IDN IDN weight)); [|apply Rq; split; [reflexivity|exists n; auto]]. change (In (Arc q IDN IDN weight) (arcs (guess_prefix weight g) s)). rewrite A by exact Ls. apply in_app_iff. right. left. reflexivity.
      * cbn [app]. replace (wt a + w + Z.of_nat (S n) * weight)%Z with (wt a + (w + Z.of_nat (S n) * weight))%Z by lia. apply (run_cons (guess_prefix weight g) s a); [|exact (IH (ST s a Ha))]. change (In a (arcs (guess_prefix weight g) s)). rewrite A by exact Ls. apply in_app_iff. left. exact Ha.
Qed.
Lemma guess_prefix_accepts weight g l w : structure_ok g -> accepts (guess_prefix weight g) l w <->
  accepts g l w \/ exists p n x, l = p ++ repeat (IDN, IDN) (S n) /\ beginning g p x /\ w = (x + Z.of_nat (S n) * weight)%Z.
Proof.
  intros SO. destruct (guess_prefix_arcs weight g SO) as (_ & _ & F & Fq). cbn zeta in *.
  assert (L0 : 0 < length (sts g)) by (destruct SO as (N & _); destruct (sts g); [congruence|cbn; lia]). split.
  - intros (t & x & f & R & Ff & ->). apply (guess_prefix_run weight g SO) in R; [|exact L0]. destruct R as [(Lt & R)|(-> & p & n & y & u & -> & R & ->)].
    + left. exists t, x, f. split; [exact R|]. split; [|reflexivity]. exact (eq_trans (eq_sym (F t Lt)) Ff).
    + right. exists p, n, y. split; [reflexivity|]. split; [exists u; exact R|]. unfold finw in Fq. rewrite Fq in Ff. injection Ff as <-. lia.
  - intros [(t & x & f & R & Ff & ->)|(p & n & x & -> & (u & R) & ->)].
    + pose proof (proj2 (proj2 SO) t f Ff) as Lt. exists t, x, f. split; [apply (guess_prefix_run weight g SO); auto|]. split; [|reflexivity]. fold (finw (guess_prefix weight g) t). rewrite (F t Lt). exact Ff.
    + exists (length (sts g)), (x + Z.of_nat (S n) * weight)%Z, 0%Z. split; [|split; [exact Fq|lia]]. apply (guess_prefix_run weight g SO); [exact L0|]. right. split; [reflexivity|]. exists p, n, x, u. auto.
Qed.

(** ** The walk *)
Lemma shown_app k l : shown (k ++ l) = shown k ++ shown l.
Proof. induction k as [|p k IH]; [reflexivity|]. cbn [app shown]. rewrite IH, <- !app_assoc. reflexivity. Qed.
Definition holds (g : graph) (ls : list bstr) (paths : list (bstr * nat)) : Prop :=
  paths <> [] /\ forall x s, In (x, s) paths <-> exists l, walks g ls l s /\ x = shown l.
Lemma step_new g ls paths y : holds g ls paths -> forall x s,
  In (x, s) (flat_map (fun p => flat_map (fun a => if bstr_eqb (isy a) y then [(fst p ++ isy a ++ B ":" ++ osy a ++ B " ", tgt a)] else []) (arcs g (snd p))) paths) <-> exists l, walks g (ls ++ [y]) l s /\ x = shown l.
Proof.
  intros (_ & H) x s. rewrite in_flat_map. split.
  - intros ((x0 & s0) & Hp & K). apply in_flat_map in K. destruct K as (a & Ha & K). destruct (bstr_eqb_spec (isy a) y) as [E|_]; [|destruct K]. destruct K as [K|[]]. cbn [fst snd] in *. injection K as <- <-. apply H in Hp. destruct Hp as (l & (El & w & R) & ->). exists (l ++ [(isy a, osy a)]). split.
    + split; [rewrite map_app, El; cbn [map fst]; rewrite E; reflexivity|]. exists (w + (wt a + 0))%Z. eapply run_app; [exact R|]. apply run_cons; [exact Ha|constructor].
    + rewrite shown_app. cbn [shown fst snd]. rewrite app_nil_r. reflexivity.
  - intros (l & (El & w & R) & ->). destruct l as [|[i o] l _] using rev_ind; [destruct ls; discriminate El|]. rewrite map_app in El. cbn [map fst] in El. apply app_inj_tail in El. destruct El as (El & <-). apply run_app_inv in R. destruct R as (w1 & w2 & u & R1 & R2 & _). inversion R2 as [|? a ? ? ? Ha R3]; subst. inversion R3; subst.
    exists (shown l, u). split; [apply H; exists l; split; [split; [reflexivity|exists w1; exact R1]|reflexivity]|]. apply in_flat_map. exists a. split; [exact Ha|]. destruct (bstr_eqb_spec (isy a) (isy a)) as [_|N]; [|congruence]. left. cbn [fst]. rewrite shown_app. cbn [shown fst snd]. rewrite app_nil_r. reflexivity.
Qed.
Lemma traverse_from g : forall labels done paths, holds g done paths -> exists kept, follows g done labels kept /\ holds g kept (fold_left (step_label g) labels paths).
Proof.
  induction labels as [|y labels IH]; intros done paths H; cbn [fold_left]; [exists done; split; [constructor|exact H]|]. pose proof (step_new g done paths y H) as N. unfold step_label at 2.
  match type of N with forall x s, In _ ?e <-> _ => destruct e as [|p r] eqn:E end.
  - destruct (IH done paths H) as (kept & F & K). exists kept. split; [|exact K]. apply fo_stay; [|exact F]. intros (l & s & W). apply (proj2 (N (shown l) s)). exists l. auto.
  - destruct (IH (done ++ [y]) (p :: r)) as (kept & F & K); [split; [discriminate|exact N]|]. exists kept. split; [|exact K]. apply fo_go; [|exact F]. destruct p as [x s]. destruct (proj1 (N x s) (or_introl eq_refl)) as (l & W & _). exists l, s. exact W.
Qed.
