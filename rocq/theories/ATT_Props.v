(** Properties C67 and C68: AT&T text files. *)
From Verif Require Import Base BT_Model BT_Spec BT_Proofs Str_Model Str_Spec Str_Proofs ATT_Model ATT_Spec ATT_Proofs ATT_Proofs2.
From Coq Require Import Lia NArith ZArith.

(** C67: any number of transducers written one after the other are read back with the
    same transitions, final states and weights, provided that their symbols are
    reversible (C12), that no line has more than 253 bytes and no field more than 99. *)
Theorem C67_att_files_roundtrip_partial : forall eps weights gs,
  gs <> [] -> Forall (att_writable eps) gs ->
  exists text, write_all weights gs = Ok text /\
    (short_lines text -> exists gs', txt2fst eps text = Ok gs' /\ Forall2 (same_content weights) gs gs').
Proof.
  intros eps weights gs NN F.
  assert (T : exists text, write_all weights gs = Ok text).
  { clear NN F. induction gs as [|g gs (t & IH)]; [now exists []|]. destruct (write_total weights g) as (u & Eu).
    destruct gs as [|h gs]; [exists u; exact Eu|]. exists (u ++ B "--" ++ [nl] ++ t).
    change (rbind (write_in_att_format weights g) (fun t => rmap (fun u => t ++ B "--" ++ [nl] ++ u) (write_all weights (h :: gs))) = Ok (u ++ B "--" ++ [nl] ++ t)).
    rewrite Eu, IH. reflexivity. }
  destruct T as (text & E). exists text. split; auto. intros S.
  eapply read_all_written; eauto. apply write_all_length in E. lia.
Qed.
Print Assumptions C67_att_files_roundtrip_partial.
(** C67: reading one transducer stops right behind the separator line. *)
Theorem C67_separator : forall eps weights g text, att_writable eps g ->
  write_in_att_format weights g = Ok text -> short_lines text ->
  exists g', same_content weights g g' /\ forall rest count, exists count',
    read_in_att_format eps (Stream (text ++ B "--" ++ [nl] ++ rest) false) count = Ok (g', Stream rest false, count').
Proof. intros eps weights g t W E S. destruct (read_written _ _ _ _ W E S) as (g' & C & _ & R). eauto. Qed.
Print Assumptions C67_separator.
(** C67: with weights, the same paths are accepted with the same weights. *)
Theorem C67_language : forall g g', same_content true g g' -> forall l w, accepts g' l w <-> accepts g l w.
Proof. exact same_content_accepts. Qed.
Print Assumptions C67_language.
(** C67: numbers survive: state numbers below 2^31 and weights in millionths. *)
Theorem C67_numbers : forall n w, (n < 2 ^ 31)%N -> atoi (print_int n) = Ok (Z.of_N n) /\ atof (print_float w) = w.
Proof. intros n w H. split; [now apply atoi_print|apply atof_print]. Qed.
Print Assumptions C67_numbers.
(** C67: a line of three fields is rejected with an exception. *)
Theorem C67_bad_line : forall eps a b c rest count,
  Forall (fun x => x <> [] /\ Forall (fun y => ~ white y) x /\ length x <= 83 /\ no_nul x) [a; b; c] ->
  (forall r, a <> "-"%char :: r) ->
  read_in_att_format eps (Stream (a ++ [tab] ++ b ++ [tab] ++ c ++ [nl] ++ rest) false) count = Throw.
Proof.
  intros eps a b c rest count F Hd.
  assert (W : Forall word [a; b; c]).
  { eapply Forall_impl; [|exact F]. intros x (N & W & _). split; auto. eapply Forall_impl; [|exact W].
    intros y. apply not_white_false. }
  assert (U : Forall no_nul [a; b; c]) by (eapply Forall_impl; [|exact F]; cbn beta; intros x (_ & _ & _ & H); exact H).
  destruct (tabbed_line [a; b; c]) as (l & E1 & E2 & E3 & E4); auto; [discriminate|].
  assert (LE : length l <= 254).
  { apply (f_equal (@length ascii)) in E1. cbn [tabbed] in E1. rewrite !app_length in E1. simpl in E1.
    inversion F as [|? ? (_ & _ & La & _) F1]; subst. inversion F1 as [|? ? (_ & _ & Lb & _) F2]; subst.
    inversion F2 as [|? ? (_ & _ & Lc & _) F3]; subst. lia. }
  assert (E : a ++ [tab] ++ b ++ [tab] ++ c ++ [nl] ++ rest = l ++ nl :: rest).
  { transitivity (tabbed [a; b; c] ++ rest); [cbn [tabbed]; now rewrite <- !app_assoc|]. rewrite E1. now rewrite <- app_assoc. }
  rewrite E. unfold read_in_att_format. cbn [eof bytes att_loop]. unfold fgets. cbn [bytes eof].
  assert (LE' : length l < 254).
  { apply (f_equal (@length ascii)) in E1. cbn [tabbed] in E1. rewrite !app_length in E1. simpl in E1.
    inversion F as [|? ? (_ & _ & La & _) F1]; subst. inversion F1 as [|? ? (_ & _ & Lb & _) F2]; subst.
    inversion F2 as [|? ? (_ & _ & Lc & _) F3]; subst. lia. }
  rewrite take_line_line by auto. cbn [orb]. rewrite <- E1.
  assert (SF : short_fields (tabbed [a; b; c])).
  { intros x y z Ey Wy. (* a blank-free stretch lies inside one word *)
    assert (K : forall ws, Forall word ws -> Forall (fun x => length x <= 83) ws -> forall x y z, tabbed ws = x ++ y ++ z -> Forall (fun c => ~ white c) y -> length y <= 83).
    { clear. induction ws as [|w ws IH]; intros Hw Hl x y z Ey Wy.
      - destruct y as [|y1 y]; [simpl; lia|]. cbn in Ey. destruct x as [|x1 x].
        + injection Ey as <- _. inversion Wy as [|? ? N _]; subst. exfalso. apply N. apply is_white_iff. reflexivity.
        + injection Ey as _ Ey. destruct x; discriminate.
      - inversion Hw as [|? ? Ww Hw']; subst. inversion Hl as [|? ? Lw Hl']; subst.
        assert (Q : exists sep, is_white sep = true /\ exists tl, tabbed (w :: ws) = w ++ sep :: tl /\
                    (tl = [] \/ tl = tabbed ws)).
        { destruct ws as [|v ws]; [exists nl; split; auto; exists []; auto|].
          exists tab. split; auto. exists (tabbed (v :: ws)). auto. }
        destruct Q as (sep & Hs & tl & Et & Htl). rewrite Et in Ey.
        destruct (Nat.le_gt_cases (length x) (length w)) as [L|L].
        + (* starts in w *)
          destruct (Nat.le_gt_cases (length x + length y) (length w)) as [L2|L2]; [lia|].
          exfalso. assert (I : In sep y).
          { assert (N : nth_error (w ++ sep :: tl) (length w) = Some sep) by (rewrite nth_error_app2, Nat.sub_diag; auto).
            rewrite Ey in N. rewrite nth_error_app2 in N by auto. rewrite nth_error_app1 in N by lia.
            eapply nth_error_In; eauto. }
          rewrite Forall_forall in Wy. apply (Wy _ I). now apply is_white_iff.
        + assert (exists x', x = w ++ sep :: x').
          { exists (skipn (S (length w)) x). rewrite <- (firstn_skipn (S (length w)) x) at 1.
            replace (w ++ sep :: skipn (S (length w)) x) with ((w ++ [sep]) ++ skipn (S (length w)) x) by now rewrite <- app_assoc.
            f_equal. assert (F1 : firstn (S (length w)) (w ++ sep :: tl) = w ++ [sep]).
            { replace (S (length w)) with (length (w ++ [sep])) by (rewrite app_length; simpl; lia).
              replace (w ++ sep :: tl) with ((w ++ [sep]) ++ tl) by now rewrite <- app_assoc.
              rewrite firstn_app, firstn_all, Nat.sub_diag, firstn_O. apply app_nil_r. }
            rewrite Ey in F1. rewrite firstn_app in F1. replace (S (length w) - length x) with 0 in F1 by lia.
            rewrite firstn_O, app_nil_r in F1. exact F1. }
          destruct H as (x' & ->). rewrite <- app_assoc in Ey. apply app_inv_head in Ey. cbn [app] in Ey. injection Ey as Ey.
          destruct Htl as [->| ->].
          * destruct x'; [|discriminate]. destruct y; [simpl; lia|discriminate].
          * now apply (IH Hw' Hl' x' y z). }
    assert (length y <= 83); [|lia]. apply (K [a; b; c] W) with (x := x) (z := z); auto.
    eapply Forall_impl; [|exact F]. cbn beta. intros v (_ & _ & H & _). exact H. }
  pose proof (fields_tabbed [a; b; c] W ltac:(simpl; lia) SF) as FT.
  assert (Na : a <> [] /\ Forall (fun y => ~ white y) a /\ no_nul a) by (inversion F; tauto).
  clear - Na Hd E3 FT. destruct a as [|c0 a]; [easy|]. 
  assert (T : exists r, tabbed [c0 :: a; b; c] = c0 :: r) by (cbn [tabbed app]; eauto). destruct T as (r & T). rewrite T in *.
  assert (E : is_empty_line (c0 :: r) = false).
  { destruct Na as (_ & Wa & _). inversion Wa as [|? ? Wc _]; subst.
    unfold no_nul in E3. apply not_white_false in Wc.
    destruct c0 as [[] [] [] [] [] [] [] []]; try reflexivity; try (vm_compute in Wc; discriminate); exfalso; apply E3; now left. }
  assert (P : is_separator (c0 :: r) = false).
  { specialize (Hd a). destruct c0 as [[] [] [] [] [] [] [] []]; try reflexivity. congruence. }
  rewrite E, P. rewrite c_str_id by auto. unfold add_att_line. rewrite FT. reflexivity.
Qed.
Print Assumptions C67_bad_line.
(** C67, refuted without the bound on symbols: a symbol of a hundred letters overruns the
    reader's buffer although it was written without complaint. *)
Theorem C67_long_symbol_refuted : exists g text, att_writable (B "@0@") g /\
  write_in_att_format true g = Ok text /\ read_in_att_format (B "@0@") (Stream text false) 0 = Ub.
Proof.
  exists (set_final_weight (add_transition empty_graph 0 (Arc 1 (repeat "a"%char 100) (B "b") 0) true) 1 0). eexists.
  split; [|split; [vm_compute; reflexivity|vm_compute; reflexivity]].
  split; [split; [discriminate|split]|split; [discriminate|]].
  - intros [|[|[|s]]] a; simpl; intros [<-|[]] || intros []; simpl; lia.
  - intros [|[|s]] w; simpl; intros H; try discriminate; lia.
  - assert (P : forall x, Forall (fun c => c = "a"%char \/ c = "b"%char) x -> x <> [] -> att_plain (B "@0@") x).
    { intros x Fx Nx. rewrite Forall_forall in Fx.
      assert (NI : forall c, c <> "a"%char -> c <> "b"%char -> ~ In c x) by (intros c H1 H2 I; destruct (Fx c I); congruence).
      split; auto. split; [|split; [|split]].
      - right. right. split; [now apply NI|]. intros a y z b -> [->| ->]; exfalso.
        + eapply NI; [| |apply in_elt]; discriminate.
        + eapply NI; [| |apply in_elt]; discriminate.
      - now apply NI.
      - intros c I Wc. exfalso. unfold white in Wc. destruct (Fx c I) as [-> | ->]; cbn in Wc; repeat (destruct Wc as [Wc|Wc]; [discriminate|]); contradiction || discriminate.
      - intros ->. exfalso. apply (NI "@"%char); [discriminate|discriminate|now left]. }
    intros x (s & a & I & H). destruct s as [|[|[|s]]]; simpl in I; try tauto. destruct I as [<-|[]].
    destruct H as [->| ->]; apply P; try discriminate.
    + apply Forall_forall. intros c Hc. left. apply (repeat_spec 100 "a"%char). exact Hc.
    + constructor; [right; reflexivity|constructor].
Qed.
Print Assumptions C67_long_symbol_refuted.
(** C67, refuted for the istream reader: from any text whose first line ends in a newline
    it reads an empty transducer. *)
Theorem C67_istream_refuted : forall eps l rest count, ~ In "010"%char l -> length l <= 254 ->
  exists f', read_in_att_format_stream eps (Stream (l ++ "010"%char :: rest) false) count = Ok (empty_graph, f', count).
Proof. intros eps l rest count N L. eexists. apply (stream_reads_nothing eps l rest count N L). Qed.
Print Assumptions C67_istream_refuted.

Definition small_a : graph :=
  set_final_weight (add_transition (add_transition empty_graph 0 (Arc 2 (B "@_EPSILON_SYMBOL_@") (B "new york") 1500000) true)
    2 (Arc 0 (B "@P.X.Y@") (B "b") (-250000)) true) 2 7.
Example C67_witness :
  att_writable (B "@0@") small_a /\
  exists text, write_all true [small_a; empty_graph; small_a] = Ok text /\
    length text = 144 /\
    exists g1 g2 g3, txt2fst (B "@0@") text = Ok [g1; g2; g3] /\ arcs g3 2 = [Arc 0 (B "@P.X.Y@") (B "b") (-250000)] /\
      accepts g1 [(B "@_EPSILON_SYMBOL_@", B "new york")] 1500007.
Proof.
  split.
  - split; [split; [discriminate|split]|split; [discriminate|]].
    + intros [|[|[|[|s]]]] a; simpl; intuition; subst; simpl; lia.
    + intros [|[|[|s]]] w; simpl; intros H; try discriminate; lia.
    + assert (K : att_plain (B "@0@") (B "@_EPSILON_SYMBOL_@") /\ att_plain (B "@0@") (B "new york") /\
                  att_plain (B "@0@") (B "@P.X.Y@") /\ att_plain (B "@0@") (B "b")).
      { assert (O : forall n s, (forall k, k <= length s -> is_prefix n (skipn k s) = false) -> ~ occurs n s).
        { intros n s H (a & b & ->). specialize (H (length a)). rewrite app_length in H. rewrite skipn_app, skipn_all, Nat.sub_diag in H. simpl in H.
          assert (is_prefix n (n ++ b) = true) by (clear; induction n; simpl; auto; now rewrite Ascii.eqb_refl).
          rewrite H in H0; [discriminate|lia]. }
        assert (O' : forall n s, forallb (fun k => negb (is_prefix n (skipn k s))) (seq 0 (S (length s))) = true -> ~ occurs n s).
        { intros n s H. apply O. intros k Hk. rewrite forallb_forall in H. apply negb_true_iff, H. apply in_seq. lia. }
        repeat split; try discriminate; try (simpl; intuition discriminate); try (unfold no_nul; simpl; intuition discriminate);
          try (intros c I Wc; unfold white in Wc; cbn in I; repeat (destruct I as [<-|I];
                [try (left; reflexivity); exfalso; cbn in Wc; repeat (destruct Wc as [Wc|Wc]; [discriminate|]); contradiction|]); contradiction).
        - left. reflexivity.
        - right. right. split; [simpl; intuition discriminate|].
          intros a x y b E Bx. 
          assert (nth_error (B "new york") (length a) = Some x /\ nth_error (B "new york") (S (length a)) = Some y).
          { rewrite E. split; rewrite nth_error_app2 by lia; [now rewrite Nat.sub_diag|]. now replace (S (length a) - length a) with 1 by lia. }
          destruct H as [H1 H2]. destruct Bx as [->| ->]; do 9 (destruct a as [|? a]; [simpl in H1, H2; try discriminate; injection H2 as <-; split; discriminate|]); destruct a; discriminate.
        - right. left. split; [|repeat split; apply O'; reflexivity].
          repeat constructor; intros [H|H]; discriminate.
        - right. left. split; [|repeat split; apply O'; reflexivity].
          repeat constructor; intros [H|H]; discriminate. }
      destruct K as (K1 & K2 & K3 & K4).
      intros x (s & a & I & H). destruct s as [|[|[|[|s]]]]; simpl in I; try tauto; destruct I as [<-|[]]; destruct H as [->| ->]; auto.
  - eexists. split; [vm_compute; reflexivity|]. split; [reflexivity|]. eexists _, _, _. split; [vm_compute; reflexivity|].
    split; [reflexivity|]. exists 2, 1500000%Z, 7%Z. split; [|split; reflexivity].
    change 1500000%Z with (1500000 + 0)%Z.
    apply (run_cons _ 0 (Arc 2 (B "@_EPSILON_SYMBOL_@") (B "new york") 1500000) [] 0 2); [left; reflexivity|constructor].
Qed.

(** C68: the numeric notation is the ordinary one with numbers for symbols, when every
    final state has exactly one transition. *)
Theorem C68_number_format_partial : forall num weights g,
  (forall s w, mget Nat.compare s (fin g) = Some w -> length (nth s (sts g) []) = 1) ->
  (forall x, used g x -> (N.of_nat (num x) < 2 ^ 31)%N) ->
  write_in_att_format weights
    (Graph (map (map (fun a => Arc (tgt a) (print_nat (N.of_nat (num (isy a)))) (print_nat (N.of_nat (num (osy a)))) (wt a))) (sts g)) (fin g) (alpha g))
  = Ok (write_in_att_format_number num weights g).
Proof.
  intros num weights g HF HN. unfold write_in_att_format, write_in_att_format_number. cbn [sts].
  assert (E0 : forall n, att_escape (print_nat n) = Ok (print_nat n)).
  { intros n. unfold att_escape. cbn [replaces].
    assert (K : forall c r, digit_value c = None -> replace_all (print_nat n) (c :: r) = replace_all (print_nat n) (c :: r) ) by auto.
    assert (O : forall c r, digit_value c = None -> ~ occurs (c :: r) (print_nat n)).
    { intros c r H (a & b & E). pose proof (print_nat_digits n) as D. rewrite Forall_forall in D.
      destruct (D c) as [d Hd]; [rewrite E; apply in_elt|congruence]. }
    assert (R : forall c r x, digit_value c = None -> replace_all (print_nat n) (c :: r) x = Ok (print_nat n)).
    { intros c r x H. apply replace_all_eq; [discriminate|]. now apply replaced_not_occurs, O. }
    change (B " ") with (" "%char :: []). rewrite R by reflexivity. cbn [rbind].
    change (B "@_EPSILON_SYMBOL_@") with ("@"%char :: B "_EPSILON_SYMBOL_@"). rewrite R by reflexivity. cbn [rbind].
    rewrite R by reflexivity. reflexivity. }
  assert (H1 : forall l s, (forall k a, In a (nth k l []) -> (N.of_nat (num (isy a)) < 2 ^ 31)%N /\ (N.of_nat (num (osy a)) < 2 ^ 31)%N) ->
     (forall k w, finw g (s + k) = Some w -> k < length l -> length (nth k l []) = 1) ->
     att_states weights (Graph (map (map (fun a => Arc (tgt a) (print_nat (N.of_nat (num (isy a)))) (print_nat (N.of_nat (num (osy a)))) (wt a))) (sts g)) (fin g) (alpha g))
       (map (map (fun a => Arc (tgt a) (print_nat (N.of_nat (num (isy a)))) (print_nat (N.of_nat (num (osy a)))) (wt a))) l) s
     = Ok (num_states num weights g l s)).
  { induction l as [|x l IH]; intros s Hn Hf; [reflexivity|]. cbn [map att_states num_states].
    rewrite (IH (S s)).
    - cbn [rmap]. 
      assert (A : forall y, (forall a, In a y -> In a x) -> finw g s = None \/ length y = 1 ->
        exists t, att_arc_lines weights s (map (fun a => Arc (tgt a) (print_nat (N.of_nat (num (isy a)))) (print_nat (N.of_nat (num (osy a)))) (wt a)) y) = Ok t /\
        concat (map (num_arc_line num weights g s) y) = t ++ match finw g s with Some w => att_final_line weights s w | None => [] end).
      { assert (LN : forall a, In a x -> exists t, att_arc_line weights s (Arc (tgt a) (print_nat (N.of_nat (num (isy a)))) (print_nat (N.of_nat (num (osy a)))) (wt a)) = Ok t /\
            num_arc_line num weights g s a = t ++ match finw g s with Some w => att_final_line weights s w | None => [] end).
        { intros a I. unfold att_arc_line. cbn [isy osy tgt wt]. rewrite !E0. cbn [rbind]. eexists. split; [reflexivity|].
          destruct (Hn 0 a I) as [N1 N2].
          unfold num_arc_line. rewrite (print_int_small (N.of_nat (num (isy a)))), (print_int_small (N.of_nat (num (osy a)))) by auto.
          rewrite !c_str_id by apply no_nul_digits, print_nat_digits. now rewrite <- !app_assoc. }
        intros y Hy [Hs|Hs].
        - rewrite Hs in *. induction y as [|a y IHy]; [exists []; split; reflexivity|].
          destruct (LN a) as (t & E1 & E2); [apply Hy; now left|].
          destruct IHy as (u & E3 & E4); [intros b Hb; apply Hy; now right|].
          exists (t ++ u). cbn [map att_arc_lines concat]. rewrite E1. cbn [rbind]. rewrite E3, E2, E4. cbn [rmap]. split; auto.
          rewrite !app_nil_r. reflexivity.
        - destruct y as [|a [|b y]]; try discriminate. destruct (LN a) as (t & E1 & E2); [apply Hy; now left|].
          exists t. cbn [map att_arc_lines concat]. rewrite E1, E2. cbn [rbind rmap]. rewrite !app_nil_r. auto. }
      destruct (A x) as (t & -> & ->); auto.
      + destruct (finw g s) as [w|] eqn:E; auto. right. apply (Hf 0 w); [now rewrite Nat.add_0_r|simpl; lia].
      + cbn [rbind]. unfold finw. cbn [fin]. now rewrite <- app_assoc.
    - intros k a I. apply (Hn (S k) a I).
    - intros k w E L. apply (Hf (S k) w); [now rewrite Nat.add_succ_r|simpl; lia]. }
  apply H1.
  - intros k a I. split; apply HN; exists k, a; auto.
  - intros k w E _. now apply HF in E.
Qed.
Print Assumptions C68_number_format_partial.
(** C68, refuted otherwise: a final state without transitions is not listed, and one with
    several is listed several times. *)
Theorem C68_number_finals_refuted :
  (exists g num, structure_ok g /\ accepts g [(B "a", B "a")] 0 /\ forall weights,
     write_in_att_format_number num weights g = write_in_att_format_number num weights (remove_final_weight g 1)) /\
  (exists g num, write_in_att_format_number num false g =
     B "0" ++ [tab] ++ B "0" ++ [tab] ++ B "3" ++ [tab] ++ B "3" ++ [nl] ++ B "0" ++ [nl] ++
     B "0" ++ [tab] ++ B "0" ++ [tab] ++ B "4" ++ [tab] ++ B "4" ++ [nl] ++ B "0" ++ [nl]).
Proof.
  split.
  - exists (Graph [[Arc 1 (B "a") (B "a") 0]; []] [(1, 0%Z)] [EPS; UNK; IDN; B "a"]), (fun _ => 3). repeat split.
    + discriminate.
    + intros [|[|[|s]]] a; simpl; intros [<-|[]] || intros []; simpl; lia.
    + intros [|[|s]] w; simpl; intros H; try discriminate; lia.
    + exists 1, 0%Z, 0%Z. split; [|split; reflexivity].
      change 0%Z with (0 + 0)%Z at 1. apply (run_cons _ 0 (Arc 1 (B "a") (B "a") 0) [] 0 1); [left; reflexivity|constructor].
  - exists (Graph [[Arc 0 (B "a") (B "a") 0; Arc 0 (B "b") (B "b") 0]] [(0, 0%Z)] [EPS; UNK; IDN; B "a"; B "b"]),
      (fun x => if bstr_eqb x (B "a") then 3 else 4). reflexivity.
Qed.
Print Assumptions C68_number_finals_refuted.
Example C68_witness :
  let g := Graph [[Arc 0 (B "a") (B "b") 0]] [(0, 0%Z)] [EPS; UNK; IDN; B "a"; B "b"] in
  (forall s w, mget Nat.compare s (fin g) = Some w -> length (nth s (sts g) []) = 1) /\
  write_in_att_format_number (fun _ => 12) true g =
    B "0" ++ [tab] ++ B "0" ++ [tab] ++ B "12" ++ [tab] ++ B "12" ++ [tab] ++ B "0.000000" ++ [nl] ++ B "0" ++ [tab] ++ B "0.000000" ++ [nl].
Proof. split; [|reflexivity]. intros [|s] w; simpl; auto; discriminate. Qed.
