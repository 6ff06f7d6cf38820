(** The PC-KIMMO format of hfst-fst2txt: property C175. *)
From Verif Require Import Base IN_Spec BT_Model BT_Proofs PK_Spec PK_Model PK_Proofs.
From Coq Require Import NArith Lia.

(** C175: the table has a line of input symbols and a line of output symbols with one column for each
    pair of symbols of the transducer, and one row for each state; the row tells whether the state
    is final and, under each pair, where the state goes.  Partial: there are at least two and at
    most 10^9 states, and no symbol is longer than the numbers are wide; where a state goes to several
    states with one pair, only one of them is told. *)
Theorem C175_table_partial g w : width_of (N.of_nat (length (sts g))) w -> 1 <= w <= 9 ->
  (forall i o t, used_pair g (i, o) -> written i t \/ written o t -> length t <= w) ->
  exists pairs line1 line2 rows ins outs,
    print_pckimmo g = repeat " "%char w ++ B "  " ++ line1 ++ "010"%char :: repeat " "%char w ++ B "  " ++ line2 ++ "010"%char :: concat (map (fun r => r ++ ["010"%char]) rows) /\
    NoDup pairs /\ (forall p, In p pairs <-> used_pair g p) /\
    cells line1 ins /\ Forall2 written (map fst pairs) ins /\ cells line2 outs /\ Forall2 written (map snd pairs) outs /\
    length rows = length (sts g) /\ forall s r, nth_error rows s = Some r -> row_of g pairs s r.
Proof.
  intros W [W1 W9] H. pose proof (numwidth_spec _ _ W W9) as NW.
  destruct (symbol_cells w (map fst (all_pairs g))) as (ins & FI & CI).
  { intros x t I WR. apply in_map_iff in I. destruct I as ([i o] & <- & I). apply all_pairs_used in I. exact (H i o t I (or_introl WR)). }
  destruct (symbol_cells w (map snd (all_pairs g))) as (outs & FO & CO).
  { intros x t I WR. apply in_map_iff in I. destruct I as ([i o] & <- & I). apply all_pairs_used in I. exact (H i o t I (or_intror WR)). }
  set (body := fun s => precision_d w (N.of_nat (s + 1)) ++ (if is_final_state g s then B ". " else B ": ") ++
    concat (map (fun e => precision_d w (snd e) ++ B " ") (row_entries (all_pairs g) (arcs g s)))).
  exists (all_pairs g), (concat (map (symbol_text w) (map fst (all_pairs g)))), (concat (map (symbol_text w) (map snd (all_pairs g)))),
    (map body (seq 0 (length (sts g)))), ins, outs.
  split; [|split; [|split; [|split; [|split; [|split; [|split; [|split]]]]]]].
  - unfold print_pckimmo. rewrite NW. unfold symbol_line, pad_space, NEWLINE. replace (Nat.max w 1) with w by lia.
    rewrite (map_map body). repeat rewrite <- app_assoc. cbn [app].
    replace (map (row g w (all_pairs g)) (seq 0 (length (sts g)))) with (map (fun s => body s ++ ["010"%char]) (seq 0 (length (sts g)))); [reflexivity|].
    apply map_ext. intros s. unfold row, body, NEWLINE. repeat rewrite <- app_assoc. reflexivity.
  - apply all_pairs_NoDup.
  - apply all_pairs_used.
  - exact CI.
  - exact FI.
  - exact CO.
  - exact FO.
  - rewrite map_length, seq_length. reflexivity.
  - intros s r E. assert (L : s < length (sts g)).
    { assert (K : nth_error (map body (seq 0 (length (sts g)))) s <> None) by congruence. apply nth_error_Some in K. rewrite map_length, seq_length in K. exact K. }
    rewrite nth_error_map in E. rewrite (nth_error_nth' _ 0) in E by (rewrite seq_length; exact L). rewrite seq_nth in E by exact L. cbn in E. injection E as <-.
    exists (precision_d w (N.of_nat (s + 1))), (if is_final_state g s then "."%char else ":"%char),
      (concat (map (fun e => precision_d w (snd e) ++ B " ") (row_entries (all_pairs g) (arcs g s)))),
      (map (fun e => precision_d w (snd e)) (row_entries (all_pairs g) (arcs g s))).
    split; [unfold body; destruct (is_final_state g s); reflexivity|]. split; [apply precision_d_decimal, W1|]. split; [reflexivity|]. split.
    + unfold cells. rewrite map_map. reflexivity.
    + apply row_entry, W1.
Qed.
Print Assumptions C175_table_partial.

(** Symbols are cut to the width of the numbers: different transducers print the same table. *)
Theorem C175_symbols_refuted : exists g h, print_pckimmo g = print_pckimmo h /\
  used_pair g (B "ab", B "ab") /\ used_pair h (B "ac", B "ac") /\ ~ used_pair g (B "ac", B "ac").
Proof.
  exists (Graph [[Arc 1 (B "ab") (B "ab") 0]; []] [] []), (Graph [[Arc 1 (B "ac") (B "ac") 0]; []] [] []).
  split; [reflexivity|]. split; [exists 0; eexists; split; [left; reflexivity|reflexivity]|]. split; [exists 0; eexists; split; [left; reflexivity|reflexivity]|].
  intros (s & a & I & E). destruct s as [|[|s]]; cbn in I; [destruct I as [<-|[]]; discriminate E|destruct I|destruct s; destruct I].
Qed.
Print Assumptions C175_symbols_refuted.
(** With one state the width is 0, and no symbol is printed at all. *)
Theorem C175_one_state_refuted i o : print_pckimmo (Graph [[Arc 0 i o 0]] [(0, 0%Z)] []) = B "    
    
1. 1 
".
Proof.
  unfold print_pckimmo. cbn -[symbol_line]. unfold symbol_line, symbol_text, precision_s. cbn [map fst snd firstn].
  rewrite (proj2 (BT_Proofs.pair_eqb_eq (label (Arc 0 i o 0)) (label (Arc 0 i o 0))) eq_refl).
  destruct (bstr_eqb i EPS), (bstr_eqb i UNK), (bstr_eqb o EPS), (bstr_eqb o UNK); reflexivity.
Qed.
Print Assumptions C175_one_state_refuted.
(** Of several transitions with one label only the last is printed. *)
Theorem C175_lost_refuted : exists a b l, a <> b /\
  print_pckimmo (Graph [[Arc a l l 0; Arc b l l 0]; []; []] [] []) = print_pckimmo (Graph [[Arc b l l 0]; []; []] [] []).
Proof. exists 1, 2, (B "x"). split; [discriminate|reflexivity]. Qed.
Print Assumptions C175_lost_refuted.

Example C175_witness : width_of 3 1 /\ print_pckimmo (Graph [[Arc 1 (B "a") EPS 0; Arc 2 (B "b") (B "b") 0]; [Arc 1 (B "b") (B "b") 0]; []] [(2, 0%Z)] []) = B "   a b 
   0 b 
1: 2 3 
2: 0 2 
3. 0 0 
".
Proof. split; [split; [vm_compute; discriminate|]|reflexivity]. intros k K. assert (k = 0) as -> by lia. reflexivity. Qed.
