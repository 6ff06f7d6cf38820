(** print_pckimmo, libhfst/src/HfstPrintPCKimmo.cc, the output format of hfst-fst2txt -f pckimmo. *)
From Verif Require Import Base BT_Model ATT_Model.
From Coq Require Import NArith.

(** The pairs of symbols, HfstPrintPCKimmo.cc:23-33. *)
Definition all_pairs (g : graph) : list (bstr * bstr) :=
  fold_left (fun s a => sadd pcmp (label a) s) (concat (sts g)) [].
(** numwidth, HfstPrintPCKimmo.cc:35-37.  The counter i, an unsigned int, wraps around beyond 10^9
    states, which is not modelled. *)
Fixpoint count_width (fuel : nat) (i last : N) : nat :=
  match fuel with
  | 0 => 0
  | S f => if (i <? last)%N then S (count_width f (i * 10) last) else 0
  end.
Definition numwidth (last : N) : nat := count_width 10 1 last.

(** printf with %*s of one space, %.*s and %.*d; the numbers are less than 2^31. *)
Definition pad_space (w : nat) : bstr := repeat " "%char (Nat.max w 1).
Definition precision_s (w : nat) (s : bstr) : bstr := firstn w s.
Definition precision_d (w : nat) (n : N) : bstr :=
  let s := if (n =? 0)%N then [] else print_nat n in repeat "0"%char (w - length s) ++ s.

(** One symbol of the first two lines, HfstPrintPCKimmo.cc:41-55 and 60-75. *)
Definition symbol_text (w : nat) (x : bstr) : bstr :=
  (if bstr_eqb x EPS then precision_s w (B "0")
   else if bstr_eqb x UNK then precision_s w (B "@")
   else precision_s w x) ++ B " ".
Definition NEWLINE : bstr := ["010"%char].
Definition symbol_line (w : nat) (xs : list bstr) : bstr :=
  pad_space w ++ B "  " ++ concat (map (symbol_text w) xs) ++ NEWLINE.

(** The map transitions of one state, HfstPrintPCKimmo.cc:89-99, with the numbers printed: -1 plus
    1 is 0.  Every label has an entry already, so an assignment changes that entry. *)
Definition assign (p : bstr * bstr) (v : N) (m : list ((bstr * bstr) * N)) : list ((bstr * bstr) * N) :=
  map (fun e => if pair_eqb (fst e) p then (fst e, v) else e) m.
Definition row_entries (pairs : list (bstr * bstr)) (l : list arc) : list ((bstr * bstr) * N) :=
  fold_left (fun m a => assign (label a) (N.of_nat (tgt a + 1)) m) l (map (fun p => (p, 0%N)) pairs).
(** One row, HfstPrintPCKimmo.cc:78-106. *)
Definition row (g : graph) (w : nat) (pairs : list (bstr * bstr)) (s : nat) : bstr :=
  precision_d w (N.of_nat (s + 1)) ++ (if is_final_state g s then B ". " else B ": ") ++
  concat (map (fun e => precision_d w (snd e) ++ B " ") (row_entries pairs (arcs g s))) ++ NEWLINE.
(** print_pckimmo, HfstPrintPCKimmo.cc:17-107. *)
Definition print_pckimmo (g : graph) : bstr :=
  let pairs := all_pairs g in
  let w := numwidth (N.of_nat (length (sts g))) in
  symbol_line w (map fst pairs) ++ symbol_line w (map snd pairs) ++
  concat (map (row g w pairs) (seq 0 (length (sts g)))).
