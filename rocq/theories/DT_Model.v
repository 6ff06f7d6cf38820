(** The edges of print_dot, libhfst/src/HfstPrintDot.cc, the output format of hfst-fst2txt -f dot.
    The function that prints to a FILE is modelled; the one that prints to an ostream has the same code
    for the edges (:310-447).  Header and nodes (:80-118) are not modelled. *)
From Verif Require Import Base BT_Model ATT_Model Str_Model.
From Coq Require Import NArith ZArith.

(** The condition of the loop body of trim_to_valid_utf8, HfstPrintDot.cc:59-73, for the byte [i] places
    before the end. *)
Definition has_bits (mask : N) (c : ascii) : bool := N.eqb (N.land (N_of_ascii c) mask) mask.
Definition cut_here (i : nat) (c : ascii) : bool :=
  (i <? 2) && has_bits 192 c || (i <? 3) && has_bits 224 c || (i <? 4) && has_bits 240 c.
(** The loop, HfstPrintDot.cc:57. *)
Fixpoint trim_loop (is : list nat) (s : bstr) : bstr :=
  match is with
  | [] => s
  | i :: r =>
      if i <? length s then
        if cut_here i (nth (length s - i) s "000"%char) then firstn (length s - i) s else trim_loop r s
      else s
  end.
(** trim_to_valid_utf8, HfstPrintDot.cc:53-75.  With the empty text len-i wraps around and the byte
    before the text is read. *)
Definition trim_to_valid_utf8 (s : bstr) : res bstr :=
  match s with [] => Ub | _ => Ok (trim_loop [1; 2; 3] s) end.

(** The names of special symbols, HfstPrintDot.cc:126-151. *)
Definition dot_symbol (unknown x : bstr) : bstr :=
  if bstr_eqb x BT_Model.EPS then B "00" else if bstr_eqb x BT_Model.IDN then B "??" else if bstr_eqb x BT_Model.UNK then unknown else x.
(** DOT_MAX_LABEL_SIZE, HfstPrintDot.cc:152, less the NUL byte that snprintf writes. *)
Definition LABEL_BYTES : nat := 63.
(** The label after one more transition, HfstPrintDot.cc:125-255.  [price] stands for %.2f; symbols contain no
    NUL byte. *)
Definition add_label (price : Z -> bstr) (old : bstr) (a : arc) : res bstr :=
  let first := dot_symbol (B "?1") (isy a) in
  let second := dot_symbol (B "?2") (osy a) in
  let text := (if bstr_eqb first second then first else first ++ B ":" ++ second) ++
              (if (0 <? wt a)%Z then B "/" ++ price (wt a) else []) in
  let l := firstn LABEL_BYTES (match old with [] => text | _ => old ++ B ", " ++ text end) in
  rbind (trim_to_valid_utf8 l) (fun l => replace_all l ["034"%char] ["092"%char; "034"%char]).
(** target_labels of one state, HfstPrintDot.cc:122-257. *)
Fixpoint target_labels (price : Z -> bstr) (l : list arc) (m : list (nat * bstr)) : res (list (nat * bstr)) :=
  match l with
  | [] => Ok m
  | a :: r =>
      rbind (add_label price (match mget Nat.compare (tgt a) m with Some x => x | None => [] end) a)
        (fun x => target_labels price r (mset Nat.compare (tgt a) x m))
  end.
(** One line, HfstPrintDot.cc:258-262; the numbers of states are less than 2^31. *)
Definition edge_line (s : nat) (e : nat * bstr) : bstr :=
  B "q" ++ print_nat (N.of_nat s) ++ B " -> q" ++ print_nat (N.of_nat (fst e)) ++ B " " ++
  B "[label=""" ++ snd e ++ B " ""];" ++ ["010"%char].
(** The edges of all states, HfstPrintDot.cc:119-264. *)
Fixpoint print_edges (price : Z -> bstr) (s : nat) (states : list (list arc)) : res bstr :=
  match states with
  | [] => Ok []
  | l :: r =>
      rbind (target_labels price l []) (fun m =>
      rbind (print_edges price (S s) r) (fun rest => Ok (concat (map (edge_line s) m) ++ rest)))
  end.
