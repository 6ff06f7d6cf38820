(** Model of the AT&T text format: libhfst/src/implementations/HfstBasicTransducer.cc
    (line numbers without a file name refer to it), FILE* and istream versions.

    Simplifications: a weight stands for so many millionths, which printf's %f writes
    exactly; the rounding of binary floats is left out.  Warnings on stderr are left
    out.  See BT_Model for the graph. *)
From Verif Require Import Base BT_Model Str_Model.

Definition nl : ascii := "010"%char.
(** isspace in the C locale. *)
Definition is_white (c : ascii) : bool :=
  existsb (Ascii.eqb c) [" "; "009"; "010"; "011"; "012"; "013"]%char.

(** * Numbers as text *)
Definition digit (n : N) : ascii := ascii_of_N (48 + n).
(** Decimal digits, least significant first; a binary digit yields at most one decimal
    digit, so N.size_nat steps are enough. *)
Fixpoint digits (fuel : nat) (n : N) : bstr :=
  match fuel with
  | 0 => []
  | S f => if (n =? 0)%N then [] else digit (n mod 10) :: digits f (n / 10)
  end.
(** printf's %u *)
Definition print_nat (n : N) : bstr := if (n =? 0)%N then B "0" else rev (digits (N.size_nat n) n).
(** printf's %i, given an unsigned int (state number). *)
Definition print_int (n : N) : bstr :=
  if (n <? 2 ^ 31)%N then print_nat n else B "-" ++ print_nat (2 ^ 32 - n mod 2 ^ 32).
(** printf's %f *)
Definition print_float (w : Z) : bstr :=
  let a := Z.to_N (Z.abs w) in
  (if (w <? 0)%Z then B "-" else []) ++ print_nat (a / 1000000) ++ B "." ++
  let f := print_nat (a mod 1000000) in repeat "0"%char (6 - length f) ++ f.

Definition digit_value (c : ascii) : option N :=
  let n := N_of_ascii c in if ((48 <=? n) && (n <=? 57))%N%bool then Some (n - 48)%N else None.
(** The value of the leading digits and the rest. *)
Fixpoint read_digits (s : bstr) (acc : N) : N * bstr :=
  match s with
  | [] => (acc, [])
  | c :: r => match digit_value c with Some d => read_digits r (10 * acc + d)%N | None => (acc, s) end
  end.
Fixpoint skip_white (s : bstr) : bstr :=
  match s with c :: r => if is_white c then skip_white r else s | [] => [] end.
Definition read_sign (s : bstr) : bool * bstr :=
  match s with
  | "-"%char :: r => (true, r)
  | "+"%char :: r => (false, r)
  | _ => (false, s)
  end.
(** atoi: undefined beyond the range of int. *)
Definition atoi (s : bstr) : res Z :=
  let '(neg, r) := read_sign (skip_white s) in
  let n := Z.of_N (fst (read_digits r 0)) in
  let z := if neg then (- n)%Z else n in
  if ((- 2 ^ 31 <=? z) && (z <? 2 ^ 31))%Z%bool then Ok z else Ub.
(** The conversion of an int to HfstState (unsigned int). *)
Definition state_of_int (z : Z) : nat := Z.to_nat (z mod 2 ^ 32).

(** Six digits after the point, in millionths; further ones are dropped. *)
Fixpoint read_fraction (k : nat) (unit : N) (s : bstr) : N :=
  match k, s with
  | S k', c :: r =>
      match digit_value c with
      | Some d => (d * unit + read_fraction k' (unit / 10) r)%N
      | None => 0%N
      end
  | _, _ => 0%N
  end.
(** atof (and operator>> on a float) for decimal notation; exponents, hexadecimal
    numbers, infinities and nan are not modelled (the text before them counts). *)
Definition atof (s : bstr) : Z :=
  let '(neg, r) := read_sign (skip_white s) in
  let '(n, r1) := read_digits r 0 in
  let f := match r1 with "."%char :: r2 => read_fraction 6 100000 r2 | _ => 0%N end in
  let z := Z.of_N (1000000 * n + f) in
  if neg then (- z)%Z else z.

(** * Writing *)
(** A std::string printed with %s. *)
Fixpoint c_str (s : bstr) : bstr :=
  match s with c :: r => if Ascii.eqb c "000"%char then [] else c :: c_str r | [] => [] end.

(** write_in_att_format (FILE* version), :1590-1633: one transition. *)
Definition att_arc_line (weights : bool) (s : nat) (a : arc) : res bstr :=
  rbind (att_escape (isy a)) (fun i =>
  rbind (att_escape (osy a)) (fun o =>
  Ok (print_int (N.of_nat s) ++ [tab] ++ print_int (N.of_nat (tgt a)) ++ [tab] ++ c_str i ++ [tab] ++ c_str o ++
      (if weights then [tab] ++ print_float (wt a) else []) ++ [nl]))).
(** :1622-1630: a final state. *)
Definition att_final_line (weights : bool) (s : nat) (w : Z) : bstr :=
  print_int (N.of_nat s) ++ (if weights then [tab] ++ print_float w else []) ++ [nl].
Fixpoint att_arc_lines (weights : bool) (s : nat) (l : list arc) : res bstr :=
  match l with
  | [] => Ok []
  | a :: r => rbind (att_arc_line weights s a) (fun x => rmap (app x) (att_arc_lines weights s r))
  end.
(** The loop over the state vector, from state [s] on. *)
Fixpoint att_states (weights : bool) (g : graph) (l : list (list arc)) (s : nat) : res bstr :=
  match l with
  | [] => Ok []
  | x :: r =>
      rbind (att_arc_lines weights s x) (fun t =>
      rmap (fun u => t ++ (match finw g s with Some w => att_final_line weights s w | None => [] end) ++ u)
           (att_states weights g r (S s)))
  end.
Definition write_in_att_format (weights : bool) (g : graph) : res bstr := att_states weights g (sts g) 0.
(** process_stream of tools/src/hfst-fst2txt.cc:217-246: transducers separated by lines of two hyphens. *)
Fixpoint write_all (weights : bool) (gs : list graph) : res bstr :=
  match gs with
  | [] => Ok []
  | [g] => write_in_att_format weights g
  | g :: r => rbind (write_in_att_format weights g) (fun t => rmap (fun u => t ++ B "--" ++ [nl] ++ u) (write_all weights r))
  end.

(** * Reading *)
(** A FILE* or istream: the bytes to come and the end-of-file indicator. *)
Record stream := Stream { bytes : bstr; eof : bool }.
(** Up to k bytes, through the first newline; the flag tells whether the end was reached. *)
Fixpoint take_line (k : nat) (s : bstr) : bstr * bstr * bool :=
  match k with
  | 0 => ([], s, false)
  | S k' =>
      match s with
      | [] => ([], [], true)
      | c :: r =>
          if Ascii.eqb c nl then ([c], r, false)
          else let '(l, rest, e) := take_line k' r in (c :: l, rest, e)
      end
  end.
(** fgets(line, 255, file): NULL if the end comes first. *)
Definition fgets (f : stream) : option bstr * stream :=
  let '(l, r, e) := take_line 254 (bytes f) in
  (match l with [] => None | _ => Some l end, Stream r (eof f || e)).
Definition fgetc (f : stream) : stream :=
  match bytes f with [] => Stream [] true | _ :: r => Stream r (eof f) end.

(** sscanf with conversions "%s": fields separated by white space. *)
Fixpoint split_white (s : bstr) : list bstr :=
  match s with
  | [] => []
  | c :: r =>
      if is_white c then split_white r
      else match r with
           | [] => [[c]]
           | d :: _ =>
               if is_white d then [c] :: split_white r
               else match split_white r with x :: l => (c :: x) :: l | [] => [[c]] end
           end
  end.
(** sscanf(line, "%s%s%s%s%s", a1 .. a5): each field goes to an array of 100 chars
    without a bound. *)
Definition att_fields (line : bstr) : res (list bstr) :=
  let l := firstn 5 (split_white line) in
  if existsb (fun x => 100 <=? length x) l then Ub else Ok l.

(** add_att_line, :1720-1785; None for the result false. *)
Definition add_att_line (epsilon_symbol line : bstr) (g : graph) : res (option graph) :=
  let transition a1 a2 a3 a4 w :=
    rbind (att_read_symbol epsilon_symbol a3) (fun i =>
    rbind (att_read_symbol epsilon_symbol a4) (fun o =>
    rbind (atoi a2) (fun t => rbind (atoi a1) (fun s =>
    Ok (Some (add_transition g (state_of_int s) (Arc (state_of_int t) i o w) true)))))) in
  let final a1 w := rbind (atoi a1) (fun s => Ok (Some (set_final_weight g (state_of_int s) w))) in
  rbind (att_fields line) (fun fs =>
  match fs with
  | [a1] => final a1 0%Z
  | [a1; a2] => final a1 (atof a2)
  | [a1; a2; a3; a4] => transition a1 a2 a3 a4 0%Z
  | [a1; a2; a3; a4; a5] => transition a1 a2 a3 a4 (atof a5)
  | _ => Ok None
  end).

(** The tests on a line in read_in_att_format, :1838-1866. *)
Definition is_empty_line (line : bstr) : bool :=
  match line with
  | [] => true
  | "000"%char :: _ => true
  | ["010"%char] => true
  | "010"%char :: "000"%char :: _ => true
  | ["013"%char; "010"%char] => true
  | "013"%char :: "010"%char :: "000"%char :: _ => true
  | _ => false
  end.
Definition is_separator (line : bstr) : bool := match line with "-"%char :: _ => true | _ => false end.

(** The loop of read_in_att_format, :1826-1869, reading from a FILE*; the graph read,
    the file and the line count afterwards.  Every round consumes a byte. *)
Fixpoint att_loop (fuel : nat) (epsilon_symbol : bstr) (f : stream) (count : nat) (g : graph) : res (graph * stream * nat) :=
  match fuel with
  | 0 => Diverge
  | S n =>
      match fgets f with
      | (None, f') => Ok (g, f', count)
      | (Some line, f') =>
          if is_empty_line line then Ok (g, fgetc f', S count)
          else if is_separator line then Ok (g, f', S count)
          else rbind (add_att_line epsilon_symbol (c_str line) g) (fun r =>
               match r with
               | None => Throw
               | Some g' => att_loop n epsilon_symbol f' (S count) g'
               end)
      end
  end.
(** read_in_att_format, :1796-1868; EndOfStreamException at the end, NotValidAttFormatException
    for a line that cannot be parsed. *)
Definition read_in_att_format (epsilon_symbol : bstr) (f : stream) (count : nat) : res (graph * stream * nat) :=
  if eof f then Throw else att_loop (S (length (bytes f))) epsilon_symbol f count empty_graph.

(** process_stream of tools/src/hfst-txt2fst.cc:226-358: transducers are read until the
    end of the file. *)
Fixpoint read_all (fuel : nat) (epsilon_symbol : bstr) (f : stream) (count : nat) : res (list graph) :=
  match fuel with
  | 0 => Diverge
  | S n =>
      if eof f then Ok []
      else rbind (read_in_att_format epsilon_symbol f count) (fun '(g, f', count') =>
           rmap (cons g) (read_all n epsilon_symbol f' count'))
  end.
Definition txt2fst (epsilon_symbol text : bstr) : res (list graph) :=
  read_all (S (S (length text))) epsilon_symbol (Stream text false) 0.

(** istream::getline(line, 255): the text up to a newline, which is extracted and
    dropped, or up to the end (eofbit), or 254 bytes (failbit). *)
Definition getline (f : stream) : bstr * stream :=
  let '(l, r, e) := take_line 255 (bytes f) in
  if length l <=? 254 then (filter (fun c => negb (Ascii.eqb c nl)) l, Stream r (eof f || e))
  else match rev l with
       | c :: _ => if Ascii.eqb c nl then (removelast l, Stream r (eof f)) else (removelast l, Stream (skipn 254 (bytes f)) (eof f))
       | [] => ([], Stream r (eof f))
       end.
(** read_in_att_format on an istream: the loop is left when getline has NOT come to the
    end, :1829-1834. *)
Fixpoint att_loop_stream (fuel : nat) (epsilon_symbol : bstr) (f : stream) (count : nat) (g : graph) : res (graph * stream * nat) :=
  match fuel with
  | 0 => Diverge
  | S n =>
      let '(line, f') := getline f in
      if negb (eof f') then Ok (g, f', count)
      else if is_empty_line line then Ok (g, fgetc f', S count)
      else if is_separator line then Ok (g, f', S count)
      else rbind (add_att_line epsilon_symbol (c_str line) g) (fun r =>
           match r with
           | None => Throw
           | Some g' => att_loop_stream n epsilon_symbol f' (S count) g'
           end)
  end.
Definition read_in_att_format_stream (epsilon_symbol : bstr) (f : stream) (count : nat) : res (graph * stream * nat) :=
  if eof f then Throw else att_loop_stream (S (S (length (bytes f)))) epsilon_symbol f count empty_graph.

(** write_in_att_format_number, :1689-1717: the final line comes inside the loop over the
    transitions; [num] gives the symbol numbers. *)
Section Number.
  Variable num : bstr -> nat.
  Definition num_arc_line (weights : bool) (g : graph) (s : nat) (a : arc) : bstr :=
    print_int (N.of_nat s) ++ [tab] ++ print_int (N.of_nat (tgt a)) ++ [tab] ++
    print_int (N.of_nat (num (isy a))) ++ [tab] ++ print_int (N.of_nat (num (osy a))) ++
    (if weights then [tab] ++ print_float (wt a) else []) ++ [nl] ++
    match finw g s with Some w => att_final_line weights s w | None => [] end.
  Fixpoint num_states (weights : bool) (g : graph) (l : list (list arc)) (s : nat) : bstr :=
    match l with
    | [] => []
    | x :: r => concat (map (num_arc_line weights g s) x) ++ num_states weights g r (S s)
    end.
  Definition write_in_att_format_number (weights : bool) (g : graph) : bstr := num_states weights g (sts g) 0.
End Number.
