(** Model of the Prolog text format: libhfst/src/implementations/HfstBasicTransducer.cc
    (line numbers without a file name refer to it), FILE* version, and the istream reader.

    Simplifications: weights as in ATT_Model; the line count and the messages are left
    out; NotValidPrologFormatException is [Throw].  A NUL byte in a symbol is written as
    it is (printf would stop there); the theorems assume there is none.  Symbols in the
    text are in Str_Model (prologize_symbol, deprologize_symbol, print_prolog_arc_symbols,
    get_prolog_arc_symbols). *)
From Verif Require Import Base BT_Model Str_Model ATT_Model.

(** * Writing *)
Definition comma : ascii := ","%char.
(** write_in_prolog_format, :966-975: the alphabet symbols that no transition uses. *)
Definition unused_symbols (g : graph) : list bstr :=
  filter (fun x => negb (smem bcmp x (initialize_alphabet (symbols_used g)))) (alpha g).
Definition prolog_symbol_line (name x : bstr) : res bstr :=
  rmap (fun e => B "symbol(" ++ c_str name ++ B ", " ++ [dq] ++ e ++ [dq] ++ B ")." ++ [nl]) (prologize_symbol x).
(** :977-993: a transition. *)
Definition prolog_arc_line (weights : bool) (name : bstr) (s : nat) (a : arc) : res bstr :=
  rmap (fun e => B "arc(" ++ c_str name ++ B ", " ++ print_int (N.of_nat s) ++ B ", " ++ print_int (N.of_nat (tgt a)) ++ B ", " ++
                 e ++ (if weights then B ", " ++ print_float (wt a) else []) ++ B ")." ++ [nl])
       (print_prolog_arc_symbols (isy a) (osy a)).
(** :995-1004: a final state. *)
Definition prolog_final_line (weights : bool) (name : bstr) (s : nat) (w : Z) : bstr :=
  B "final(" ++ c_str name ++ B ", " ++ print_int (N.of_nat s) ++ (if weights then B ", " ++ print_float w else []) ++ B ")." ++ [nl].
(** The loops write line after line. *)
Fixpoint lines {A} (line : A -> res bstr) (l : list A) : res bstr :=
  match l with [] => Ok [] | x :: r => rbind (line x) (fun t => rmap (app t) (lines line r)) end.
Fixpoint prolog_states (weights : bool) (name : bstr) (l : list (list arc)) (s : nat) : res bstr :=
  match l with
  | [] => Ok []
  | x :: r => rbind (lines (prolog_arc_line weights name s) x) (fun t => rmap (app t) (prolog_states weights name r (S s)))
  end.
(** write_in_prolog_format, :949-1005. *)
Definition write_in_prolog_format (weights : bool) (name : bstr) (g : graph) : res bstr :=
  if existsb (Ascii.eqb comma) name then Throw
  else rbind (lines (prolog_symbol_line name) (unused_symbols g)) (fun sy =>
       rbind (prolog_states weights name (sts g) 0) (fun st =>
       Ok (B "network(" ++ c_str name ++ B ")." ++ [nl] ++ sy ++ st ++
           concat (map (fun p => prolog_final_line weights name (fst p) (snd p)) (fin g))))).
(** process_stream of tools/src/hfst-fst2txt.cc:187-291 for this format: the transducers
    are named NO_NAME_1, NO_NAME_2 ... and separated by lines of two hyphens. *)
Fixpoint prolog_write_all (weights : bool) (n : N) (gs : list graph) : res bstr :=
  match gs with
  | [] => Ok []
  | g :: r =>
      rbind (write_in_prolog_format weights (B "NO_NAME_" ++ print_nat n) g) (fun t =>
      rmap (fun u => (if (1 <? n)%N then B "--" ++ [nl] else []) ++ t ++ u) (prolog_write_all weights (n + 1) r))
  end.
Definition prolog_fst2txt (weights : bool) (gs : list graph) : res bstr := prolog_write_all weights 1 gs.

(** * sscanf *)
(** A byte to be matched, a blank (any white space), %[^...] and %s. *)
Inductive directive := Lit (c : ascii) | Blank | Not (stop : list ascii) | Word.
Fixpoint span (p : ascii -> bool) (s : bstr) : bstr * bstr :=
  match s with
  | c :: r => if p c then let '(x, t) := span p r in (c :: x, t) else ([], s)
  | [] => ([], [])
  end.
(** The conversions done before the first mismatch; each goes to an array of 100 chars
    without a bound. *)
Fixpoint scanf (fmt : list directive) (s : bstr) : res (list bstr) :=
  let field p s k :=
    let '(x, r) := span p s in
    match x with
    | [] => Ok []
    | _ => if 100 <=? length x then Ub else rmap (cons x) (k r)
    end in
  match fmt with
  | [] => Ok []
  | Lit c :: f => match s with d :: r => if Ascii.eqb c d then scanf f r else Ok [] | [] => Ok [] end
  | Blank :: f => scanf f (skip_white s)
  | Not stop :: f => field (fun c => negb (existsb (Ascii.eqb c) stop)) s (scanf f)
  | Word :: f => field (fun c => negb (is_white c)) (skip_white s) (scanf f)
  end.
Definition lit (s : bstr) : list directive := map Lit s.

(** * Reading *)
(** strip_quotes_from_both_sides, :1068-1080; None for false. *)
Definition strip_quotes (s : bstr) : option bstr :=
  if length s <? 3 then None
  else match s with
       | c :: r => match rev r with
                   | d :: m => if Ascii.eqb c dq && Ascii.eqb d dq then Some (rev m) else None
                   | [] => None
                   end
       | [] => None
       end.
(** strip_ending_parenthesis_and_comma, :1082-1094. *)
Definition strip_ending (s : bstr) : option bstr :=
  if length s <? 3 then None
  else match rev s with
       | d :: c :: m => if Ascii.eqb c ")" && Ascii.eqb d "." then Some (rev m) else None
       | _ => None
       end.
(** parse_prolog_network_line, :1096-1112: the name. *)
Definition parse_network (line : bstr) : res (option bstr) :=
  rmap (fun fs => match fs with [n] => strip_ending n | _ => None end) (scanf (lit (B "network(") ++ [Word]) line).

(** std::string::find_last_of a character. *)
Fixpoint last_index (c : ascii) (s : bstr) : option nat :=
  match s with
  | [] => None
  | d :: r => match last_index c r with
              | Some i => Some (S i)
              | None => if Ascii.eqb c d then Some 0 else None
              end
  end.
(** operator>> of an istringstream on a float: fails if no number starts there. *)
Definition read_float (s : bstr) : option Z :=
  let r := snd (read_sign (skip_white s)) in
  let digit c := match digit_value c with Some _ => true | None => false end in
  if match r with
     | c :: r' => digit c || (Ascii.eqb c "." && match r' with d :: _ => digit d | [] => false end)
     | [] => false
     end
  then Some (atof s) else None.
(** extract_weight, :1203-1239: the text of the symbols and the weight. *)
Definition extract_weight (s : bstr) : option (bstr * Z) :=
  match last_index dq s with
  | None => None
  | Some q =>
      match last_index " " s with
      | None => Some (s, 0%Z)
      | Some b =>
          if b <? q then Some (s, 0%Z)
          else if (q + 2 =? b) && (b <? length s - 1) then
            match read_float (skipn (b + 1) s) with
            | None => None
            | Some w => Some (firstn (b - 1) s, w)
            end
          else None
      end
  end.

(** parse_prolog_arc_line, :1241-1290; None for false.  When fewer than four fields are
    found, symbolstr is read without having been written: [junk] stands for what it
    holds (taken to be a terminated string). *)
Definition parse_arc (junk name line : bstr) (g : graph) : res (option graph) :=
  rbind (scanf (lit (B "arc(") ++ [Not [comma]; Lit comma; Blank; Not [comma]; Lit comma; Blank; Not [comma]; Lit comma; Blank; Not [tab; nl]]) line)
  (fun fs =>
  match strip_ending (nth 3 fs junk) with
  | None => Ok None
  | Some symbol =>
      match fs with
      | [n; source; target; _] =>
          if negb (bstr_eqb n name) then Ok None
          else rbind (atoi source) (fun s => rbind (atoi target) (fun t =>
               match extract_weight symbol with
               | None => Ok None
               | Some (sy, w) =>
                   rmap (fun r => match r with
                                  | None => None
                                  | Some (i, o) => Some (add_transition g (state_of_int s) (Arc (state_of_int t) i o w) true)
                                  end) (get_prolog_arc_symbols sy)
               end))
      | _ => Ok None
      end
  end).
(** parse_prolog_final_line, :1292-1346. *)
Definition parse_final (name line : bstr) (g : graph) : res (option graph) :=
  let set n f w := if negb (bstr_eqb n name) then Ok None
                   else rmap (fun s => Some (set_final_weight g (state_of_int s) w)) (atoi f) in
  match length (filter (Ascii.eqb comma) line) with
  | 1 => rbind (scanf (lit (B "final(") ++ [Not [comma]; Lit comma; Blank; Not [")"%char]] ++ lit (B ").")) line) (fun fs =>
         match fs with [n; f] => set n f 0%Z | _ => Ok None end)
  | 2 => rbind (scanf (lit (B "final(") ++ [Not [comma]; Lit comma; Blank; Not [comma]; Lit comma; Blank; Not [")"%char]] ++ lit (B ").")) line) (fun fs =>
         match fs with
         | [n; f; w] => match read_float w with Some z => set n f z | None => Ok None end
         | _ => Ok None
         end)
  | _ => Ok None
  end.
(** parse_prolog_symbol_line, :1348-1376. *)
Definition parse_symbol (name line : bstr) (g : graph) : res (option graph) :=
  rbind (scanf (lit (B "symbol(") ++ [Not [comma]; Lit comma; Blank; Word]) line) (fun fs =>
  match fs with
  | [n; s] =>
      if negb (bstr_eqb n name) then Ok None
      else match strip_ending s with
           | None => Ok None
           | Some q => match strip_quotes q with
                       | None => Ok None
                       | Some x => rmap (fun y => Some (add_symbol g y)) (deprologize_symbol x)
                       end
           end
  | _ => Ok None
  end).
(** The three in turn, :1476-1478. *)
Definition parse_line (junk name line : bstr) (g : graph) : res (option graph) :=
  rbind (parse_arc junk name line g) (fun r =>
  match r with
  | Some g' => Ok (Some g')
  | None => rbind (parse_final name line g) (fun r =>
            match r with Some g' => Ok (Some g') | None => parse_symbol name line g end)
  end).

(** strip_newlines, :1378-1390. *)
Fixpoint drop_newlines (s : bstr) : bstr :=
  match s with c :: r => if Ascii.eqb c nl || Ascii.eqb c "013" then drop_newlines r else s | [] => [] end.
Definition strip_newlines (s : bstr) : bstr := rev (drop_newlines (rev s)).
(** get_stripped_line, :1392-1417, from a FILE*: None at the end of the file ... *)
Definition file_line (f : stream) : option bstr * stream :=
  let '(l, f') := fgets f in (option_map (fun l => strip_newlines (c_str l)) l, f').
(** ... and from an istream: the end is reported when getline has NOT reached it. *)
Definition stream_line (f : stream) : option bstr * stream :=
  let '(l, f') := getline f in (if negb (eof f') then None else Some (strip_newlines (c_str l)), f').

(** read_in_prolog_format, :1427-1487, given the way to get a line: the name, the graph
    and the file afterwards. *)
Section Read.
  Variable get_line : stream -> option bstr * stream.
  Variable junk : bstr.
  Fixpoint prolog_loop (fuel : nat) (name : bstr) (f : stream) (g : graph) : res (bstr * graph * stream) :=
    match fuel with
    | 0 => Diverge
    | S n =>
        match get_line f with
        | (None, f') => Ok (name, g, f')
        | (Some [], f') => Ok (name, g, f')
        | (Some line, f') =>
            rbind (parse_line junk name line g) (fun r =>
            match r with None => Throw | Some g' => prolog_loop n name f' g' end)
        end
    end.
  (** Comment lines are skipped before the network line. *)
  Fixpoint prolog_head (fuel : nat) (f : stream) : res (bstr * graph * stream) :=
    match fuel with
    | 0 => Diverge
    | S n =>
        match get_line f with
        | (None, _) => Throw
        | (Some line, f') =>
            if match line with c :: _ => Ascii.eqb c "#" | [] => false end then prolog_head n f'
            else rbind (parse_network line) (fun r =>
                 match r with None => Throw | Some name => prolog_loop n name f' empty_graph end)
        end
    end.
End Read.
Definition read_in_prolog_format (junk : bstr) (f : stream) : res (bstr * graph * stream) :=
  prolog_head file_line junk (S (S (length (bytes f)))) f.
Definition read_in_prolog_format_stream (junk : bstr) (f : stream) : res (bstr * graph * stream) :=
  prolog_head stream_line junk (S (S (length (bytes f)))) f.
(** process_stream of tools/src/hfst-txt2fst.cc:226-313 for this format: networks are
    read until the end of the file; an exception ends the program with an error. *)
Fixpoint prolog_read_all (fuel : nat) (junk : bstr) (f : stream) : res (list (bstr * graph)) :=
  match fuel with
  | 0 => Diverge
  | S n =>
      if eof f then Ok []
      else rbind (read_in_prolog_format junk f) (fun '(name, g, f') => rmap (cons (name, g)) (prolog_read_all n junk f'))
  end.
Definition prolog_txt2fst (junk text : bstr) : res (list (bstr * graph)) :=
  prolog_read_all (S (S (length text))) junk (Stream text false).
