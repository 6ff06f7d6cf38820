(** Model of tools/src/hfst-check-alpha.cc (check-alpha below) and tools/src/hfst-dump-alphabets.cc
    (dump-alphabets).
    Simplifications: an archive is the list of its transducers, and all types know their alphabet;
    of the report of hfst-check-alpha the lists of symbols and the choice of the sentence are
    kept, not the words and the names of the transducers; symbols have no zero bytes. *)
From Verif Require Import Base BT_Model CA_Spec.

(** std::set_difference of two sorted ranges. *)
Fixpoint set_difference (l1 : list bstr) : list bstr -> list bstr :=
  match l1 with
  | [] => fun _ => []
  | x :: r1 => fix skip (l2 : list bstr) : list bstr :=
      match l2 with
      | [] => x :: r1
      | y :: r2 => match bcmp x y with
                   | Lt => x :: set_difference r1 l2
                   | Gt => skip r2
                   | Eq => set_difference r1 r2
                   end
      end
  end.
(** What is printed for one difference: the symbols, or that the one is a superset of the other. *)
Inductive sentence := only_in (l : list bstr) | is_superset.
Definition sentence_for (d : list bstr) : sentence := match d with [] => is_superset | _ => only_in d end.
Definition is_mismatch (d : list bstr) : bool := match d with [] => false | _ => true end.
(** The four sentences: about the symbols of the transitions of the first and of the second
    transducer, check-alpha:208-242, and about their alphabets, :253-290. *)
Record report := Report { first_found : sentence; second_found : sentence; first_sigma : sentence; second_sigma : sentence }.
(** One turn of the loop, check-alpha:137-311: the report and whether mismatch is set.  The symbols
    found, :162-177 and :193-206, are those of symbols_used (BT_Model.v). *)
Definition check_pair (g h : graph) : report * bool :=
  let d1 := set_difference (symbols_used g) (symbols_used h) in
  let d2 := set_difference (symbols_used h) (symbols_used g) in
  let d3 := set_difference (alpha g) (alpha h) in
  let d4 := set_difference (alpha h) (alpha g) in
  (Report (sentence_for d1) (sentence_for d2) (sentence_for d3) (sentence_for d4),
   is_mismatch d1 || is_mismatch d2 || is_mismatch d3 || is_mismatch d4).
(** process_stream, check-alpha:131-317: the reports and whether the exit code is EXIT_FAILURE. *)
Fixpoint check_archives (xs ys : list graph) (mismatch : bool) : list report * bool :=
  match xs, ys with
  | g :: xs, h :: ys =>
      let (r, m) := check_pair g h in
      let (rs, e) := check_archives xs ys (if m then true else mismatch) in (r :: rs, e)
  | _, _ => ([], mismatch)
  end.
Definition check_alpha (xs ys : list graph) : list report * bool := check_archives xs ys false.

(** The formats, dump-alphabets:56-63, are in CA_Spec.v. *)
(** is_multichar, dump-alphabets:68-84. *)
Definition is_multichar (s : bstr) : bool :=
  if 2 <? length s then
    match s with c :: _ => Ascii.eqb c "+" || Ascii.eqb c " " || Ascii.eqb c "@" | [] => false end
  else false.
(** parse_options, dump-alphabets:143-166. *)
Definition only_multichars (f : format) : bool := match f with TSV => false | _ => true end.
(** dump-alphabets:264-276 and :304-316. *)
Definition symbol_line (f : format) (s : bstr) : bstr :=
  match f with
  | TSV => s ++ ["010"%char]
  | VISLCG3_TAGS => "009"%char :: s ++ ["010"%char]
  | VISLCG3_LIST => B "LIST " ++ s ++ B " = " ++ s ++ B " ;" ++ ["010"%char]
  end.
Definition comment : bstr :=
  B "## automatically generated VISL CG 3 file from HFST automaton's alphabet data:" ++ ["010"%char] ++
  B "## (some statistics here TODO)" ++ ["010"%char].
(** dump-alphabets:228-240. *)
Definition head_lines (f : format) : bstr :=
  match f with TSV => [] | VISLCG3_TAGS => comment ++ B "STRICT-TAGS +=" ++ ["010"%char] | VISLCG3_LIST => comment end.
(** The loops over the symbols, dump-alphabets:246-279 and :290-319. *)
Fixpoint dump_symbols (f : format) (l : list bstr) : bstr :=
  match l with
  | [] => []
  | s :: r => if only_multichars f && negb (is_multichar s) then dump_symbols f r else symbol_line f s ++ dump_symbols f r
  end.
(** process_stream, dump-alphabets:182-327; [meta] and [seen] are print_meta and print_seen. *)
Definition dump_one (f : format) (meta seen : bool) (g : graph) : bstr :=
  head_lines f ++ (if meta then dump_symbols f (alpha g) else []) ++ (if seen then dump_symbols f (symbols_used g) else []).
Definition dump_alphabets (f : format) (meta seen : bool) (gs : list graph) : bstr :=
  flat_map (dump_one f meta seen) gs ++ match f with VISLCG3_TAGS => "009"%char :: B ";" ++ ["010"%char] | _ => [] end.
