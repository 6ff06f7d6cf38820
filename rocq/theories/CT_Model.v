(** Model of the conversions between basic transducers and OpenFst's tropical transducers:
    libhfst/src/implementations/ConvertTropicalWeightTransducer.cc (line numbers without a
    file name refer to it) and the symbol table functions of TropicalWeightTransducer.cc.
    Simplifications: weights are integers instead of floats, with None for
    TropicalWeight::Zero(); state and symbol numbers are unbounded; a transition of a basic
    transducer holds its symbols, and where the code looks at their numbers the numbers are
    those that the global tables give to the symbols (C06: these never change). *)
From Verif Require Import Base BT_Model Str_Model Xp_Model.

(** An OpenFst transducer as it can be read from a file: the input symbol table (the one in
    [o_fst]) may be missing, and there may be an output symbol table. *)
Record ofst := OFst { o_fst : tfst; o_has_table : bool; o_out : option (list (nat * bstr)) }.

Fixpoint rfold {A X} (f : A -> X -> res A) (acc : A) (l : list X) : res A :=
  match l with
  | [] => Ok acc
  | x :: r => rbind (f acc x) (fun a => rfold f a r)
  end.

(** The symbols of a table other than that of label 0 are added to the alphabet; the
    assertion that no symbol is empty: :63-70, :79-84, :102-107, :110-115. *)
Definition add_table (g : graph) (tab : list (nat * bstr)) : res graph :=
  rfold (fun g p => match snd p with
                    | [] => Throw
                    | x => Ok (if fst p =? 0 then g else add_symbol g x)
                    end) g tab.

(** handle_symbol_tables, :42-92. *)
Definition handle_symbol_tables (t : ofst) (g : graph) (has_hfst_header : bool) : res graph :=
  if has_hfst_header && negb (o_has_table t) then Throw
  else match t_start (o_fst t) with
       | None =>
           rbind (if o_has_table t then add_table g (t_syms (o_fst t)) else Ok g) (fun g1 =>
           match o_out t with
           | Some tab => if has_hfst_header then Ok g1 else add_table g1 tab
           | None => Ok g1
           end)
       | Some _ => if o_has_table t then Ok g else Throw
       end.

(** copy_alphabet, :95-118. *)
Definition copy_alphabet (t : ofst) (g : graph) : res graph :=
  rbind (if o_has_table t then add_table g (t_syms (o_fst t)) else Ok g) (fun g1 =>
  match o_out t with Some tab => add_table g1 tab | None => Ok g1 end).

(** TropicalWeightTransducer.cc: get_alphabet :433-444, get_biggest_symbol_number :457-468. *)
Definition get_alphabet (tab : list (nat * bstr)) : list bstr :=
  fold_left (fun s p => sadd bcmp (snd p) s) tab [].
Definition get_biggest_symbol_number (tab : list (nat * bstr)) : nat :=
  fold_left (fun b p => if b <? fst p then fst p else b) tab 0.
(** SymbolTable::Find(symbol), and get_symbol_number, TropicalWeightTransducer.cc:446-455. *)
Fixpoint find_symbol (tab : list (nat * bstr)) (x : bstr) : option nat :=
  match tab with
  | [] => None
  | (k, y) :: r => if bstr_eqb x y then Some k else find_symbol r x
  end.
Definition get_symbol_number (tab : list (nat * bstr)) (x : bstr) : res nat :=
  match find_symbol tab x with Some k => Ok k | None => Throw end.
(** get_symbol_vector, TropicalWeightTransducer.cc:470-486. *)
Definition get_symbol_vector (tab : list (nat * bstr)) : res (list bstr) :=
  rfold (fun v x => rbind (get_symbol_number tab x) (fun k =>
                    if k <? length v then Ok (upd k x v) else Throw))
        (repeat [] (get_biggest_symbol_number tab + 1)) (get_alphabet tab).

(** The numbers of the initial state and of state zero swapped, :153-158 and :171-175.
    Without an initial state, state zero would become 4294967295, the conversion of -1 to
    unsigned, and the basic transducer would be given that many states; that is Throw (the
    memory for them cannot be had). *)
Definition recode (start : option nat) (s : nat) : res nat :=
  match start with
  | Some i => Ok (if s =? i then 0 else if s =? 0 then i else s)
  | None => if s =? 0 then Throw else Ok s
  end.

(** The body of the loop over the transitions, :166-200. *)
Definition convert_arc (nm : numbering) (harmv : list nat) (start : option nat) (origin : nat) (g : graph) (a : larc) : res graph :=
  rbind (recode start (l_to a)) (fun target =>
  match nth_error harmv (l_in a), nth_error harmv (l_out a) with
  | Some i, Some o =>
      rbind (get_symbol nm i) (fun x => rbind (get_symbol nm o) (fun y =>
      Ok (add_transition g origin (Arc target x y (l_w a)) false)))
  | _, _ => Throw
  end).
(** The body of the loop over the states, :148-207; initialize_transition_vector,
    HfstBasicTransducer.cc:184-190, adds the state. *)
Definition convert_state (nm : numbering) (harmv : list nat) (start : option nat) (g : graph) (p : nat * (option Z * list larc)) : res graph :=
  let '(s, (f, l)) := p in
  rbind (recode start s) (fun origin =>
  rbind (rfold (convert_arc nm harmv start origin) (add_state_n g s) l) (fun g1 =>
  Ok (match f with Some w => set_final_weight g1 origin w | None => g1 end))).

(** tropical_ofst_to_hfst_basic_transducer, :126-215.  get_symbol_vector uses the input
    symbol table without testing that there is one. *)
Definition tropical_to_basic (nm : numbering) (t : ofst) (has_hfst_header : bool) : res (numbering * graph) :=
  rbind (handle_symbol_tables t empty_graph has_hfst_header) (fun g0 =>
  if o_has_table t then
    rbind (get_symbol_vector (t_syms (o_fst t))) (fun v =>
    rbind (get_harmonization_vector nm v) (fun '(nm1, harmv) =>
    let states := t_states (o_fst t) in
    rbind (rfold (convert_state nm1 harmv (t_start (o_fst t))) g0 (combine (seq 0 (length states)) states)) (fun g1 =>
    rbind (copy_alphabet t g1) (fun g2 => Ok (nm1, g2)))))
  else Ub).

(** SymbolTable::AddSymbol(symbol, label): a symbol that is there keeps its label. *)
Definition table_add (tab : list (nat * bstr)) (x : bstr) (k : nat) : list (nat * bstr) :=
  match find_symbol tab x with Some _ => tab | None => tab ++ [(k, x)] end.
(** The symbol table, :239-252. *)
Definition symbol_table (nm : numbering) (al : list bstr) : res (numbering * list (nat * bstr)) :=
  rfold (fun p x => rbind (get_number (fst p) x) (fun '(nm1, k) => Ok (nm1, table_add (snd p) x k)))
        (nm, table_add (table_add (table_add [] EPS 0) UNK 1) IDN 2) al.
(** The transitions, :262-272; [n] is the number of states. *)
Definition number_arc (n : nat) (p : numbering * list larc) (a : arc) : res (numbering * list larc) :=
  rbind (get_number (fst p) (isy a)) (fun '(nm1, i) =>
  rbind (get_number nm1 (osy a)) (fun '(nm2, o) =>
  if tgt a <? n then Ok (nm2, snd p ++ [LArc i o (wt a) (tgt a)]) else Ub)).
Definition number_states (n : nat) (nm : numbering) (l : list (list arc)) : res (numbering * list (list larc)) :=
  rfold (fun p arcs => rbind (rfold (number_arc n) (fst p, []) arcs) (fun '(nm1, ls) => Ok (nm1, snd p ++ [ls]))) (nm, []) l.
(** hfst_basic_transducer_to_tropical_ofst, :223-290.  The states are created first, then
    given transitions, then final weights. *)
Definition basic_to_tropical (nm : numbering) (g : graph) : res (numbering * ofst) :=
  let n := length (sts g) in
  rbind (symbol_table nm (alpha g)) (fun '(nm1, tab) =>
  rbind (number_states n nm1 (sts g)) (fun '(nm2, ls) =>
  rbind (rfold (fun l p => if fst p <? n then Ok (upd (fst p) (Some (snd p), snd (nth (fst p) l (None, []))) l) else Ub)
               (map (fun l => (None, l)) ls) (fin g)) (fun states =>
  Ok (nm2, OFst (TFst states (Some 0) tab) true None)))).
