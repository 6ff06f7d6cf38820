(** Conversion of a basic transducer to the optimized-lookup tables and back.
    Models libhfst/src/implementations/ConvertOlTransducer.cc (line numbers without a file
    name refer to it), optimized-lookup/convert.h and optimized-lookup/convert.cc.

    Simplifications (whole file):
    - symbol numbers, state numbers and table positions are [nat] while they are computed
      and become the [N] of the table entries at the end; the theorems assume that the
      tables have fewer than 2^31 entries, so nothing wraps;
    - a weight of the basic transducer is an integer ([Z], see BT_Model); [enc] and [dec] are
      the conversions between such a weight and the 32 bits of a float, which are only copied
      here;
    - no harmonizer and no option string is given. *)
From Verif Require Import Base Flags_Model BT_Model An_Model OLF_Model.

(** PmatchAlphabet::is_insertion, optimized-lookup/pmatch.cc:899-902. *)
Definition is_insertion (s : bstr) : bool :=
  at_is s 0 "@" && at_is s 1 "I" && at_is s 2 "." && at_is s (length s - 1) "@".

(** * Symbols: get_states_and_symbols, :172-259 *)
Definition all_arcs (g : graph) : list arc := concat (sts g).
Definition flag_like (x : bstr) : bool := is_diacritic x || is_insertion x.

(** The sets input_symbols, flag_diacritics and other_symbols, :190-217. *)
Definition input_set (g : graph) : list bstr :=
  fold_left (fun acc a => if flag_like (isy a) then acc else sadd bcmp (isy a) acc) (all_arcs g) [].
Definition flag_set (g : graph) : list bstr :=
  fold_left (fun acc a => if flag_like (isy a) then sadd bcmp (isy a) acc else acc) (all_arcs g) [].
Definition other_set (g : graph) : list bstr :=
  fold_left (fun acc x => if smem bcmp x (input_set g) || smem bcmp x (flag_set g) then acc else sadd bcmp x acc)
    (alpha g)
    (fold_left (fun acc a => sadd bcmp (osy a) acc) (all_arcs g) []).

(** The symbol table, :224-259: epsilon, input symbols, flags, other symbols. *)
Definition input_part (g : graph) : list bstr := filter (fun x => negb (is_epsilon x)) (input_set g).
Definition flag_part (g : graph) : list bstr := filter (fun x => negb (is_epsilon x)) (flag_set g).
Definition other_part (g : graph) : list bstr :=
  filter (fun x => negb (is_epsilon x) && negb (smem bcmp x (input_set g)) && negb (smem bcmp x (flag_set g)))
    (other_set g).
Definition symbol_table (g : graph) : list bstr := EPS :: input_part g ++ flag_part g ++ other_part g.

(** seen_input_symbols, :326 and :234. *)
Definition seen_inputs (g : graph) : nat := 1 + length (input_part g).
(** flag_symbols, :244. *)
Definition flag_numbers (g : graph) : list nat := seq (seen_inputs g) (length (flag_part g)).

(** string_symbol_map: every symbol is entered once, with its position in the table; operator[]
    gives 0 for a missing one. *)
Fixpoint position (x : bstr) (l : list bstr) : option nat :=
  match l with
  | [] => None
  | y :: r => if bstr_eqb x y then Some 0 else option_map S (position x r)
  end.
Definition number (st : list bstr) (x : bstr) : nat :=
  match position x st with Some k => k | None => 0 end.

(** * State placeholders, convert.h:24-190 *)
Record tplace := TPlace { tp_target : nat; tp_input : nat; tp_output : nat; tp_weight : Z }.

(** StatePlaceholder::indexing_type. *)
Inductive ptype := Empty | SimpleZero | SimpleNonzero | Nonsimple.

(** StatePlaceholder.  The groups of transitions with the same input symbol
    (transition_placeholders), in the order in which the inputs were added, are stored with
    that input symbol; symbol_to_transition_placeholder_v is the search in this list.  The
    first transition of a group, whose input the code uses as the group's input, exists
    because add_transition follows every add_input. *)
Record placeholder := {
  p_final : option Z;
  p_first : nat;
  p_groups : list (nat * list tplace);
  p_type : ptype
}.

Definition is_simple (p : placeholder) : bool :=
  match p_type p with Nonsimple => false | _ => true end.
Definition group (p : placeholder) (k : nat) : option (list tplace) :=
  match find (fun q => fst q =? k) (p_groups p) with Some (_, l) => Some l | None => None end.
(** input_present, convert.h:89-92. *)
Definition input_present (p : placeholder) (k : nat) : bool :=
  match group p k with Some _ => true | None => false end.
Definition group_size (p : placeholder) (k : nat) : nat :=
  match group p k with Some l => length l | None => 0 end.
(** symbol_to_transition_placeholder_v.size(). *)
Definition vsize (p : placeholder) : nat :=
  match p_groups p with [] => 0 | l => S (list_max (map fst l)) end.

Definition is_flag_no (flags : list nat) (k : nat) : bool := existsb (Nat.eqb k) flags.

(** add_input, convert.h:94-125. *)
Definition add_input (flags : list nat) (k : nat) (p : placeholder) : placeholder :=
  if input_present p k then p
  else
    let groups := p_groups p ++ [(k, [])] in
    {| p_final := p_final p; p_first := p_first p; p_groups := groups;
       p_type := match p_type p with
                 | Nonsimple => Nonsimple
                 | Empty => if (k =? 0) || is_flag_no flags k then SimpleZero else SimpleNonzero
                 | SimpleZero => if negb (k =? 0) && negb (is_flag_no flags k) then Nonsimple else SimpleZero
                 | SimpleNonzero =>
                     if (1 <? length groups) || (k =? 0) || is_flag_no flags k then Nonsimple else SimpleNonzero
                 end |}.

(** add_transition, convert.h:132-135. *)
Definition add_placeholder (t : tplace) (p : placeholder) : placeholder :=
  {| p_final := p_final p; p_first := p_first p; p_type := p_type p;
     p_groups := map (fun q => if fst q =? tp_input t then (fst q, snd q ++ [t]) else q) (p_groups p) |}.

(** The constructor, convert.h:54-63. *)
Definition new_placeholder (s : nat) (final : option Z) (first : nat) : placeholder :=
  {| p_final := final; p_first := first; p_groups := []; p_type := if s =? 0 then Nonsimple else Empty |}.

(** The second pass over the transitions of a state, :282-297. *)
Definition place (st : list bstr) (flags : list nat) (a : arc) (p : placeholder) : placeholder :=
  let i := number st (isy a) in
  add_placeholder (TPlace (tgt a) i (number st (osy a)) (wt a)) (add_input flags i p).

(** Both passes over all states, :176-207 and :279-299, from state number [s] on. *)
Fixpoint place_states (g : graph) (st : list bstr) (flags : list nat) (s first : nat) (l : list (list arc))
  : list placeholder :=
  match l with
  | [] => []
  | arcs :: r =>
      fold_left (fun p a => place st flags a p) arcs (new_placeholder s (finw g s) first)
      :: place_states g st flags (S s) (first + 1 + length arcs) r
  end.
Definition placeholders (g : graph) : list placeholder :=
  place_states g (symbol_table g) (flag_numbers g) 0 0 (sts g).

(** symbol_offset, convert.h:142-190. *)
Fixpoint flag_offset (p : placeholder) (symbol offset : nat) (flags : list nat) : nat + nat :=
  match flags with
  | [] => inl offset
  | f :: r => if input_present p f then
                if symbol =? f then inr 0 else flag_offset p symbol (offset + group_size p f) r
              else flag_offset p symbol offset r
  end.
Fixpoint other_offset (p : placeholder) (flags : list nat) (symbol offset : nat) (is : list nat) : option nat :=
  match is with
  | [] => None
  | i :: r => if input_present p i then
                if is_flag_no flags i then other_offset p flags symbol offset r
                else if symbol =? i then Some offset
                else other_offset p flags symbol (offset + group_size p i) r
              else other_offset p flags symbol offset r
  end.
Definition symbol_offset (flags : list nat) (p : placeholder) (symbol : nat) : res nat :=
  if symbol =? 0 then Ok 0
  else match flag_offset p symbol (if input_present p 0 then group_size p 0 else 0) flags with
       | inr n => Ok n
       | inl offset =>
           match other_offset p flags symbol offset (seq 1 (vsize p - 1)) with
           | Some n => Ok n
           | None => Throw
           end
       end.

(** * Index packing, convert.h:198-268 and ConvertOlTransducer.cc:342-401 *)

(** IndexPlaceholders: the vectors indices and targets are modelled as one vector holding the
    targets; the symbol of a finality marker (NO_SYMBOL_NUMBER) is [None]. *)
Definition slots : Type := list (option (nat * option nat)).
Definition used_at (sl : slots) (i : nat) : bool :=
  match nth_error sl i with Some (Some _) => true | _ => false end.
Definition assign (sl : slots) (i : nat) (v : nat * option nat) : slots :=
  upd i (Some v) (sl ++ repeat None (S i - length sl)).
Definition index_offset (flags : list nat) (k : nat) : nat := if is_flag_no flags k then 0 else k.
Definition fits (sl : slots) (flags : list nat) (p : placeholder) (i : nat) : bool :=
  negb (used_at sl i)
  && forallb (fun q => negb (used_at sl (index_offset flags (fst q) + i + 1))) (p_groups p).

(** unsuitable, convert.h:242-267.  The float test filled >= 0.85f * symbols is exact in the
    integers: 0.85f exceeds 0.85 by less than a part in 2^25, and the products are below 2^16. *)
Fixpoint too_full (sl : slots) (index symbols filled i todo : nat) : bool :=
  match todo with
  | O => false
  | S todo' =>
      let filled := filled + (if used_at sl (index + i + 1) then 1 else 0) in
      if 17 * symbols <=? 20 * filled then true else too_full sl index symbols filled (S i) todo'
  end.
Definition unsuitable (sl : slots) (symbols index : nat) : bool :=
  used_at sl index || too_full sl index symbols 0 0 symbols.

(** The loops while (...) ++i; [fuel] bounds the number of turns. *)
Fixpoint first_from (fuel : nat) (P : nat -> bool) (i : nat) : res nat :=
  match fuel with
  | O => Diverge
  | S fuel' => if P i then Ok i else first_from fuel' P (S i)
  end.

Record packing := {
  k_slots : slots;
  k_starts : list (option nat);
  k_first_available : nat;
  k_previous_first : nat;
  k_stuck : nat
}.

(** The marks of one state, :375-384. *)
Definition mark (flags : list nat) (s i : nat) (p : placeholder) (sl : slots) : slots :=
  fold_left (fun sl q => let k := index_offset flags (fst q) in assign sl (i + k + 1) (s, Some k))
    (p_groups p) (assign sl i (s, None)).

(** One turn of the loop :359-401 for state [s]. *)
Definition pack_state (flags : list nat) (symbols s : nat) (p : placeholder) (k : packing) : res packing :=
  if is_simple p then
    Ok {| k_slots := k_slots k; k_starts := k_starts k ++ [None];
          k_first_available := k_first_available k; k_previous_first := k_previous_first k;
          k_stuck := k_stuck k |}
  else
    rbind (first_from (S (length (k_slots k))) (fits (k_slots k) flags p) (k_first_available k)) (fun i =>
    let sl := mark flags s i p (k_slots k) in
    rbind (first_from (S (length sl)) (fun j => negb (unsuitable sl symbols j)) (k_first_available k)) (fun f =>
    let '(f', pf, st) :=
      if f =? k_previous_first k then
        if 4 <? k_stuck k then (i + 1, i + 1, 0) else (f, k_previous_first k, S (k_stuck k))
      else (f, f, 0) in
    Ok {| k_slots := sl; k_starts := k_starts k ++ [Some i]; k_first_available := f';
          k_previous_first := pf; k_stuck := st |})).

Fixpoint pack (flags : list nat) (symbols s : nat) (ps : list placeholder) (k : packing) : res packing :=
  match ps with
  | [] => Ok k
  | p :: r => rbind (pack_state flags symbols s p k) (pack flags symbols (S s) r)
  end.
Definition packing0 : packing :=
  {| k_slots := []; k_starts := []; k_first_available := 0; k_previous_first := 0; k_stuck := 0 |}.

(** TRANSITION_TARGET_TABLE_START, optimized-lookup/transducer.h:107; TA_OFFSET, :315. *)
Definition TA_OFFSET : N := 2147483648.
Definition blank_index : index_entry := {| ie_input := OLF_Model.NO_SYMBOL; ie_target := NO_TABLE_INDEX |}.
Definition no_placeholder : placeholder := new_placeholder 0 None 0.

Fixpoint rseq {A} (l : list (res A)) : res (list A) :=
  match l with
  | [] => Ok []
  | x :: r => rbind x (fun a => rbind (rseq r) (fun l => Ok (a :: l)))
  end.

Section Weights.
  Variable enc : Z -> N.

  (** One entry of the index table, :419-442. *)
  Definition index_of_slot (flags : list nat) (ps : list placeholder) (v : option (nat * option nat)) : res index_entry :=
    match v with
    | None => Ok blank_index
    | Some (s, None) =>
        match p_final (nth s ps no_placeholder) with
        | Some w => Ok {| ie_input := OLF_Model.NO_SYMBOL; ie_target := enc w |}
        | None => Ok blank_index
        end
    | Some (s, Some k) =>
        let p := nth s ps no_placeholder in
        rbind (symbol_offset flags p k) (fun o =>
          Ok {| ie_input := N.of_nat k; ie_target := N.of_nat (p_first p + o) + TA_OFFSET |})
    end.

  (** The index table, :414-448: at least one entry, then the padding. *)
  Definition index_table (flags : list nat) (symbols : nat) (ps : list placeholder) (sl : slots) : res (list index_entry) :=
    rmap (fun l => l ++ repeat blank_index symbols)
      (rseq (map (index_of_slot flags ps) (match sl with [] => [None] | _ => sl end))).

  (** add_transitions_with, convert.cc:84-109; a start index not set is UINT_MAX. *)
  Definition target_of (ps : list placeholder) (starts : list (option nat)) (s : nat) : N :=
    let p := nth s ps no_placeholder in
    if is_simple p then N.of_nat (p_first p) + TA_OFFSET - 1
    else match nth s starts None with Some i => N.of_nat i | None => NO_TABLE_INDEX end.
  Definition entries_of (ps : list placeholder) (starts : list (option nat)) (symbol : nat) (l : list tplace) : list trans_entry :=
    map (fun t => {| te_input := N.of_nat symbol; te_output := N.of_nat (tp_output t);
                     te_target := target_of ps starts (tp_target t); te_weight := enc (tp_weight t) |}) l.

  (** Finality marker, Transition(bool, Weight), transducer.h:564-566 and :622-623. *)
  Definition marker (final : option Z) : trans_entry :=
    match final with
    | Some w => {| te_input := OLF_Model.NO_SYMBOL; te_output := OLF_Model.NO_SYMBOL; te_target := 1; te_weight := enc w |}
    | None => {| te_input := OLF_Model.NO_SYMBOL; te_output := OLF_Model.NO_SYMBOL; te_target := NO_TABLE_INDEX; te_weight := enc 0 |}
    end.
  (** TransitionW(false, INFINITE_WEIGHT): the bits of 4294967296.0f. *)
  Definition last_entry : trans_entry :=
    {| te_input := OLF_Model.NO_SYMBOL; te_output := OLF_Model.NO_SYMBOL; te_target := NO_TABLE_INDEX; te_weight := 1333788672 |}.

  Definition group_entries (ps : list placeholder) (starts : list (option nat)) (p : placeholder) (k : nat) : list trans_entry :=
    match group p k with Some l => entries_of ps starts k l | None => [] end.

  (** The transitions of one state, convert.cc:46-76. *)
  Definition state_entries (flags : list nat) (ps : list placeholder) (starts : list (option nat)) (p : placeholder) : list trans_entry :=
    group_entries ps starts p 0
    ++ concat (map (group_entries ps starts p) flags)
    ++ concat (map (fun i => if is_flag_no flags i then [] else group_entries ps starts p i) (seq 1 (vsize p - 1))).

  (** write_transitions_from_state_placeholders, convert.cc:28-82. *)
  Fixpoint state_tables (flags : list nat) (ps : list placeholder) (starts : list (option nat)) (s : nat) (l : list placeholder)
    : list trans_entry :=
    match l with
    | [] => []
    | p :: r => (if s =? 0 then [] else [marker (p_final p)])
                ++ state_entries flags ps starts p ++ state_tables flags ps starts (S s) r
    end.
  Definition transition_table (flags : list nat) (ps : list placeholder) (starts : list (option nat)) : list trans_entry :=
    state_tables flags ps starts 0 ps ++ [last_entry].

  (** hfst_basic_transducer_to_hfst_ol, :304-474.  A symbol number that does not fit into 16
      bits throws (hfst::size_t_to_ushort). *)
  Definition to_ol (g : graph) (weighted : bool) : res transducer :=
    let st := symbol_table g in
    if (65536 <? N.of_nat (length st))%N then Throw
    else
      let flags := flag_numbers g in let symbols := seen_inputs g in let ps := placeholders g in
      rbind (pack flags symbols 0 ps packing0) (fun k =>
      rbind (index_table flags symbols ps (k_slots k)) (fun ix =>
      let tr := transition_table flags ps (k_starts k) in
      rbind (alphabet_of_table st) (fun a =>
      Ok {| tr_header := header_make (N.of_nat symbols) (N.of_nat (length st)) (N.of_nat (length ix)) (N.of_nat (length tr)) weighted;
            tr_alphabet := a;
            tr_tables := {| t_wclass := true; t_index := ix; t_trans := tr |} |}))).
End Weights.
