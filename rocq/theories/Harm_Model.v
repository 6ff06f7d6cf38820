(** Harmonization of two basic transducers: expansion of unknown and identity symbols.
    Models libhfst/src/HarmonizeUnknownAndIdentitySymbols.cc (line numbers without a file name
    refer to it), called by HfstBasicTransducer::harmonize (HfstBasicTransducer.cc:3089-3094).

    Simplifications: a failed assert is the outcome [Throw]; a set difference of two std::sets
    is a [filter] of the ascending list of elements; the debugging output is left out. *)
From Verif Require Import Base Flags_Model BT_Model OLC_Model.

(** PmatchAlphabet::is_list and is_special, optimized-lookup/pmatch.cc:918-923, 946-970;
    is_insertion is in OLC_Model. *)
Definition ends_in_at (s : bstr) : bool := at_is s (length s - 1) "@".
Definition is_list (s : bstr) : bool :=
  (is_prefix (B "@L.") s || is_prefix (B "@X.") s) && ends_in_at s && (4 <? length s).
Definition is_pmatch_special (s : bstr) : bool :=
  if length s <? 3 then false
  else if bstr_eqb s (B "@PMATCH_INPUT_MARK@") || bstr_eqb s (B "@PMATCH_BACKTRACK@") then false
  else if is_insertion s || bstr_eqb s (B "@BOUNDARY@") || bstr_eqb s (B "@UNICODE_ALPHA@")
          || bstr_eqb s (B "@UNICODE_UPPERALPHA@") || bstr_eqb s (B "@UNICODE_LOWERALPHA@")
          || bstr_eqb s (B "@UNICODE_WHITESPACE@") then true
  else (is_prefix (B "@PMATCH") s && ends_in_at s) || is_list s.

(** remove_flags, :43-55. *)
Definition remove_flags (al : list bstr) : list bstr :=
  filter (fun x => negb (is_diacritic x) && negb (is_pmatch_special x)) al.
(** std::set_difference, :83-86 and :102-104. *)
Definition set_difference (x y : list bstr) : list bstr := filter (fun s => negb (smem bcmp s y)) x.

(** The constructor HfstBasicTransition(target, input, output, weight): empty symbols are
    rejected (HfstTropicalTransducerTransitionData.cc, same as in BT_Model). *)
Definition make_arc (t : nat) (i o : bstr) (w : Z) : res arc :=
  if valid_pair (i, o) then Ok (Arc t i o w) else Throw.
Fixpoint in_order {A} (l : list (res A)) : res (list A) :=
  match l with [] => Ok [] | r :: l => rbind r (fun x => rmap (cons x) (in_order l)) end.

(** What one transition adds to its state in harmonize_identity_symbols, :204-217. *)
Definition identity_added (missing : list bstr) (a : arc) : res (list arc) :=
  if bstr_eqb (isy a) IDN then
    if bstr_eqb (osy a) IDN then in_order (map (fun k => make_arc (tgt a) k k (wt a)) missing)
    else Throw
  else Ok [].
(** What one transition adds in harmonize_unknown_symbols: :240-255, :256-270 and :271-291. *)
Definition unknown_input_added (missing : list bstr) (a : arc) : res (list arc) :=
  if bstr_eqb (isy a) UNK then
    if bstr_eqb (osy a) IDN then Throw
    else in_order (map (fun k => make_arc (tgt a) k (osy a) (wt a)) missing)
  else Ok [].
Definition unknown_output_added (missing : list bstr) (a : arc) : res (list arc) :=
  if bstr_eqb (osy a) UNK then
    if bstr_eqb (isy a) IDN then Throw
    else in_order (map (fun k => make_arc (tgt a) (isy a) k (wt a)) missing)
  else Ok [].
Definition unknown_both_added (missing : list bstr) (a : arc) : res (list arc) :=
  if bstr_eqb (isy a) UNK && bstr_eqb (osy a) UNK then
    in_order (flat_map (fun k => flat_map (fun l => if bstr_eqb k l then [] else [make_arc (tgt a) l k (wt a)])
                                          missing) missing)
  else Ok [].
Definition unknown_added (missing : list bstr) (a : arc) : res (list arc) :=
  rbind (unknown_input_added missing a) (fun l1 =>
  rbind (unknown_output_added missing a) (fun l2 =>
  rmap (fun l3 => l1 ++ l2 ++ l3) (unknown_both_added missing a))).

(** The loops over the states and transitions, :192-221 and :228-295: what the transitions of
    a state add is appended to it afterwards. *)
Definition expand_state (f : arc -> res (list arc)) (l : list arc) : res (list arc) :=
  rmap (fun added => l ++ concat added) (in_order (map f l)).
Definition expand (f : list bstr -> arc -> res (list arc)) (missing : list bstr) (g : graph) : res graph :=
  match missing with
  | [] => Ok g
  | _ => rmap (with_sts g) (in_order (map (expand_state (f missing)) (sts g)))
  end.
Definition harmonize_identity_symbols := expand identity_added.
Definition harmonize_unknown_symbols := expand unknown_added.

(** The constructor, :57-156: the reserved symbols are erased twice from the first difference
    (:90-91, :108-109) and never from the second. *)
Definition t1_minus_t2 (g1 g2 : graph) : list bstr :=
  sdel bcmp UNK (sdel bcmp IDN (set_difference (remove_flags (alpha g1)) (remove_flags (alpha g2)))).
Definition t2_minus_t1 (g1 g2 : graph) : list bstr :=
  set_difference (remove_flags (alpha g2)) (remove_flags (alpha g1)).
Definition harmonize (g1 g2 : graph) : res (graph * graph) :=
  let d12 := t1_minus_t2 g1 g2 in
  let d21 := t2_minus_t1 g1 g2 in
  rbind (harmonize_identity_symbols d21 g1) (fun g1 =>
  rbind (harmonize_identity_symbols d12 g2) (fun g2 =>
  rbind (harmonize_unknown_symbols d21 g1) (fun g1 =>
  rbind (harmonize_unknown_symbols d12 g2) (fun g2 =>
  let g1 := add_symbols g1 (alpha g2) in
  let g2 := add_symbols g2 (alpha g1) in
  Ok (g1, g2))))).
