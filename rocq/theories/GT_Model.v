(** Model of encode_flag_diacritics and decode_flag_diacritics (libhfst/src/HfstTransducer.cc:3242-3375),
    of tools/src/hfst-affix-guessify.cc and of tools/src/hfst-traverse.cc.
    Simplifications: the conversions between the back end and basic transducers keep the transducers
    as they are; weights are integers; no symbol of an alphabet is empty. *)
From Verif Require Import Base Flags_Model BT_Model FH_Model.

(** str[0] = c; str[str.size() - 1] = c. *)
Definition set_ends (c : ascii) (s : bstr) : bstr :=
  match s with [] => [] | [_] => [c] | _ :: r => c :: removelast r ++ [c] end.
Definition between (c : ascii) (s : bstr) : bool :=
  match s with [] => false | x :: _ => Ascii.eqb x c && Ascii.eqb (last s c) c end.
(** encode_flag, :3242-3249. *)
Definition encode_flag (s : bstr) : bstr := set_ends "%" s.
(** decode_flag, :3251-3262. *)
Definition decode_flag (s : bstr) : bstr := if between "%" s then set_ends "@" s else s.
Definition encode_symbol (s : bstr) : bstr := if is_diacritic s then encode_flag s else s.
Definition decode_symbol (s : bstr) : bstr := if is_diacritic (decode_flag s) then decode_flag s else s.
(** :3302-3315. *)
Definition reserved_symbol (s : bstr) : bool := (4 <? length s) && between "%" s && is_diacritic (set_ends "@" s).
Definition relabel (f : bstr -> bstr) (g : graph) : graph :=
  add_symbols (copy_of g (map (map (fun a => Arc (tgt a) (f (isy a)) (f (osy a)) (wt a))) (sts g))) (map f (alpha g)).
(** encode_flag_diacritics, :3264-3324. *)
Definition encode_flag_diacritics (g : graph) : res graph :=
  if existsb reserved_symbol (alpha g) then Throw else Ok (relabel encode_symbol g).
(** decode_flag_diacritics, :3326-3370. *)
Definition decode_flag_diacritics (g : graph) : graph := relabel decode_symbol g.

(** * hfst-affix-guessify.cc, process_stream *)
Definition add_arcs (r : graph) (s : nat) (l : list arc) : graph := fold_left (fun r a => add_transition r s a true) l r.
(** guess_arc and the x_arcs to state [d], :187-202 and :213-227. *)
Definition guess_arcs (weight : Z) (al : list bstr) (d : nat) : list arc :=
  Arc d IDN IDN weight :: map (fun x => Arc d x x weight) al.
(** The loop of :205-239, [s] being the number of the next state of the transducer. *)
Fixpoint guess_states (weight : Z) (g : graph) (s : nat) (ls : list (list arc)) (r : graph) : graph :=
  match ls with
  | [] => r
  | l :: ls' =>
      let d := S s in
      let r := add_state_n r d in
      let r := match finw g s with Some w => set_final_weight r d w | None => r end in
      let r := add_arcs r 0 (guess_arcs weight (alpha g) d) in
      guess_states weight g (S s) ls' (add_arcs r d (map (fun a => Arc (S (tgt a)) (isy a) (osy a) (wt a)) l))
  end.
(** GUESS_SUFFIX, :180-243. *)
Definition guess_suffix (weight : Z) (g : graph) : graph :=
  guess_states weight g 0 (sts g) (add_arcs (add_state_n empty_graph 0) 0 (guess_arcs weight (alpha g) 0)).
(** GUESS_PREFIX, :244-268. *)
Definition guess_prefix (weight : Z) (g : graph) : graph :=
  let (r, q) := add_state g in
  let r := set_final_weight r q 0 in
  let r := add_transition r q (Arc q IDN IDN weight) true in
  fold_left (fun r s => add_transition r s (Arc q IDN IDN weight) true) (seq 0 (S (get_max_state r))) r.

(** * hfst-traverse.cc, main_loop, :164-250 *)
(** The paths are kept in a multimap: here a list, so the order in which they are shown is left out. *)
Definition step_label (g : graph) (paths : list (bstr * nat)) (label : bstr) : list (bstr * nat) :=
  let new_paths := flat_map (fun p => flat_map (fun a => if bstr_eqb (isy a) label then [(fst p ++ isy a ++ B ":" ++ osy a ++ B " ", tgt a)] else []) (arcs g (snd p))) paths in
  match new_paths with [] => paths | _ => new_paths end.
Definition traverse (g : graph) (labels : list bstr) : list (bstr * nat) := fold_left (step_label g) labels [([], 0)].
