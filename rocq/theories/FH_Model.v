(** Model of the functions of libhfst/src/HfstTransducer.cc (line numbers without a file name
    refer to it) that prepare the flag diacritics of two transducers, for the type
    TROPICAL_OPENFST.
    Simplifications: the type checks are left out; the conversions between the back end and basic
    transducers keep the transducers as they are; loops that copy a transducer transition by
    transition are written as maps over the states, which is the same since all target states
    exist from the start. *)
From Verif Require Import Base Flags_Model BT_Model Co_Spec Co_Model PU_Model.

(** check_for_missing_flags_in, :3055-3078. *)
Definition missing_flags_in (another t : graph) : list bstr :=
  filter (fun s => is_diacritic s && negb (smem bcmp s (alpha t))) (alpha another).
(** insert_freely_missing_flags_from, :3080-3101. *)
Definition insert_freely_missing_flags_from (another t : graph) : graph :=
  match missing_flags_in another t with
  | [] => t
  | m => let ps := map (fun s => (s, s)) m in
         with_sts (add_pairs t ps) (add_loops ps 0 0 (sts t))
  end.
(** has_flags, :3103-3115. *)
Definition has_flags (g : graph) : bool := existsb is_diacritic (alpha g).
(** add_suffix_to_feature_name, :3123-3137. *)
Definition add_suffix_to_feature_name (s suffix : bstr) : bstr :=
  B "@" ++ get_operator s ++ B "." ++ get_feature s ++ suffix ++
  (if has_value s then B "." ++ get_value s else []) ++ B "@".
Definition rename_symbol (suffix s : bstr) : bstr := if is_diacritic s then add_suffix_to_feature_name s suffix else s.
(** The graph with the states [ls] and the final weights of [g]; the alphabet has the symbols of
    the transitions only (a new HfstBasicTransducer to which the transitions are added). *)
Definition copy_of (g : graph) (ls : list (list arc)) : graph :=
  Graph ls (fin g) (alpha (add_pairs empty_graph (map label (concat ls)))).
(** rename_flag_diacritics, :3139-3180. *)
Definition rename_flag_diacritics (suffix : bstr) (g : graph) : graph :=
  copy_of g (map (map (fun a => Arc (tgt a) (rename_symbol suffix (isy a)) (rename_symbol suffix (osy a)) (wt a))) (sts g)).

(** twosided_flag_diacritics, :3182-3240: the transitions of one state, [n] being the number of
    the next new state, and those of the new states. *)
Definition extra_transition_needed (a : arc) : bool :=
  (is_diacritic (isy a) || is_diacritic (osy a)) && negb (bstr_eqb (isy a) (osy a)).
Definition first_half (n : nat) (a : arc) : arc := Arc n (isy a) (if is_diacritic (isy a) then isy a else EPS) 0.
Definition second_half (a : arc) : arc := Arc (tgt a) (if is_diacritic (osy a) then osy a else EPS) (osy a) (wt a).
Fixpoint ts_arcs (n : nat) (l : list arc) : list arc * list (list arc) :=
  match l with
  | [] => ([], [])
  | a :: r =>
      if extra_transition_needed a
      then let (own, new) := ts_arcs (S n) r in (first_half n a :: own, [second_half a] :: new)
      else let (own, new) := ts_arcs n r in (a :: own, new)
  end.
Fixpoint ts_states (n : nat) (ls : list (list arc)) : list (list arc) * list (list arc) :=
  match ls with
  | [] => ([], [])
  | l :: r =>
      let (own, new) := ts_arcs n l in
      let (rest, more) := ts_states (n + length new) r in (own :: rest, new ++ more)
  end.
Definition twosided_flag_diacritics (g : graph) : graph :=
  let (old, new) := ts_states (length (sts g)) (sts g) in copy_of g (old ++ new).

(** it.find(part) != npos. *)
Fixpoint occurs (part s : bstr) : bool :=
  is_prefix part s || match s with [] => false | _ :: r => occurs part r end.
(** :4472-4493: the flags of the alphabet with [part] in them. *)
Definition flags_with (part : bstr) (g : graph) : list bstr := filter (fun s => is_diacritic s && occurs part s) (alpha g).
(** dollar_flag, :4438-4439 and the like: the first and the last character replaced.  Flags have
    at least five characters. *)
Definition dollar (s : bstr) : bstr := B "$" ++ removelast (tl s) ++ B "$".
(** get_flag_path_restriction, :4412-4468. *)
Definition loops_on (n : nat) (l : list bstr) : list arc := map (fun s => Arc n (dollar s) (dollar s) 0) l.
Definition get_flag_path_restriction (flags1 flags2 : list bstr) : graph :=
  let st0 := Arc 0 IDN IDN 0 :: loops_on 0 flags1 ++ loops_on 1 flags2 in
  let st1 := Arc 0 IDN IDN 0 :: loops_on 1 flags2 in
  copy_of (Graph [st0; st1] [(0, 0%Z); (1, 0%Z)] []) [st0; st1].
(** remove_illegal_flag_paths, :4470-4540. *)
Definition remove_illegal_flag_paths (g : graph) (r : res graph) : Prop :=
  let flags1 := flags_with (B "_1.") g in
  let flags2 := flags_with (B "_2.") g in
  match flags1, flags2 with
  | [], _ | _, [] => r = Ok g
  | _, _ =>
      match substitute_symbols (map (fun s => (s, dollar s)) (flags1 ++ flags2)) g with
      | Ok g1 => andthen (compose g1 (get_flag_path_restriction flags1 flags2))
                   (fun c r => r = substitute_symbols (map (fun s => (dollar s, s)) (flags1 ++ flags2)) c) r
      | e => r = e
      end
  end.
(** harmonize_flag_diacritics, :3405-3435: what the two transducers become. *)
Definition harmonize_flag_diacritics (insert_renamed_flags : bool) (t another : graph) (r : res graph) (another' : graph) : Prop :=
  match has_flags t, has_flags another with
  | true, true =>
      let t1 := rename_flag_diacritics (B "_1") t in
      let a1 := rename_flag_diacritics (B "_2") another in
      if insert_renamed_flags
      then let t2 := insert_freely_missing_flags_from a1 t1 in
           another' = insert_freely_missing_flags_from t2 a1 /\ remove_illegal_flag_paths t2 r
      else r = Ok t1 /\ another' = a1
  | true, false => r = Ok t /\ another' = if insert_renamed_flags then insert_freely_missing_flags_from t another else another
  | false, true => r = Ok (if insert_renamed_flags then insert_freely_missing_flags_from another t else t) /\ another' = another
  | false, false => r = Ok t /\ another' = another
  end.
