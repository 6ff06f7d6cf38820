(** Model of the two flag-diacritic machines.
    /repo/libhfst/src/HfstFlagDiacritics.{h,cc}, HfstLookupFlagDiacritics.cc *)
From Verif Require Import Base.

Definition ch_at : ascii := "@"%char.
Definition ch_dot : ascii := "."%char.

(** [s.at(i) == c] for an index known to be in range (every caller checks the
    size first, HfstFlagDiacritics.cc:46-54). *)
Definition at_is (s : bstr) (i : nat) (c : ascii) : bool :=
  match nth_error s i with Some x => Ascii.eqb x c | None => false end.

(** std::string::find(c, pos): first index >= pos holding c. *)
Fixpoint find_char (c : ascii) (s : bstr) : option nat :=
  match s with
  | [] => None
  | x :: r => if Ascii.eqb x c then Some 0 else option_map S (find_char c r)
  end.
Definition find_from (c : ascii) (s : bstr) (pos : nat) : option nat :=
  option_map (fun i => pos + i) (find_char c (skipn pos s)).

(** std::string::find_last_of(c). *)
Fixpoint find_last (c : ascii) (s : bstr) : option nat :=
  match s with
  | [] => None
  | x :: r =>
      match find_last c r with
      | Some i => Some (S i)
      | None => if Ascii.eqb x c then Some 0 else None
      end
  end.

(** std::string::substr(pos, len). *)
Definition substr (s : bstr) (pos len : nat) : bstr := firstn len (skipn pos s).

(** HfstFlagDiacritics.h: enum FdOperator {Pop, Nop, Rop, Dop, Cop, Uop}. *)
Inductive fdoperator := Pop | Nop | Rop | Dop | Cop | Uop.

(** HfstFlagDiacritics.h FdOperation::char_to_operator (throws otherwise: None). *)
Definition char_to_operator (c : ascii) : option fdoperator :=
  if Ascii.eqb c "P" then Some Pop
  else if Ascii.eqb c "N" then Some Nop
  else if Ascii.eqb c "R" then Some Rop
  else if Ascii.eqb c "D" then Some Dop
  else if Ascii.eqb c "C" then Some Cop
  else if Ascii.eqb c "U" then Some Uop
  else None.

(** FdOperation::is_diacritic, HfstFlagDiacritics.cc:43-80; the identical code
    is FlagDiacriticTable::is_genuine_diacritic, HfstLookupFlagDiacritics.cc:19-57. *)
Definition is_diacritic (s : bstr) : bool :=
  if length s <? 5 then false
  else if negb (at_is s 2 ".") then false
  else if negb (at_is s 0 "@") then false
  else if negb (at_is s (length s - 1) "@") then false
  else if negb (at_is s 1 "P" || at_is s 1 "N" || at_is s 1 "D" ||
                at_is s 1 "R" || at_is s 1 "C" || at_is s 1 "U") then false
  else match find_last ch_dot s with
       | Some 2 =>
           if negb (at_is s 1 "R") && negb (at_is s 1 "D") && negb (at_is s 1 "C")
           then false else true
       | _ => true
       end.

(** FdOperation::get_operator, HfstFlagDiacritics.cc:82-86. *)
Definition get_operator (s : bstr) : bstr := substr s 1 1.

(** FdOperation::get_feature, HfstFlagDiacritics.cc:88-101. *)
Definition get_feature (s : bstr) : bstr :=
  let past := match find_from ch_dot s 3 with
              | Some p => p | None => length s - 1 end in
  substr s 3 (past - 3).

(** [diacritic.find('.', diacritic.find('.') + 1)]; find returning npos makes
    npos+1 = 0 (size_t wrap), i.e. a search from the start that fails again. *)
Definition second_dot (s : bstr) : option nat :=
  match find_from ch_dot s 0 with
  | Some p => find_from ch_dot s (p + 1)
  | None => find_from ch_dot s 0
  end.

(** FdOperation::get_value, HfstFlagDiacritics.cc:103-120. *)
Definition get_value (s : bstr) : bstr :=
  match second_dot s with
  | None => []
  | Some p => substr s (p + 1) (length s - 1 - (p + 1))
  end.

(** FdOperation::has_value, HfstFlagDiacritics.cc:122-126. *)
Definition has_value (s : bstr) : bool :=
  match second_dot s with None => false | Some _ => true end.

(** Feature/value splitting shared verbatim by FdTable::define_diacritic
    (HfstFlagDiacritics.h:93-110) and FlagDiacriticTable::split_diacritic
    (HfstLookupFlagDiacritics.cc:86-111); precondition: [is_diacritic s]. *)
Definition split_feature_value (s : bstr) : bstr * option bstr :=
  let last := length s - 1 in
  match find_from ch_dot s 3 with
  | None => (substr s 3 (last - 2 - 1), None)
  | Some p => (substr s 3 (p - 2 - 1), Some (substr s (p + 1) (last - p - 1)))
  end.

(** * FdTable / FdState (numeric machine, used by optimized lookup) *)

(** FdOperation (operator, feature id, value id); FdValue is a C short, kept in Z
    with the wrap written out ([to_short]). *)
Record fdop := { fo_op : fdoperator; fo_feat : nat; fo_val : Z }.

Record fdtable := {
  feature_map : list (bstr * nat);
  value_map : list (bstr * Z);
  operations : list (nat * fdop);       (* T = symbol number *)
  symbol_map : list (bstr * nat)
}.

(** Conversion of an integer to a 16-bit signed short. *)
Definition to_short (z : Z) : Z :=
  let m := (z mod 65536)%Z in if (m <? 32768)%Z then m else (m - 65536)%Z.

(** size_t_to_ushort, HfstDataTypes.cc:117-124 (None = std::overflow_error). *)
Definition size_t_to_ushort (z : Z) : option Z :=
  if (z <=? 65535)%Z then Some z else None.

(** FdTable::FdTable, HfstFlagDiacritics.h:81-82. *)
Definition fd_empty : fdtable :=
  {| feature_map := []; value_map := [([], 0%Z)]; operations := []; symbol_map := [] |}.

(** FdTable::define_diacritic, HfstFlagDiacritics.h:84-126.
    None = the bare [throw] (not a diacritic) or std::overflow_error. *)
Definition define_diacritic (t : fdtable) (symbol : nat) (str : bstr) : option fdtable :=
  if negb (is_diacritic str) then None
  else
    match nth_error str 1 with
    | None => None
    | Some c =>
      match char_to_operator c with
      | None => None
      | Some op =>
        let '(feat, oval) := split_feature_value str in
        let val := match oval with Some v => v | None => [] end in
        let fm :=
          match mget bcmp feat (feature_map t) with
          | Some _ => Some (feature_map t)
          | None =>
              match size_t_to_ushort (Z.of_nat (length (feature_map t))) with
              | None => None
              | Some _ => Some (mset bcmp feat (length (feature_map t)) (feature_map t))
              end
          end in
        let vm :=
          match mget bcmp val (value_map t) with
          | Some _ => Some (value_map t)
          | None =>
              match size_t_to_ushort (Z.of_nat (length (value_map t)) + 1) with
              | None => None
              | Some n => Some (mset bcmp val (to_short n) (value_map t))
              end
          end in
        match fm, vm with
        | Some fm, Some vm =>
            match mget bcmp feat fm, mget bcmp val vm with
            | Some f, Some v =>
                Some {| feature_map := fm; value_map := vm;
                        operations := mset Nat.compare symbol
                                        {| fo_op := op; fo_feat := f; fo_val := v |}
                                        (operations t);
                        symbol_map := mset bcmp str symbol (symbol_map t) |}
            | _, _ => None
            end
        | _, _ => None
        end
      end
    end.

Fixpoint define_all (t : fdtable) (defs : list (nat * bstr)) : option fdtable :=
  match defs with
  | [] => Some t
  | (k, s) :: r =>
      match define_diacritic t k s with
      | Some t' => define_all t' r
      | None => None
      end
  end.

(** FdTable::num_features, HfstFlagDiacritics.h:128 (cast to ushort). *)
Definition num_features (t : fdtable) : Z :=
  (Z.of_nat (length (feature_map t)) mod 65536)%Z.

(** FdState: the vector of values and the error flag.  HfstFlagDiacritics.h:203-222. *)
Record fdstate := { fs_values : list Z; fs_error : bool }.
Definition fdstate_new (t : fdtable) : fdstate :=
  {| fs_values := repeat 0%Z (Z.to_nat (num_features t)); fs_error := false |}.

(** FdState::reset, HfstFlagDiacritics.h:298-303. *)
Definition fdstate_reset (t : fdtable) (s : fdstate) : fdstate := fdstate_new t.

(** FdState::apply_operation(const FdOperation&), HfstFlagDiacritics.h:243-288.
    None = out-of-range access to [values] (undefined behaviour).
    Arithmetic is done in int and stored back into a short. *)
Definition apply_op (op : fdop) (s : fdstate) : option (fdstate * bool) :=
  let f := fo_feat op in
  let val := fo_val op in
  match nth_error (fs_values s) f with
  | None => None
  | Some v =>
      let set z := {| fs_values := upd f (to_short z) (fs_values s); fs_error := fs_error s |} in
      Some
      (match fo_op op with
       | Pop => (set val, true)
       | Nop => (set (-1 * val)%Z, true)
       | Rop => if (val =? 0)%Z then (s, negb (v =? 0)%Z) else (s, (v =? val)%Z)
       | Dop => if (val =? 0)%Z then (s, (v =? 0)%Z) else (s, negb (v =? val)%Z)
       | Cop => (set 0%Z, true)
       | Uop =>
           if (v =? 0)%Z || (v =? val)%Z || ((v <? 0)%Z && negb (v * -1 =? val)%Z)
           then (set val, true) else (s, false)
       end)
  end.

(** FdState::apply_operation(T), HfstFlagDiacritics.h:236-242. *)
Definition apply_symbol (t : fdtable) (k : nat) (s : fdstate) : option (fdstate * bool) :=
  match mget Nat.compare k (operations t) with
  | Some op => apply_op op s
  | None => Some (s, true)
  end.

(** FdState::apply_operation(const std::string&), HfstFlagDiacritics.h:289-295. *)
Definition apply_string (t : fdtable) (k : bstr) (s : fdstate) : option (fdstate * bool) :=
  match mget bcmp k (symbol_map t) with
  | Some n => apply_symbol t n s
  | None => Some (s, true)
  end.

(** A client applying a sequence of symbols to one FdState, collecting results. *)
Fixpoint run_symbols (t : fdtable) (ks : list nat) (s : fdstate) : option (list bool) :=
  match ks with
  | [] => Some []
  | k :: r =>
      match apply_symbol t k s with
      | None => None
      | Some (s', b) => option_map (cons b) (run_symbols t r s')
      end
  end.

(** FdTable::is_valid_string(const std::vector<T>&), HfstFlagDiacritics.h:165-175. *)
Fixpoint valid_loop (t : fdtable) (ks : list nat) (s : fdstate) : option fdstate :=
  match ks with
  | [] => Some s
  | k :: r =>
      match apply_symbol t k s with
      | None => None
      | Some (s', true) => valid_loop t r s'
      | Some (s', false) => Some s'
      end
  end.
Definition fdtable_is_valid_string (t : fdtable) (ks : list nat) : option bool :=
  option_map (fun s => negb (fs_error s)) (valid_loop t ks (fdstate_new t)).

(** FdOperation::find_diacritic, HfstFlagDiacritics.cc:128-147
    (position and length; None = npos). *)
Definition find_diacritic (s : bstr) : option (nat * nat) :=
  match find_from ch_at s 0 with
  | None => None
  | Some start =>
      match find_from ch_at s (start + 1) with
      | None => None
      | Some e =>
          if is_diacritic (substr s start (e - start)) then Some (start, e - start) else None
      end
  end.

(** * FlagDiacriticTable (string machine, used by lookup on basic transducers) *)

(** The static maps diacritic_operators/features/values/has_value are keyed by
    the whole diacritic string and always refilled by split_diacritic just before
    they are read (HfstLookupFlagDiacritics.cc:118-124, 197-237), so they are
    modelled as the pure function [split_feature_value]. *)
Record fltable := {
  feature_values : list (bstr * bstr);
  feature_polarities : list (bstr * bool);
  error_flag : bool
}.

(** FlagDiacriticTable::FlagDiacriticTable / reset, :114-116, :247-252. *)
Definition fl_new : fltable :=
  {| feature_values := []; feature_polarities := []; error_flag := false |}.
Definition fl_reset (t : fltable) : fltable := fl_new.

Definition fl_error (t : fltable) (b : bool) : fltable :=
  {| feature_values := feature_values t; feature_polarities := feature_polarities t;
     error_flag := b |}.

(** operator[] on feature_polarities: default-constructed (false) if absent. *)
Definition polarity (t : fltable) (f : bstr) : bool :=
  match mget bcmp f (feature_polarities t) with Some b => b | None => false end.

(** set_positive_value / set_negative_value, :126-137. *)
Definition set_value (b : bool) (f v : bstr) (t : fltable) : fltable :=
  {| feature_values := mset bcmp f v (feature_values t);
     feature_polarities := mset bcmp f b (feature_polarities t);
     error_flag := error_flag t |}.

(** disallow(feature, value), :138-145. *)
Definition disallow_value (f v : bstr) (t : fltable) : fltable :=
  match mget bcmp f (feature_values t) with
  | None => t
  | Some v' => if bstr_eqb v' v then fl_error t (error_flag t || polarity t f) else t
  end.
(** disallow(feature), :146-150. *)
Definition disallow_feature (f : bstr) (t : fltable) : fltable :=
  match mget bcmp f (feature_values t) with None => t | Some _ => fl_error t true end.
(** require(feature, value), :151-163. *)
Definition require_value (f v : bstr) (t : fltable) : fltable :=
  match mget bcmp f (feature_values t) with
  | None => fl_error t true
  | Some v' =>
      if negb (bstr_eqb v' v) then fl_error t true
      else fl_error t (error_flag t || negb (polarity t f))
  end.
(** require(feature), :164-168. *)
Definition require_feature (f : bstr) (t : fltable) : fltable :=
  match mget bcmp f (feature_values t) with None => fl_error t true | Some _ => t end.
(** unify, :169-182. *)
Definition unify (f v : bstr) (t : fltable) : fltable :=
  let t' :=
    match mget bcmp f (feature_values t) with
    | None => set_value true f v t
    | Some v' =>
        if negb (bstr_eqb v' v) then
          if negb (polarity t f) then set_value true f v t else t
        else t
    end in
  require_value f v t'.
(** clear, :183-187. *)
Definition clear_feature (f : bstr) (t : fltable) : fltable :=
  {| feature_values := mdel bcmp f (feature_values t);
     feature_polarities := mdel bcmp f (feature_polarities t);
     error_flag := error_flag t |}.

(** insert_symbol, :195-242. *)
Definition insert_symbol (s : bstr) (t : fltable) : fltable :=
  if is_diacritic s then
    let '(f, ov) := split_feature_value s in
    let v := match ov with Some v => v | None => [] end in
    match option_map char_to_operator (nth_error s 1) with
    | Some (Some Pop) => set_value true f v t
    | Some (Some Nop) => set_value false f v t
    | Some (Some Dop) => match ov with None => disallow_feature f t | Some v => disallow_value f v t end
    | Some (Some Rop) => match ov with None => require_feature f t | Some v => require_value f v t end
    | Some (Some Cop) => clear_feature f t
    | Some (Some Uop) => unify f v t
    | _ => t
    end
  else t.

(** is_valid_string, :254-266: returns the answer and the table left behind. *)
Fixpoint fl_loop (l : list bstr) (t : fltable) : bool * fltable :=
  match l with
  | [] => (true, t)
  | s :: r =>
      let t' := insert_symbol s t in
      if error_flag t' then (false, t') else fl_loop r t'
  end.
Definition fl_is_valid_string (l : list bstr) (t : fltable) : bool * fltable :=
  fl_loop l (fl_reset t).

(** filter_diacritics, :268-280. *)
Definition filter_diacritics (l : list bstr) : list bstr :=
  filter (fun s => negb (is_diacritic s)) l.
