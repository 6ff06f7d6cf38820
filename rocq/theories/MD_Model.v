(** Names and other properties of transducers: tools/src/hfst-tool-metadata.cc, hfst-name.cc and
    hfst-edit-metadata.cc.  The transducers themselves are of any type [T]: the code below leaves
    them alone. *)
From Verif Require Import Base HST_Model MD_Spec.

(** HfstTokenizer::check_utf8_correctness, HfstTokenizer.cc:504-532, does not throw: u_strFromUTF8
    of ICU accepts the text.  ICU is modelled by the table of the Unicode standard; it reads up
    to the first NUL byte, which names cannot have. *)
Fixpoint utf8_from (fuel : nat) (s : bstr) : bool :=
  match s, fuel with
  | [], _ => true
  | _, 0 => false
  | _, S f => existsb (fun k => if character (firstn k s) then utf8_from f (skipn k s) else false) [1; 2; 3; 4]
  end.
Definition check_utf8 (s : bstr) : bool := utf8_from (length s) s.

Definition props := list (bstr * bstr).
Definition NAME : bstr := B "name".
(** HfstTransducer::set_name and get_name, HfstTransducer.cc:1543-1552. *)
Definition set_name (p : props) (s : bstr) : res props := set_property check_utf8 NAME s p.
Definition get_name (p : props) : bstr := get_property NAME p.

(** hfst_set_name_maybe_truncate, hfst-tool-metadata.cc:37-47. *)
Definition set_name_maybe_truncate (dest : props) (s : bstr) : res props :=
  if Nat.ltb 1024 (length s) then set_name dest (B "truncated(" ++ firstn 1000 s ++ B "...)")
  else set_name dest s.
Definition nonempty (s : bstr) : bool := match s with [] => false | _ => true end.
(** hfst_set_name of one transducer, hfst-tool-metadata.cc:56-68. *)
Definition set_name_of_one (dest src : props) (op : bstr) : res props :=
  if nonempty (get_name src) then set_name_maybe_truncate dest (op ++ B "(" ++ get_name src ++ B ")")
  else set_name_maybe_truncate dest (op ++ B "(UNNAMED)").
(** hfst_set_name of two transducers, hfst-tool-metadata.cc:70-95. *)
Definition set_name_of_two (dest lhs rhs : props) (op : bstr) : res props :=
  if nonempty (get_name lhs) && nonempty (get_name rhs) then
    set_name_maybe_truncate dest (op ++ B "(" ++ get_name lhs ++ B ", " ++ get_name rhs ++ B ")")
  else if negb (nonempty (get_name lhs)) && nonempty (get_name rhs) then
    set_name_maybe_truncate dest (op ++ B "(UNNAMED, " ++ get_name rhs ++ B ")")
  else if nonempty (get_name lhs) && negb (nonempty (get_name rhs)) then
    set_name_maybe_truncate dest (op ++ B "(" ++ get_name lhs ++ B ", UNNAMED)")
  else if negb (nonempty (get_name lhs)) && negb (nonempty (get_name rhs)) then
    set_name_maybe_truncate dest (op ++ B "(UNNAMED, UNNAMED)")
  else Throw.

(** strndup, in hfst_strndup (hfst-commandline.cc:749-758) *)
Definition strndup (s : bstr) (n : N) : bstr := firstn (N.to_nat (N.min n (N.of_nat (length s)))) s.
(** The option of a truncation, hfst-name.cc:158-165 and hfst-edit-metadata.cc:211-220: 0 stands
    for none. *)
Definition truncate_text (truncate_length : N) (s : bstr) : bstr :=
  if (0 <? truncate_length)%N then strndup s truncate_length else s.

Section Archive.
  Context {T : Type}.
  (** The loop over the transducers of a stream; a transducer that was written stays written when
      a later one fails, so the result is only of runs that end well. *)
  Fixpoint over (f : props -> res props) (l : list (props * T)) : res (list (props * T)) :=
    match l with
    | [] => Ok []
    | (p, t) :: r => rbind (f p) (fun p' => rmap (cons (p', t)) (over f r))
    end.

  (** process_stream of hfst-name, hfst-name.cc:132-174, without --print-name. *)
  Definition hfst_name (name : bstr) (truncate_length : N) (l : list (props * T)) : res (list (props * T)) :=
    over (fun p => set_name p (truncate_text truncate_length name)) l.

  (** The loop over the properties given, hfst-edit-metadata.cc:187-221. *)
  Fixpoint set_given (truncate_length : N) (given : props) (p : props) : res props :=
    match given with
    | [] => Ok p
    | (k, v) :: r =>
        if bstr_eqb k (B "character-encoding") && negb (bstr_eqb v (B "utf-8") || bstr_eqb v (B "UTF-8")) then Throw
        else rbind (set_property check_utf8 k (truncate_text truncate_length v) p) (set_given truncate_length r)
    end.
  (** The option --add=NAME=VALUE: the text is split at the first equals sign,
      hfst-edit-metadata.cc:123-137. *)
  Fixpoint split_equals (s : bstr) : option (bstr * bstr) :=
    match s with
    | [] => None
    | c :: r => if Ascii.eqb c "=" then Some ([], r) else option_map (fun kv => (c :: fst kv, snd kv)) (split_equals r)
    end.
  (** The options, parse_options of hfst-edit-metadata; the map of properties is sorted and holds the
      latest value of each. *)
  Fixpoint add_options (given : props) (args : list bstr) : res props :=
    match args with
    | [] => Ok given
    | a :: r => match split_equals a with Some (k, v) => add_options (mset bcmp k v given) r | None => Throw end
    end.
  (** hfst-edit-metadata with at least one option --add and without --print-name. *)
  Definition edit_metadata (args : list bstr) (truncate_length : N) (l : list (props * T)) : res (list (props * T)) :=
    rbind (add_options [] args) (fun given => over (set_given truncate_length given) l).
  (** hfst-edit-metadata --print-name=NAME: what it prints.  The iterator that find gives is
      followed without a test. *)
  Fixpoint print_metadata (key : bstr) (l : list (props * T)) : res bstr :=
    match l with
    | [] => Ok []
    | (p, _) :: r =>
        match mget bcmp key p with
        | Some v => rmap (fun s => v ++ B "
" ++ s) (print_metadata key r)
        | None => Ub
        end
    end.
End Archive.
