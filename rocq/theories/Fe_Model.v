(** Elimination of flag diacritics: HfstTransducer::eliminate_flags and eliminate_flag,
    libhfst/src/HfstTransducer.cc:1783-2160 (line numbers without a file name refer to it), and
    HfstBasicTransducer::flag_purge, libhfst/src/implementations/HfstBasicTransducer.cc:3235-3297.

    Simplifications: a transducer is the set of its weighted label sequences (labels with
    epsilon on both sides left out) and its alphabet; the regular expressions of the filters and
    the composition with a filter are given by their meaning; symbols contain no NUL byte, so
    that strcmp on c_str() is comparison; the escaping of flags as "_@...@" while a filter is
    compiled and the unescaping afterwards (:1812-1828) are left out, as they only make the
    flags ordinary symbols for the regular expression; the FOMA and XFSM back-ends, which
    delegate to the other library, are not modelled; flag_is_epsilon_in_composition has its
    default value, false. *)
From Verif Require Import Base Flags_Model BT_Model BT_Spec OLC_Model Harm_Model.

(** FLAG_FAIL, FLAG_SUCCEED, FLAG_NONE, :1839-1841. *)
Inductive status := SFail | SSucceed | SNone.
Definition op_eqb (a b : fdoperator) : bool :=
  match a, b with
  | Pop, Pop | Nop, Nop | Rop, Rop | Dop, Dop | Cop, Cop | Uop, Uop => true
  | _, _ => false
  end.

(** flag_build, :1843-1929. *)
Definition flag_build (ftype : fdoperator) (fname fvalue : bstr)
                      (fftype : fdoperator) (ffname ffvalue : bstr) : status :=
  if negb (bstr_eqb fname ffname) then SNone else
  let selfnull := bstr_eqb fvalue [] in
  let eq := bstr_eqb fvalue ffvalue in
  (* U flags *)
  if op_eqb ftype Uop && op_eqb fftype Pop && eq then SSucceed else
  if op_eqb ftype Uop && op_eqb fftype Cop then SSucceed else
  if op_eqb ftype Uop && op_eqb fftype Uop && negb eq then SFail else
  if op_eqb ftype Uop && op_eqb fftype Pop && negb eq then SFail else
  if op_eqb ftype Uop && op_eqb fftype Nop && eq then SFail else
  (* R flag without a value *)
  if op_eqb ftype Rop && op_eqb fftype Uop && selfnull then SSucceed else
  if op_eqb ftype Rop && op_eqb fftype Pop && selfnull then SSucceed else
  if op_eqb ftype Rop && op_eqb fftype Nop && selfnull then SSucceed else
  if op_eqb ftype Rop && op_eqb fftype Cop && selfnull then SFail else
  (* R flag with a value *)
  if op_eqb ftype Rop && op_eqb fftype Pop && eq && negb selfnull then SSucceed else
  if op_eqb ftype Rop && op_eqb fftype Uop && eq && negb selfnull then SSucceed else
  if op_eqb ftype Rop && op_eqb fftype Pop && negb eq && negb selfnull then SFail else
  if op_eqb ftype Rop && op_eqb fftype Uop && negb eq && negb selfnull then SFail else
  if op_eqb ftype Rop && op_eqb fftype Nop && negb selfnull then SFail else
  if op_eqb ftype Rop && op_eqb fftype Cop && negb selfnull then SFail else
  (* D flag without a value *)
  if op_eqb ftype Dop && op_eqb fftype Cop && selfnull then SSucceed else
  if op_eqb ftype Dop && op_eqb fftype Pop && selfnull then SFail else
  if op_eqb ftype Dop && op_eqb fftype Uop && selfnull then SFail else
  if op_eqb ftype Dop && op_eqb fftype Nop && selfnull then SFail else
  (* D flag with a value *)
  if op_eqb ftype Dop && op_eqb fftype Pop && negb eq && negb selfnull then SSucceed else
  if op_eqb ftype Dop && op_eqb fftype Cop && negb selfnull then SSucceed else
  if op_eqb ftype Dop && op_eqb fftype Nop && eq && negb selfnull then SSucceed else
  if op_eqb ftype Dop && op_eqb fftype Pop && eq && negb selfnull then SFail else
  if op_eqb ftype Dop && op_eqb fftype Uop && eq && negb selfnull then SFail else
  if op_eqb ftype Dop && op_eqb fftype Nop && negb eq && negb selfnull then SFail else
  SNone.

(** hfst_operator_to_char, :1931-1947, as the operator itself; the exception of the last line is
    [None], which the callers never meet. *)
Definition operator_of (f : bstr) : option fdoperator :=
  match get_operator f with c :: _ => char_to_operator c | [] => None end.

(** is_valid_flag_combination, :1949-1969. *)
Definition is_valid_flag_combination (flag1 flag2 : bstr) : status :=
  match operator_of flag1, operator_of flag2 with
  | Some o1, Some o2 =>
      flag_build o1 (get_feature flag1) (get_value flag1) o2 (get_feature flag2) (get_value flag2)
  | _, _ => SNone
  end.

(** Languages and the regular expressions ?*, a b, (a), ~a, $a. *)
Definition lang := list bstr -> Prop.
Definition r_any : lang := fun _ => True.
Definition r_syms (xs : list bstr) : lang := fun s => exists x, In x xs /\ s = [x].
Definition r_cat (a b : lang) : lang := fun s => exists u v, s = u ++ v /\ a u /\ b v.
Definition r_opt (a : lang) : lang := fun s => s = [] \/ a s.
Definition r_not (a : lang) : lang := fun s => ~ a s.
Definition r_contains (a : lang) : lang := r_cat r_any (r_cat a r_any).

(** new_filter, :1783-1809. *)
Definition new_filter (fail succeed : list bstr) (self : bstr) (required : bool) : lang :=
  if required then
    r_not (r_cat (r_opt (r_cat r_any (r_syms fail)))
                 (r_cat (r_not (r_contains (r_syms succeed))) (r_cat (r_syms [self]) r_any)))
  else
    r_not (r_cat r_any (r_cat (r_syms fail)
                 (r_cat (r_not (r_contains (r_syms succeed))) (r_cat (r_syms [self]) r_any)))).

(** A filter: its language and its alphabet. *)
Record flt := Flt { f_lang : lang; f_alpha : list bstr }.
Definition status_is (s t : status) : bool :=
  match s, t with SFail, SFail | SSucceed, SSucceed | SNone, SNone => true | _, _ => false end.
Definition with_status (f : bstr) (flags : list bstr) (t : status) : list bstr :=
  filter (fun g => status_is (is_valid_flag_combination f g) t) flags.

(** The body of the loop of get_flag_filter, :1985-2031.  [flag] is a feature, or empty. *)
Definition filtered (flag f : bstr) : bool :=
  (bstr_eqb flag [] || bstr_eqb (get_feature f) flag)
  && (at_is f 1 "U" || at_is f 1 "R" || at_is f 1 "D").
Definition filter_step (flags : list bstr) (flag : bstr) (acc : option flt) (f : bstr) : option flt :=
  let fail := if filtered flag f then with_status f flags SFail else [] in
  let succeed := if filtered flag f then with_status f flags SSucceed else [] in
  match fail ++ succeed with
  | [] => acc
  | _ =>
      let nf := new_filter fail succeed f (at_is f 1 "R") in
      let al := f :: fail ++ succeed in
      match acc with
      | None => Some (Flt nf al)
      | Some fl => Some (Flt (fun s => f_lang fl s /\ nf s) (f_alpha fl ++ al))
      end
  end.
(** get_flag_filter, :1977-2040. *)
Definition get_flag_filter (flags : list bstr) (flag : bstr) : option flt :=
  fold_left (filter_step flags flag) flags None.

(** A transducer. *)
Definition pair := (bstr * bstr)%type.
Record tran := Tran { t_rel : list pair -> Z -> Prop; t_alpha : list bstr }.

(** The symbols of one side of a label sequence. *)
Definition side (p : pair -> bstr) (l : list pair) : list bstr :=
  filter (fun x => negb (bstr_eqb x EPS)) (map p l).

(** HfstTransducer::is_special_symbol, :2984-2993. *)
Definition is_special_sym (s : bstr) : bool :=
  if length s <? 4 then false
  else at_is s 0 "@" && at_is s (length s - 1) "@" && at_is s 1 "_" && at_is s (length s - 2) "_".

(** Symbols that the unknown and identity symbols of the other transducer do not match in
    HfstTransducer::compose, :4205-4409: those HfstTransducer::is_special_symbol holds of are
    inserted into both alphabets (:4284-4285), pattern matching symbols are never expanded and
    neither are flags (HarmonizeUnknownAndIdentitySymbols.cc:43-63), unless xerox_composition
    is set, when flags are encoded as ordinary symbols (:4251-4258).  The unknown and identity
    symbols of the transducer itself are matched. *)
Definition unmatched (xerox : bool) (x : bstr) : bool :=
  negb (bstr_eqb x UNK || bstr_eqb x IDN)
  && (is_special_sym x || is_pmatch_special x || (negb xerox && is_diacritic x)).
Definition matches (xerox : bool) (fl : flt) (s : list bstr) : Prop :=
  f_lang fl s /\ forall x, In x s -> unmatched xerox x = true -> In x (f_alpha fl).

(** encode_flag_diacritics, :3302-3325: a symbol that is already an encoded flag. *)
Definition reencoded (x : bstr) : bool :=
  (4 <? length x) && at_is x 0 "%" && at_is x (length x - 1) "%"
  && is_diacritic (B "@" ++ substr x 1 (length x - 2) ++ B "@").

(** filter.compose(t).compose(filter) of eliminate_flags, :2081, and eliminate_flag, :2144.
    With xerox_composition, encoding and decoding (:3242-3373) undo each other, since the
    exception of :3313-3318 leaves no symbol that looks like an encoded flag. *)
Definition compose_both (xerox : bool) (fl : flt) (t : tran) : res tran :=
  if xerox && existsb reencoded (f_alpha fl ++ t_alpha t) then Throw
  else Ok (Tran (fun l w => t_rel t l w /\ matches xerox fl (side fst l) /\ matches xerox fl (side snd l))
                (t_alpha t ++ f_alpha fl)).

(** HfstBasicTransducer::get_flags, HfstBasicTransducer.cc:3235-3247. *)
Definition get_flags (al : list bstr) : list bstr := filter is_diacritic al.
(** HfstBasicTransducer::purge_symbol, HfstBasicTransducer.cc:3252-3263. *)
Definition purge_symbol (symbol flag : bstr) : bool :=
  if negb (is_diacritic symbol) then false
  else if bstr_eqb flag [] then true
  else bstr_eqb (get_feature symbol) flag.
(** HfstBasicTransducer::flag_purge, HfstBasicTransducer.cc:3268-3297. *)
Definition purged (flag : bstr) (p : pair) : bool := purge_symbol (fst p) flag || purge_symbol (snd p) flag.
Definition purge_arc (flag : bstr) (a : arc) : arc :=
  if purged flag (isy a, osy a) then Arc (tgt a) EPS EPS (wt a) else a.
Definition flag_purge (flag : bstr) (g : graph) : graph :=
  Graph (map (map (purge_arc flag)) (sts g)) (fin g)
        (filter (fun x => negb (purge_symbol x flag)) (alpha g)).
(** The transducer of a basic transducer, and flag_purge (:2044-2055) on a transducer: that they
    agree is [C81_flag_purge]. *)
Definition no_eps (l : list pair) : list pair := filter (fun p => negb (pair_eqb p (EPS, EPS))) l.
Definition tran_of (g : graph) : tran :=
  Tran (fun l w => exists m, accepts g m w /\ l = no_eps m) (alpha g).
Definition t_purge (flag : bstr) (t : tran) : tran :=
  Tran (fun l w => exists m, t_rel t m w /\ l = filter (fun p => negb (purged flag p)) m)
       (filter (fun x => negb (purge_symbol x flag)) (t_alpha t)).

(** What eliminate_flags (:2057-2094) and eliminate_flag (:2096-2160) have in common; optimize()
    does not change the relation. *)
Definition eliminate (xerox : bool) (flag : bstr) (t : tran) : res tran :=
  match get_flag_filter (get_flags (t_alpha t)) flag with
  | Some fl => rmap (t_purge flag) (compose_both xerox fl t)
  | None => Ok (t_purge flag t)
  end.
Definition eliminate_flags (xerox : bool) (t : tran) : res tran := eliminate xerox [] t.
Definition eliminate_flag (xerox : bool) (flag : bstr) (t : tran) : res tran :=
  if existsb (fun f => bstr_eqb (get_feature f) flag) (get_flags (t_alpha t))
  then eliminate xerox flag t
  else Throw.
