(** hfst-info, tools/src/hfst-info.cc.  The messages it prints are not modelled: the result is
    Ok for exit code 0 and Throw for EXIT_FAILURE (the calls of error). *)
From Verif Require Import Base ATT_Model.
Open Scope Z_scope.

(** strtoul in base 10 with a 64-bit unsigned long: the value and the text after the number.
    Without digits nothing is read; a number too large gives ULONG_MAX. *)
Definition strtoul (s : bstr) : Z * bstr :=
  let '(neg, r) := read_sign (skip_white s) in
  match r with
  | c :: _ =>
      match digit_value c with
      | Some _ =>
          let '(n, rest) := read_digits r 0%N in
          let z := Z.of_N n in
          ((if 2 ^ 64 <=? z then 2 ^ 64 - 1 else if neg then (- z) mod 2 ^ 64 else z), rest)
      | None => (0, s)
      end
  | [] => (0, s)
  end.
(** The conversion of an unsigned long to long, hfst-info.cc:58, 68 and 78. *)
Definition to_long (z : Z) : Z := if z <? 2 ^ 63 then z else z - 2 ^ 64.
(** The result of an operation on long: overflow is undefined. *)
Definition long (z : Z) : res Z := if ((- 2 ^ 63 <=? z) && (z <? 2 ^ 63))%bool then Ok z else Ub.

(** parse_version_string, hfst-info.cc:54-88. *)
Definition times_10000 (z : Z) : res Z := long (z * 10000).
Definition plus (x y : res Z) : res Z := rbind x (fun a => rbind y (fun b => long (a + b))).
Definition parse_version_string (s : bstr) : res Z :=
  let '(major, e) := strtoul s in
  let high := rbind (times_10000 (to_long major)) times_10000 in
  match e with
  | [] => high
  | c :: s =>
      if Ascii.eqb c "." then
        let '(minor, e) := strtoul s in
        let middle := plus high (times_10000 (to_long minor)) in
        match e with
        | [] => middle
        | c :: s =>
            if Ascii.eqb c "." then
              let '(patch, e) := strtoul s in
              match e with
              | [] => plus middle (Ok (to_long patch))
              | _ => Throw
              end
            else Throw
        end
      else Throw
  end.

(** The options of parse_options, hfst-info.cc:145-157. *)
Inductive info_option :=
| AtLeast (v : bstr)
| Exactly (v : bstr)
| AtMost (v : bstr)
| Feature (f : bstr).
(** The variables of hfst-info.cc:48-51. *)
Record info_state := { min_version : Z; exact_version : Z; max_version : Z; required_features : list bstr }.
Definition info_start : info_state :=
  {| min_version := -1; exact_version := -1; max_version := -1; required_features := [] |}.
(** One turn of the loop of parse_options, hfst-info.cc:125-165.  The set of features is a list:
    order and repetition only decide which message is printed first. *)
Definition parse_option (st : info_state) (o : info_option) : res info_state :=
  match o with
  | AtLeast s => rbind (parse_version_string s) (fun v => Ok
      {| min_version := v; exact_version := exact_version st; max_version := max_version st; required_features := required_features st |})
  | Exactly s => rbind (parse_version_string s) (fun v => Ok
      {| min_version := min_version st; exact_version := v; max_version := max_version st; required_features := required_features st |})
  | AtMost s => rbind (parse_version_string s) (fun v => Ok
      {| min_version := min_version st; exact_version := exact_version st; max_version := v; required_features := required_features st |})
  | Feature f => Ok
      {| min_version := min_version st; exact_version := exact_version st; max_version := max_version st; required_features := required_features st ++ [f] |}
  end.
Fixpoint parse_options (st : info_state) (os : list info_option) : res info_state :=
  match os with
  | [] => Ok st
  | o :: r => rbind (parse_option st o) (fun st' => parse_options st' r)
  end.

(** The symbols of the build configuration that hfst-info.cc tests. *)
Record config := { have_sfst : bool; have_foma : bool; have_xfsm : bool; have_openfst : bool }.

Definition one_of (f : bstr) (l : list string) : bool := existsb (fun s => bstr_eqb f (B s)) l.
(** One turn of the loop over the required features, hfst-info.cc:211-256. *)
Definition check_feature (c : config) (f : bstr) : res unit :=
  if one_of f ["sfst"; "SFST"; "HAVE_SFST"]%string then if have_sfst c then Ok tt else Throw
  else if one_of f ["foma"; "FOMA"; "HAVE_FOMA"]%string then if have_foma c then Throw else Ok tt
  else if one_of f ["xfsm"; "XFSM"; "HAVE_XFSM"]%string then if have_xfsm c then Throw else Ok tt
  else if one_of f ["openfst"; "OPENFST"; "HAVE_OPENFST"]%string then if have_openfst c then Throw else Ok tt
  else if one_of f ["icu"; "USE_ICU_UNICODE"]%string then Ok tt
  else Throw.
Fixpoint check_features (c : config) (fs : list bstr) : res unit :=
  match fs with [] => Ok tt | f :: r => rbind (check_feature c f) (fun _ => check_features c r) end.

Definition require (b : bool) : res unit := if b then Ok tt else Throw.
(** main, hfst-info.cc:176-286; [current] is HFST_LONGVERSION.  The options -h and -V are not
    modelled. *)
Definition hfst_info (c : config) (current : Z) (os : list info_option) : res unit :=
  rbind (parse_options info_start os) (fun st =>
  rbind (require ((min_version st =? -1) || negb (current <? min_version st))) (fun _ =>
  rbind (require ((exact_version st =? -1) || (current =? exact_version st))) (fun _ =>
  rbind (require ((max_version st =? -1) || negb (current <? max_version st))) (fun _ =>
  check_features c (required_features st))))).
