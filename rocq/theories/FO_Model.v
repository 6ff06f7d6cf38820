(** Formulaic definitions of transducers: tools/src/hfst-tool-metadata.cc. *)
From Verif Require Import Base HST_Model MD_Spec MD_Model.
From Coq Require Import NArith.

Definition FORMULA : bstr := B "formulaic-definition".
Definition get_formula (p : props) : bstr := get_property FORMULA p.
(** hfst_set_formula_maybe_truncate, hfst-tool-metadata.cc:25-35. *)
Definition set_formula_maybe_truncate (dest : props) (s : bstr) : res props :=
  if Nat.ltb 1024 (length s) then set_property check_utf8 FORMULA (B "TRUNC") dest
  else set_property check_utf8 FORMULA s dest.
(** hfst_set_formula of a string, hfst-tool-metadata.cc:97-110: at(0) throws on the empty string,
    and a char is signed. *)
Definition set_formula_of_string (dest : props) (src op : bstr) : res props :=
  match src with
  | [] => Throw
  | c :: _ =>
      if ((0 <? N_of_ascii c) && (N_of_ascii c <? 128))%N then set_formula_maybe_truncate dest (op ++ B " " ++ [c])
      else set_formula_maybe_truncate dest (op ++ B " U8")
  end.
(** hfst_set_formula of one transducer, hfst-tool-metadata.cc:112-126. *)
Definition set_formula_of_one (dest src : props) (op : bstr) : res props :=
  if nonempty (get_formula src) then set_formula_maybe_truncate dest (op ++ B " " ++ get_formula src)
  else set_formula_maybe_truncate dest (op ++ B " .").
(** hfst_set_formula of two transducers, hfst-tool-metadata.cc:128-161. *)
Definition set_formula_of_two (dest lhs rhs : props) (op : bstr) : res props :=
  if nonempty (get_formula lhs) && nonempty (get_formula rhs) then
    set_formula_maybe_truncate dest (get_formula lhs ++ B " " ++ op ++ B " " ++ get_formula rhs)
  else if negb (nonempty (get_formula lhs)) && nonempty (get_formula rhs) then
    set_formula_maybe_truncate dest (B ". " ++ op ++ B " " ++ get_formula rhs)
  else if nonempty (get_formula lhs) && negb (nonempty (get_formula rhs)) then
    set_formula_maybe_truncate dest (get_formula lhs ++ B " " ++ op ++ B " .")
  else set_formula_maybe_truncate dest (B ". " ++ op ++ B " .").
