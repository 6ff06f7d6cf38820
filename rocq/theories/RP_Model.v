(** Model of tools/src/hfst-repeat.cc (line numbers refer to it unless another file is named) for
    one transducer of type SFST.
    Simplifications: the text of an argument is given by the number that strtod finds in it, which
    is not NaN; the names and formulas given to the result are left out; the two arguments of
    HfstTransducer::concatenate have the symbols of the same transducer, or none, so harmonizing
    them does nothing; numbers of repetitions that a machine could not go through are not cut
    short. *)
From Verif Require Import Base SF_Spec SF_Model RP_Spec.

Definition INT_MAX : Z := 2147483647.
Definition INT_MIN : Z := (-2147483648)%Z.
Definition UINT_MAX : Z := 4294967295.
(** Conversions to unsigned long and unsigned int. *)
Definition to_ulong (z : Z) : Z := (z mod 18446744073709551616)%Z.
Definition to_uint (z : Z) : Z := (z mod 4294967296)%Z.
(** hfst_strtonumber, tools/src/hfst-commandline.cc:373-409: the number and *infinite. *)
Definition hfst_strtonumber (v : value) : Z * bool :=
  match v with
  | Infinity negative => ((if negative then 1 else 0)%Z, true)
  | Fraction p q =>
      if (INT_MAX * Z.pos q <? p)%Z then (INT_MAX, false)
      else if (p <? INT_MIN * Z.pos q)%Z then (INT_MIN, false)
      else ((p / Z.pos q)%Z, false)
  end.
(** The global variables, :54-57, after parse_options, :85-136. *)
Record options := Options { least : Z; most : Z; from_infinity : bool; to_infinity : bool }.
Definition parse_options (from to : option value) : res options :=
  let (least, fi) := match from with None => (0%Z, false) | Some v => let (n, i) := hfst_strtonumber v in (to_ulong n, i) end in
  let (most, ti) := match to with None => (UINT_MAX, true) | Some v => let (n, i) := hfst_strtonumber v in (to_ulong n, i) end in
  if (most <? least)%Z then Throw
  else if fi && negb ti then Throw
  else Ok (Options least most fi ti).
(** HfstTransducer::repeat_n_minus, libhfst/src/HfstTransducer.cc:2360-2382, which is
    SfstTransducer::repeat_le_n; its loop runs while the counter is less than n+1 as an unsigned
    int, implementations/SfstTransducer.cc:573-584. *)
Definition repeat_n_minus (t : trans) (n : Z) : res trans :=
  if (n =? UINT_MAX)%Z then Ok empty_transducer else repeat_le_n t (Z.to_nat n).
(** repeat_n_to_k, libhfst/src/HfstTransducer.cc:2384-2397. *)
Definition repeat_n_to_k (t : trans) (n k : Z) : res trans :=
  rbind (repeat_n t (Z.to_nat n)) (fun a => rbind (repeat_n_minus t (to_uint (k - n))) (concatenation a)).
(** repeat_n_plus, libhfst/src/HfstTransducer.cc:2345-2358. *)
Definition repeat_n_plus (t : trans) (n : Z) : res trans :=
  rbind (repeat_n t (Z.to_nat n)) (fun a => rbind (kleene_star t) (concatenation a)).
(** process_stream, :184-235. *)
Definition repeat_one (o : options) (t : trans) : res trans :=
  match from_infinity o, to_infinity o with
  | false, false => repeat_n_to_k t (to_uint (least o)) (to_uint (most o))
  | true, true => kleene_star t
  | false, true => repeat_n_plus t (to_uint (least o))
  | true, false => Throw
  end.
Definition hfst_repeat (from to : option value) (t : trans) : res trans :=
  rbind (parse_options from to) (fun o => repeat_one o t).
