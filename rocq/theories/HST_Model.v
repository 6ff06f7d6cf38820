(** HFST stream headers: how HfstOutputStream writes the header of each transducer of a
    stream and how HfstInputStream reads them back.
    Models libhfst/src/HfstOutputStream.cc and libhfst/src/HfstInputStream.cc, with the
    optimized-lookup stream functions of implementations/HfstOlTransducer.cc.

    Simplifications (whole file):
    - bytes are [ascii]; int is unbounded ([nat]; header sizes are below 2^16 anyway);
    - all implementation types are compiled in except XFSM (which has no HFST header) and
      MY_TRANSDUCER_LIBRARY;
    - putting back bytes always works (see [library_header]);
    - transducer bodies are modelled for the optimized-lookup types only. *)
From Verif Require Export Base.
From Verif Require Import OLF_Model.

(** enum ImplementationType, HfstDataTypes.h:44-68, the types with a stream header. *)
Inductive ftype := SFST | TROPICAL | LOG | FOMA | OL | OLW.

Definition ftype_eqb (a b : ftype) : bool :=
  match a, b with
  | SFST, SFST | TROPICAL, TROPICAL | LOG, LOG | FOMA, FOMA | OL, OL | OLW, OLW => true
  | _, _ => false
  end.

(** The names in HfstOutputStream::append_hfst_header_data, HfstOutputStream.cc:268-308. *)
Definition type_name (t : ftype) : bstr :=
  match t with
  | SFST => B "SFST" | TROPICAL => B "TROPICAL_OPENFST" | LOG => B "LOG_OPENFST"
  | FOMA => B "FOMA" | OL => B "HFST_OL" | OLW => B "HFST_OLW"
  end.

(** HfstOutputStream::append, HfstOutputStream.cc:196-201. *)
Definition put_string (s : bstr) : list ascii := s ++ [NUL].
Definition put_pair (p : bstr * bstr) : list ascii := put_string (fst p) ++ put_string (snd p).
Definition put_pairs (l : list (bstr * bstr)) : list ascii := concat (map put_pair l).

(** The attributes written: version and type (append_hfst_header_data,
    HfstOutputStream.cc:260-311), the properties other than these two in map order (:410-422),
    the implementation-specific ones (:424; only SFST has one, here the argument [extra]). *)
Definition header_pairs (t : ftype) (props extra : list (bstr * bstr)) : list (bstr * bstr) :=
  (B "version", B "3.3") :: (B "type", type_name t)
  :: filter (fun p => negb (bstr_eqb (fst p) (B "type") || bstr_eqb (fst p) (B "version"))) props
  ++ extra.

(** HfstOutputStream::operator<<, HfstOutputStream.cc:403-446: the header part.  (The
    identifying field is already written when a too long header is refused; that output is
    not modelled.) *)
Definition stream_header (t : ftype) (props extra : list (bstr * bstr)) : res (list ascii) :=
  let body := put_pairs (header_pairs t props extra) in
  let n := N.of_nat (length body) in
  if (65535 <? n)%N then Throw
  else Ok (B "HFST" ++ [NUL] ++ le 2 n ++ [NUL] ++ body).

(** The fields of HfstInputStream that survive from one transducer to the next,
    HfstInputStream.h:70-80. *)
Record istate := { i_type : option ftype; i_name : bstr; i_props : list (bstr * bstr) }.
Definition istate0 : istate := {| i_type := None; i_name := []; i_props := [] |}.

(** HfstInputStream::stream_getstring, HfstInputStream.cc:267-280.  For the first transducer
    of a stream stream_eof() is istream::eof(), true only after a failed read; for the later
    ones it is the is_eof() of the implementation's stream, which peeks ([peek] = true,
    HfstOlTransducer.cc:53-56), so the byte just read must not be the last one. *)
Fixpoint get_string (peek : bool) (bs : list ascii) : res (bstr * list ascii) :=
  match bs with
  | [] => Throw
  | c :: r =>
      if peek && (match r with [] => true | _ => false end) then Throw
      else if Ascii.eqb c NUL then Ok ([], r)
      else rbind (get_string peek r) (fun '(s, r') => Ok (c :: s, r'))
  end.

(** HfstInputStream::get_header_data, HfstInputStream.cc:846-878.  [fuel] bounds the number
    of pairs; every pair takes at least two bytes of [size].  Running out of fuel is
    [Diverge]. *)
Fixpoint header_data (peek : bool) (fuel : nat) (size read : nat) (bs : list ascii)
  : res (list (bstr * bstr) * list ascii) :=
  match fuel with
  | O => Diverge
  | S fuel' =>
      rbind (get_string peek bs) (fun '(s1, bs) =>
      rbind (get_string peek bs) (fun '(s2, bs) =>
      let read := read + length s1 + length s2 + 2 in
      if (size <? read)%nat then Throw
      else if (read =? size)%nat then Ok ([(s1, s2)], bs)
      else rbind (header_data peek fuel' size read bs) (fun '(l, bs) => Ok ((s1, s2) :: l, bs))))
  end.

(** The type field in HfstInputStream::process_header_data, HfstInputStream.cc:683-705. *)
Definition type_of_name (s : bstr) : option ftype :=
  if bstr_eqb s (B "SFST") then Some SFST
  else if bstr_eqb s (B "FOMA") then Some FOMA
  else if bstr_eqb s (B "TROPICAL_OPENFST") || bstr_eqb s (B "TROPICAL_OFST") then Some TROPICAL
  else if bstr_eqb s (B "LOG_OPENFST") || bstr_eqb s (B "LOG_OFST") then Some LOG
  else if bstr_eqb s (B "HFST_OL") then Some OL
  else if bstr_eqb s (B "HFST_OLW") then Some OLW
  else None.

Definition set_all (l : list (bstr * bstr)) (m : list (bstr * bstr)) : list (bstr * bstr) :=
  fold_left (fun m p => mset bcmp (fst p) (snd p) m) l m.

(** HfstInputStream::process_header_data, HfstInputStream.cc:661-720. *)
Definition process_header_data (st : istate) (l : list (bstr * bstr)) : res istate :=
  match l with
  | (k0, v0) :: (k1, v1) :: more =>
      if negb (bstr_eqb k0 (B "version") && (bstr_eqb v0 (B "3.0") || bstr_eqb v0 (B "3.3")))
      then Throw
      else if negb (bstr_eqb k1 (B "type")) then Throw
      else match type_of_name v1 with
           | None => Throw
           | Some t =>
               match more with
               | [] => Ok {| i_type := Some t; i_name := i_name st; i_props := i_props st |}
               | (k2, v2) :: _ =>
                   Ok {| i_type := Some t;
                         i_name := if bstr_eqb k2 (B "name") then v2 else i_name st;
                         i_props := set_all l (i_props st) |}
               end
           end
  | _ => Throw
  end.

(** HfstInputStream::read_library_header and read_library_header_old,
    HfstInputStream.cc:788-829: the bytes after the identifier, or None with all bytes put
    back. *)
Fixpoint library_header (id bs : list ascii) : option (list ascii) :=
  match id, bs with
  | [], _ => Some bs
  | c :: id', b :: bs' => if Ascii.eqb b c then library_header id' bs' else None
  | _ :: _, [] => None
  end.

(** HfstInputStream::get_header_size, HfstInputStream.cc:831-844.  Past the end of the
    stream get() yields the byte 255, which is no NUL, so a short stream throws. *)
Definition header_size (bs : list ascii) : res (nat * list ascii) :=
  match bs with
  | b1 :: b2 :: c :: r =>
      if Ascii.eqb c NUL then Ok (N.to_nat (unle [b1; b2]), r) else Throw
  | _ => Throw
  end.

(** HfstInputStream::get_fst_type_old, HfstInputStream.cc:765-786: type, reported number of
    bytes, bytes left.  The stream_eof() test after the string can only fire with [peek],
    where get_string has already thrown. *)
Definition fst_type_old (peek : bool) (bs : list ascii) : res (ftype * nat * list ascii) :=
  rbind (get_string peek bs) (fun '(s, r) =>
  if bstr_eqb s (B "SFST_TYPE") then Ok (SFST, 10, r)
  else if bstr_eqb s (B "FOMA_TYPE") then Ok (FOMA, 10, r)
  else if bstr_eqb s (B "TROPICAL_OPENFST_TYPE") then Ok (TROPICAL, 19, r)
  else if bstr_eqb s (B "LOG_OPENFST_TYPE") then Ok (LOG, 14, r)
  else if bstr_eqb s (B "HFST_OL_TYPE") then Ok (OL, 13, r)
  else if bstr_eqb s (B "HFST_OLW_TYPE") then Ok (OLW, 14, r)
  else Throw).

(** HfstInputStream::read_hfst_header, HfstInputStream.cc:728-763: new fields, reported
    number of bytes, bytes left; None = no HFST header. *)
Definition read_hfst_header (peek : bool) (st : istate) (bs : list ascii)
  : res (option (istate * nat * list ascii)) :=
  match library_header (B "HFST" ++ [NUL]) bs with
  | Some bs =>
      rbind (header_size bs) (fun '(n, bs) =>
      rbind (header_data peek (S n) n 0 bs) (fun '(l, bs) =>
      rbind (process_header_data st l) (fun st' => Ok (Some (st', 5 + 3 + n, bs)))))
  | None =>
      match library_header (B "HFST3" ++ [NUL]) bs with
      | Some bs =>
          rbind (fst_type_old peek bs) (fun '(t, n, bs) =>
            Ok (Some ({| i_type := Some t; i_name := i_name st; i_props := i_props st |},
                      6 + n, bs)))
      | None => Ok None
      end
  end.

Section Utf8.
  (** HfstTokenizer::check_utf8_correctness does not throw. *)
  Variable valid_utf8 : bstr -> bool.

  (** HfstTransducer::set_property, HfstTransducer.cc:1555-1564. *)
  Definition set_property (k v : bstr) (m : list (bstr * bstr)) : res (list (bstr * bstr)) :=
    if valid_utf8 v then Ok (mset bcmp k v m) else Throw.

  (** The end of HfstInputStream::read_transducer, HfstInputStream.cc:542-551: the properties
      of the new transducer. *)
  Fixpoint set_properties (l m : list (bstr * bstr)) : res (list (bstr * bstr)) :=
    match l with
    | [] => Ok m
    | (k, v) :: r => rbind (set_property k v m) (set_properties r)
    end.
  Definition transducer_props (st : istate) : res (list (bstr * bstr)) :=
    rbind (set_property (B "name") (i_name st) []) (set_properties (i_props st)).

  (** HfstTransducer::get_property, HfstTransducer.cc:1566-1577. *)
  Definition get_property (k : bstr) (m : list (bstr * bstr)) : bstr :=
    match mget bcmp k m with Some v => v | None => [] end.

  (** Body and properties of one transducer of a type-[t] stream positioned after the header:
      HfstInputStream::read_transducer, HfstInputStream.cc:331-551 with
      HfstOlInputStream::read_transducer, HfstOlTransducer.cc:150-167.  The conversion between
      weighted and unweighted (:532-533) is left out: bodies are as announced. *)
  Definition read_body (st : istate) (bs : list ascii)
    : res ((list (bstr * bstr) * transducer) * list ascii) :=
    match bs with
    | [] => Throw
    | _ =>
      rbind (transducer_read {| is_bytes := bs; is_eof := false |}) (fun '(t, is) =>
      rbind (transducer_props st) (fun ps => Ok ((ps, t), is_bytes is)))
    end.

  (** Reading the transducers after the first one until the end of the stream:
      HfstInputStream::read_transducer, HfstInputStream.cc:318-328.  A stream without a
      further HFST header is refused ([guess_fst_type] is not modelled).  Each turn consumes
      the 5 bytes of a header at least; [fuel] bounds the number of turns. *)
  Fixpoint read_more (fuel : nat) (t : ftype) (st : istate) (bs : list ascii)
    : res (list (list (bstr * bstr) * transducer)) :=
    match bs with
    | [] => Ok []
    | _ =>
      match fuel with
      | O => Diverge
      | S fuel' =>
          rbind (read_hfst_header true st bs) (fun o =>
          match o with
          | None => Throw
          | Some (st, _, bs) =>
              match i_type st with
              | Some t' =>
                  if ftype_eqb t t' then
                    rbind (read_body st bs) (fun '(x, bs) =>
                    rbind (read_more fuel' t st bs) (fun xs => Ok (x :: xs)))
                  else Throw
              | None => Throw
              end
          end)
      end
    end.

  (** Reading a whole file of optimized-lookup transducers: HfstInputStream(filename),
      HfstInputStream.cc:1008-1091, reads the header from a stream of its own; the
      implementation's stream is opened again and skips the reported number of bytes
      (:310-317).  With [filename] = false: HfstInputStream(std::istream&), :1093-1150, where
      nothing is skipped. *)
  Definition read_file (filename : bool) (bs : list ascii)
    : res (ftype * list (list (bstr * bstr) * transducer)) :=
    rbind (read_hfst_header false istate0 bs) (fun o =>
    match o with
    | None => Throw
    | Some (st, n, rest) =>
        match i_type st with
        | Some (OL as t) | Some (OLW as t) =>
            let rest := if filename then skipn n bs else rest in
            rbind (read_body st rest) (fun '(x, rest) =>
            rbind (read_more (length rest) t st rest) (fun xs => Ok (t, x :: xs)))
        | _ => Throw
        end
    end).
End Utf8.

(** HfstOutputStream::operator<< for a sequence of optimized-lookup transducers. *)
Fixpoint write_file (t : ftype) (l : list (list (bstr * bstr) * transducer))
  : res (list ascii) :=
  match l with
  | [] => Ok []
  | (props, tr) :: r =>
      rbind (stream_header t props []) (fun h =>
      rbind (transducer_write tr) (fun b =>
      rbind (write_file t r) (fun rest => Ok (h ++ b ++ rest))))
  end.
