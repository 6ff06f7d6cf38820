(** hfst-split (tools/src/hfst-split.cc) and hfst-multiply (tools/src/hfst-multiply.cc).  An archive
    is the list of its transducers. *)
From Verif Require Import Base ATT_Model IN_Model.
From Coq Require Import NArith.
Local Close Scope Z_scope.

Section Tools.
  Context {T : Type}.

  (** The files: name and archive. *)
  Definition files := bstr -> option (list T).
  Definition write (name : bstr) (a : list T) (fs : files) : files :=
    fun x => if bstr_eqb x name then Some a else fs x.
  (** The name printed at hfst-split.cc:156-157. *)
  Definition out_name (prefix ext : bstr) (n : N) : bstr := prefix ++ print_nat n ++ ext.
  (** The bytes allocated for it, hfst-split.cc:153-155. *)
  Definition out_room (prefix ext : bstr) : nat :=
    length prefix + length ext + length (B "123456789012345678901234567890").
  (** process_stream of hfst-split, hfst-split.cc:144-170.  A file that cannot be written and an
      input file that is one of the output files are not modelled. *)
  Fixpoint split_from (prefix ext : bstr) (transducer_n : N) (l : list T) (fs : files) : files :=
    match l with
    | [] => fs
    | t :: r => let n := (transducer_n + 1)%N in split_from prefix ext n r (write (out_name prefix ext n) [t] fs)
    end.
  Definition hfst_split (prefix ext : bstr) (l : list T) (fs : files) : files := split_from prefix ext 0 l fs.

  (** The loop of hfst-multiply.cc:142-145, with what it writes: i is an unsigned int of 32 bits
      and dupe_count an unsigned long. *)
  Inductive duplicate (dupe_count : Z) (t : T) : Z -> list T -> Prop :=
  | dup_end i : (i <? dupe_count)%Z = false -> duplicate dupe_count t i []
  | dup_more i out : (i <? dupe_count)%Z = true -> duplicate dupe_count t ((i + 1) mod 2 ^ 32)%Z out ->
      duplicate dupe_count t i (t :: out).
  (** process_stream of hfst-multiply, hfst-multiply.cc:122-150: the archive written by runs that
      end. *)
  Inductive multiply (dupe_count : Z) : list T -> list T -> Prop :=
  | mul_end : multiply dupe_count [] []
  | mul_more t l out rest : duplicate dupe_count t 0 out -> multiply dupe_count l rest -> multiply dupe_count (t :: l) (out ++ rest).
  (** hfst-multiply with option --number: hfst_strtoul (hfst-commandline.cc:411-427) refuses texts
      with anything after the number. *)
  Definition hfst_multiply (number : bstr) (l out : list T) : Prop :=
    let '(n, rest) := strtoul number in rest = [] /\ multiply n l out.
End Tools.
