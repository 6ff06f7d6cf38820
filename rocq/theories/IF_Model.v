(** Model of tools/src/hfst-insert-freely.cc (line numbers refer to it).  label_to_stringpair is the
    same in tools/src/hfst-substitute.cc:88-152.
    Simplifications: an archive is the list of its transducers; option -H is not given; the label
    is correct UTF-8 without zero bytes; the conversions between the type of the transducer and
    the basic one change nothing. *)
From Verif Require Import Base BT_Model EE_Model IF_Spec.

(** The loop of label_to_stringpair, :70-101, at the character [c] after those in [acc], in reverse:
    strchr goes on to the next colon.  Where the loop neither ends nor moves on it is stuck. *)
Fixpoint find_colon (acc l : bstr) : res (option (bstr * bstr)) :=
  match l with
  | [] => Ok None
  | c :: r =>
      if Ascii.eqb c colon then
        match acc with
        | [] => find_colon (c :: acc) r
        | b :: acc' =>
            match r with
            | [] => Ok None
            | _ => if Ascii.eqb b backslash then
                     match acc' with
                     | [] => Diverge
                     | b' :: _ => if Ascii.eqb b' backslash then Ok (Some (rev acc, r)) else find_colon (c :: acc) r
                     end
                   else Ok (Some (rev acc, r))
            end
        end
      else find_colon (c :: acc) r
  end.
(** :112-126. *)
Definition from_zero (s : bstr) : bstr := if bstr_eqb s (B "@0@") then EPS else s.
(** label_to_stringpair, :67-131; None is the null pointer. *)
Definition label_to_stringpair (label : bstr) : res (option (bstr * bstr)) :=
  rmap (option_map (fun p => (from_zero (fst p), from_zero (snd p)))) (find_colon [] label).
(** Option -a, :191-211: the pair, or an error. *)
Definition option_a (label : bstr) : res (option (bstr * bstr)) :=
  rbind (label_to_stringpair (from_zero label)) (fun p => match label with [] => Throw | _ => Ok p end).
(** process_stream, :220-252, with insert_freely of libhfst/src/HfstTransducer.cc:3495-3580. *)
Definition insert_freely_tool (label : option bstr) (ts : list graph) : res (list graph) :=
  rbind (match label with None => Ok None | Some x => option_a x end) (fun p =>
  match ts, p with
  | [], _ => Ok []
  | t :: r, Some (i, o) => rmap (fun h => h :: r) (insert_freely_graph (pair_fst i o) t)
  | _ :: _, None => Ub
  end).
