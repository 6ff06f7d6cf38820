(** Model of HfstTransducer::shuffle, libhfst/src/HfstTransducer.cc (line numbers without a file
    name refer to it).
    Simplifications: the type check is left out; the intersection and the optimization, which
    the back end carries out, are given by their meaning (Sh_Spec.intersection) and the
    conversions between the back end and basic transducers keep them as they are. *)
From Verif Require Import Base BT_Model Harm_Model Sh_Spec.

Inductive coding_case := ENCODE_FIRST | ENCODE_SECOND | DECODE.
(** code_symbols_for_shuffle, :4664-4711; the set of pairs is a list of one.  For a symbol shorter
    than two bytes substr throws, here the empty symbol makes the caller throw. *)
Definition recode (c : coding_case) (x : bstr) : bstr :=
  match c with ENCODE_FIRST => B "@1" ++ x | ENCODE_SECOND => B "@2" ++ x | DECODE => skipn 2 x end.
Definition code_symbols_for_shuffle (c : coding_case) (p : bstr * bstr) : option (list (bstr * bstr)) :=
  if negb (bstr_eqb (fst p) (snd p)) then None
  else if bstr_eqb (fst p) EPS || bstr_eqb (fst p) UNK then None
  else Some [(recode c (fst p), recode c (fst p))].
(** Whether the substitution sets shuffle_failed, :4668-4672. *)
Definition fails (g : graph) : bool :=
  existsb (existsb (fun a => negb (bstr_eqb (isy a) (osy a)))) (sts g).
(** :4731-4746: the old alphabet, without the prefixes, is removed after the substitution. *)
Definition encode (c : coding_case) (g : graph) : res graph :=
  rmap (fun h => remove_symbols h (alpha g)) (substitute_func (code_symbols_for_shuffle c) g).
(** :4755-4771. *)
Definition pairset (al : list bstr) : list (bstr * bstr) := map (fun x => (x, x)) al.

(** :4724-4776: what is intersected, and the two alphabets with prefixes. *)
Definition shuffle_operands (g1 g2 : graph) : res (graph * graph * list bstr * list bstr) :=
  rbind (harmonize g1 g2) (fun '(h1, h2) =>
  rbind (encode ENCODE_FIRST h1) (fun e1 =>
  rbind (encode ENCODE_SECOND h2) (fun e2 =>
  if fails h1 || fails h2 then Throw
  else
    rbind (insert_freely (pairset (alpha e2)) 0 e1) (fun p1 =>
    rmap (fun p2 => (p1, p2, alpha e1, alpha e2)) (insert_freely (pairset (alpha e1)) 0 e2))))).
(** :4786-4795. *)
Definition shuffle_result (al1 al2 : list bstr) (m : graph) : res graph :=
  rmap (fun h => remove_symbols (remove_symbols h al1) al2) (substitute_func (code_symbols_for_shuffle DECODE) m).
(** shuffle, :4714-4800: [r] is an outcome of it for some outcome of the intersection. *)
Definition shuffle (g1 g2 : graph) (r : res graph) : Prop :=
  match shuffle_operands g1 g2 with
  | Ok (p1, p2, al1, al2) => exists m, intersection p1 p2 m /\ r = shuffle_result al1 al2 m
  | Throw => r = Throw
  | Ub => r = Ub
  | Diverge => r = Diverge
  end.
