(** Composition of a lexicon with the intersection of a list of rules, as callers see it.
    Models HfstTransducer::compose_intersect, libhfst/src/HfstTransducer.cc:4838-5027 (line
    numbers without a file name refer to it); the composition itself is in CI_Model and
    harmonization in Harm_Model.

    Simplifications: transducers are tropical ones, or SFST ones, so nothing is converted for
    foma; a transducer is the basic transducer it is converted to and from (the conversion adds
    the special symbols to the alphabet, [reread]); optimize, :4883, is left out, as it keeps the
    weighted relation; the symbol numbers [num], [sym] and the bound [fuel] of the main loop are
    those of CI_Model. *)
From Verif Require Import Base Flags_Model BT_Model Harm_Model CI_Model.

(** The boundary symbol, :4868, and the stand-ins for identity and unknown, :4908-4909. *)
Definition BND := B "@#@".
Definition MIDN := B "||_IDENTITY_SYMBOL_||".
Definition MUNK := B "||_UNKNOWN_SYMBOL_||".

(** The constructor HfstBasicTransducer() puts the special symbols into the alphabet,
    HfstBasicTransducer.cc:52-58, before ConvertTropicalWeightTransducer.cc:98-135 adds others. *)
Definition reread (g : graph) : graph := with_alpha g (initialize_alphabet (alpha g)).
(** HfstTransducer::invert, :2430, with TropicalWeightTransducer.cc:2146-2152: Invert of OpenFst. *)
Definition turn (g : graph) : graph :=
  with_sts g (map (map (fun a => Arc (tgt a) (osy a) (isy a) (wt a))) (sts g)).
(** Concat of OpenFst, called in TropicalWeightTransducer.cc:2532-2538: the final states of the
    first transducer get an epsilon transition with their final weight to the start of the copy
    of the second one.  The alphabets are joined; harmonization changes no transition here, as
    the alphabet of the boundary transducer is part of that of the lexicon (:4877-4881). *)
Fixpoint leaving (g : graph) (n s : nat) (ls : list (list arc)) : list (list arc) :=
  match ls with
  | [] => []
  | l :: ls => (l ++ match finw g s with Some w => [Arc n EPS EPS w] | None => [] end) :: leaving g n (S s) ls
  end.
Definition shift (n : nat) (a : arc) : arc := Arc (tgt a + n) (isy a) (osy a) (wt a).
Definition concatenate (g h : graph) : graph :=
  let n := length (sts g) in
  Graph (leaving g n 0 (sts g) ++ map (map (shift n)) (sts h))
        (map (fun e => (fst e + n, snd e)) (fin h))
        (alpha (add_symbols g (alpha h))).
(** The boundary transducer, :4874, and its concatenation to both ends, :4877-4884. *)
Definition boundary : graph := Graph [[Arc 1 EPS BND 0]; []] [(1, 0%Z)] (initialize_alphabet [BND]).
Definition with_boundaries (g : graph) : graph :=
  concatenate (concatenate boundary (add_symbol g BND)) boundary.

(** :4901-4906. *)
Definition prepare_lexicon (invert : bool) (g : graph) : res graph :=
  if invert then rmap reread (substitute_pair (BND, EPS) (EPS, BND) (turn g)) else Ok g.
(** :4919-4924, 4951-4956, 4964-4969, 4990-4995. *)
Definition prepare_rule (invert : bool) (g : graph) : res graph :=
  if invert then rmap reread (substitute_pair (EPS, BND) (BND, EPS) (turn g)) else Ok g.
Fixpoint prepare_rules (invert : bool) (v : list graph) : res (list graph) :=
  match v with
  | [] => Ok []
  | r :: v => rbind (prepare_rule invert r) (fun r => rmap (cons r) (prepare_rules invert v))
  end.
(** :4908-4909 and :5018-5019. *)
Definition hide (g : graph) : res graph :=
  rbind (substitute_symbol IDN MIDN true true g) (substitute_symbol UNK MUNK true true).
Definition unhide (g : graph) : res graph :=
  rbind (substitute_symbol MIDN IDN true true g) (substitute_symbol MUNK UNK true true).

(** The whole function; [*v.begin()] of an empty vector, :4862, is [Ub].  With one rule,
    :4911-4938, the result is not inverted again. *)
Definition compose_intersect (num : bstr -> nat) (sym : nat -> bstr) (fuel : nat)
    (lexicon : graph) (v : list graph) (invert : bool) : res graph :=
  match v with
  | [] => Ub
  | first :: _ =>
      let lexicon := if smem bcmp BND (alpha first) then with_boundaries lexicon else lexicon in
      rbind (harmonize first lexicon) (fun '(_, lexicon) =>
      rbind (prepare_lexicon invert lexicon) (fun lexicon =>
      rbind (hide lexicon) (fun lexicon =>
      rbind (prepare_rules invert v) (fun rules =>
      match rules with
      | [] => Ub
      | [r] =>
          rbind (compose_with_rules num sym fuel (make_lexicon num lexicon) [] (make_rule num r)) (fun h =>
          unhide (prune_alphabet true h))
      | r1 :: r2 :: rest =>
          let rules := fold_left (fun p r => make_pair (make_rule num r) p) rest
                                 (make_pair (make_rule num r1) (make_rule num r2)) in
          rbind (compose_with_rules num sym fuel (make_lexicon num lexicon) [] rules) (fun h =>
          let h := prune_alphabet true h in
          unhide (if invert then turn h else h))
      end))))
  end.
