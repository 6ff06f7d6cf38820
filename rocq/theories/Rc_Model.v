(** Model of the replacement rules with context, libhfst/src/HfstRules.cc (line numbers without a
    file name refer to it).
    As in Ru_Model transducers stand for sets of pair strings.  Composition of transducers
    with epsilons is given by the relation between strings it computes, [rel] and [rcomp].
    Simplifications: weights, type checks and the check that the contexts are automata
    (:283-294, they are automata in the theorems) are left out; unknown and identity are
    ordinary symbols. *)
From Verif Require Import Base BT_Model Ru_Model.

(** insert_freely(StringPair): the pair may be inserted anywhere and any number of times. *)
Inductive inserted (p : pair) : list pair -> list pair -> Prop :=
| ins_nil : inserted p [] []
| ins_keep q v w : inserted p v w -> inserted p (q :: v) (q :: w)
| ins_add v w : inserted p v w -> inserted p v (p :: w).
Definition l_insert (p : pair) (a : plang) : plang := fun w => exists v, a v /\ inserted p v w.
(** reverse *)
Definition l_rev (a : plang) : plang := fun w => a (rev w).
(** The strings related by a transducer, and compose. *)
Definition srel := list bstr -> list bstr -> Prop.
Definition strip (x : list bstr) : list bstr := filter (fun a => negb (bstr_eqb a EPS)) x.
Definition rel (a : plang) : srel := fun u v => exists w, a w /\ u = strip (map fst w) /\ v = strip (map snd w).
Definition rcomp (a b : srel) : srel := fun u v => exists z, a u z /\ b z v.
Definition ror (a b : srel) : srel := fun u v => a u v \/ b u v.

Inductive context_type := UP | DOWN | RIGHT | LEFT | DOWN_KARTTUNEN.
Definition LM : bstr := B "@_LEFT_MARKER_@".
Definition RM : bstr := B "@_RIGHT_MARKER_@".

(** replace_transducer, :60-85. *)
Definition replace_transducer (t : plang) (lm rm : bstr) (ty : replace_type) (alphabet : list pair) : plang :=
  let tc := l_insert (lm, lm) (l_insert (rm, rm) t) in
  let tm := l_cat (l_cat (l_symbol lm) tc) (l_symbol rm) in
  replace tm ty false alphabet.
(** replace_context, :89-149. *)
Definition replace_context (t : plang) (m1 m2 : bstr) (alphabet : list pair) : plang :=
  let t_copy := l_insert (m2, m2) (l_insert (m1, m1) t) in
  let pi_star := l_any alphabet in
  let arg1 := l_cat pi_star t_copy in
  let arg2 := l_sub pi_star (l_cat pi_star (l_symbol m1)) in
  let ct := l_comp arg1 arg2 in
  let mt := l_cat (l_cat (l_star (l_symbol m2)) (l_symbol m1)) pi_star in
  let ct_neg_mt := l_cat ct (l_sub pi_star mt) in
  let neg_ct_mt := l_cat (l_sub pi_star ct) mt in
  l_sub pi_star (l_or neg_ct_mt ct_neg_mt).
(** replace_in_context, :269-400.  The alphabet passed by reference gets the two markers and
    loses them again. *)
Definition replace_in_context (context : plang * plang) (ty : context_type) (t : plang) (optional : bool)
    (alphabet : list pair) : srel :=
  let ibt := l_any (alphabet ++ [(EPS, LM); (EPS, RM)]) in
  let rbt := l_any (alphabet ++ [(LM, EPS); (RM, EPS)]) in
  let alphabet' := alphabet ++ [(LM, LM); (RM, RM)] in
  let pi_star := l_any alphabet' in
  let cbt := l_sub pi_star (l_cat (l_cat (l_cat pi_star (l_symbol LM)) (l_symbol RM)) pi_star) in
  let lct := replace_context (fst context) LM RM alphabet' in
  let rct := l_rev (replace_context (l_rev (snd context)) RM LM alphabet') in
  let rt := replace_transducer t LM RM (match ty with DOWN => REPL_DOWN | _ => REPL_UP end) alphabet' in
  let result := rcomp (rel ibt) (rel cbt) in
  let result := match ty with UP | RIGHT => rcomp result (rel rct) | _ => result end in
  let result := match ty with UP | LEFT => rcomp result (rel lct) | _ => result end in
  let result := rcomp result (rel rt) in
  let result := match ty with DOWN | RIGHT | DOWN_KARTTUNEN => rcomp result (rel lct) | _ => result end in
  let result := match ty with DOWN | LEFT | DOWN_KARTTUNEN => rcomp result (rel rct) | _ => result end in
  let result := rcomp result (rel rbt) in
  if optional then ror result (rel (l_any alphabet)) else result.
