(** Model of the replace rules of xfst and of regular expressions,
    libhfst/src/HfstXeroxRules.cc (line numbers without a file name refer to it).
    As in Ru_Model.v the operations of HfstTransducer are given by their meaning: a transducer
    stands for the set of pair strings it accepts, without the pairs epsilon:epsilon; a side
    of a pair is [None] for epsilon.  Once the functions go over to composition, only the
    relation between input and output strings matters, and a transducer stands for it.
    The unknown and identity symbols stand for all the symbols that the alphabet of the
    transducer does not list, as the harmonization before each operation sees to;
    insert_to_alphabet therefore takes a symbol away from what they stand for.
    Simplifications: weights are left out; optimize changes nothing; mark-up rules
    (:605-612, create_mapping_for_mark_up_replace) and the renaming of flag diacritics while
    the rule is built (encodeFlags, decodeFlagDiacritics) are left out. *)
From Verif Require Import Base.

(** Symbols: those of the user, the boundary .#. , and the auxiliary symbols @LM@, @RM@, @LM2@,
    @RM2@, @TMPM@ and, of the i-th of parallel rules, @i@. *)
Inductive sym := Pl (a : nat) | Bd | LM | RM | LM2 | RM2 | Tm | Mk (i : nat).
Definition sym_eq_dec (x y : sym) : {x = y} + {x <> y}.
Proof. decide equality; apply Nat.eq_dec. Defined.
Definition word := list sym.
Definition lang := word -> Prop.
Definition pairs := list (option sym * option sym).
Definition pset := pairs -> Prop.
Definition rel := word -> word -> Prop.

Definition some (x : option sym) : word := match x with Some s => [s] | None => [] end.
Definition up (p : pairs) : word := flat_map (fun x => some (fst x)) p.
Definition down (p : pairs) : word := flat_map (fun x => some (snd x)) p.
Definition idw (w : word) : pairs := map (fun s => (Some s, Some s)) w.
Definition rel_of (P : pset) : rel := fun x y => exists p, P p /\ up p = x /\ down p = y.

(** The operations: the transducer of one pair, disjunct, concatenate, subtract, repeat_star
    and repeat_plus; the identity pair with some symbols in the alphabet; an automaton as a
    set of pair strings. *)
Definition one (a b : option sym) : pset := fun p => p = [(a, b)].
Definition same (s : sym) : pset := one (Some s) (Some s).
Definition alt (P Q : pset) : pset := fun p => P p \/ Q p.
Definition cat (P Q : pset) : pset := fun p => exists q r, p = q ++ r /\ P q /\ Q r.
Definition sub (P Q : pset) : pset := fun p => P p /\ ~ Q p.
Definition star (P : pset) : pset := fun p => exists l, Forall P l /\ p = concat l.
Definition plus (P : pset) : pset := cat P (star P).
Definition any (known : list sym) : pset := fun p => exists s, ~ In s known /\ p = [(Some s, Some s)].
Definition aut (L : lang) : pset := fun p => exists w, L w /\ p = idw w.
(** compose with an automaton on the upper or the lower side: the pair strings remain. *)
Definition upper_in (L : lang) (P : pset) : pset := fun p => P p /\ L (up p).
Definition lower_in (L : lang) (P : pset) : pset := fun p => P p /\ L (down p).
(** insert_freely of single symbols, none of which the language has. *)
Definition freely (bs : list sym) (L : lang) : lang :=
  fun w => L (filter (fun s => if in_dec sym_eq_dec s bs then false else true) w).

(** cross_product, HfstTransducer.cc:4564-4638: the symbols of the two strings are paired one
    by one, the shorter string is filled up with epsilons at its end. *)
Fixpoint pad (x y : word) : pairs :=
  match x, y with
  | a :: x', b :: y' => (Some a, Some b) :: pad x' y'
  | a :: x', [] => (Some a, None) :: pad x' []
  | [], _ => map (fun b => (None, Some b)) y
  end.
Definition cross (A B : lang) : pset := fun p => exists x y, A x /\ B y /\ p = pad x y.

Inductive rtype := REPL_UP | REPL_DOWN | REPL_RIGHT | REPL_LEFT.
(** A context: two automata, and whether their alphabets list .#. *)
Record ctxt := { c_left : lang; c_left_bd : bool; c_right : lang; c_right_bd : bool }.
(** class Rule; [r_alph]: the alphabet of the first left side. *)
Record rule := { r_map : list (lang * lang); r_ctx : list ctxt; r_type : rtype; r_alph : list sym }.

Definition brackets (optional : bool) : list sym := if optional then [LM; RM] else [LM; RM; LM2; RM2].
Definition no_boundary (P : pset) : pset := fun p => P p /\ ~ In Bd (up p) /\ ~ In Bd (down p).
Definition has_boundary : pset := fun p => exists w, In Bd w /\ p = idw w.

(** expandContextsWithMapping, :402-563, for one context: the left context with anything before
    it and brackets inserted freely (:430-437, insertFreelyAllTheBrackets :370-400), and such
    pair strings of [ie] as have it on the side the type of the rule says (:455-504), both
    (:510-514); unless the alphabet lists .#. , that symbol and anything before it
    (:527-549). *)
Definition left_context (optional : bool) (ty : rtype) (ie : pset) (c : ctxt) : pset :=
  let first := freely (brackets optional) (fun w => exists u l, w = u ++ l /\ c_left c l) in
  let expanded := match ty with
    | REPL_UP | REPL_LEFT => upper_in first ie
    | REPL_RIGHT | REPL_DOWN => lower_in first ie
    end in
  let both := alt (aut first) expanded in
  if c_left_bd c then both else cat (same Bd) (cat (star (any [Bd])) (no_boundary both)).
(** The same on the right, :440-444, :455-517, :552-569. *)
Definition right_context (optional : bool) (ty : rtype) (ie : pset) (c : ctxt) : pset :=
  let second := freely (brackets optional) (fun w => exists r v, w = r ++ v /\ c_right c r) in
  let expanded := match ty with
    | REPL_UP | REPL_RIGHT => upper_in second ie
    | REPL_LEFT | REPL_DOWN => lower_in second ie
    end in
  let both := alt (aut second) expanded in
  if c_right_bd c then both else cat (no_boundary both) (cat (star (any [Bd])) (same Bd)).
Definition expand_contexts (optional : bool) (ty : rtype) (ie : pset) (cs : list ctxt) (mapping : pset) : pset :=
  fun p => exists c, In c cs /\
    cat (left_context optional ty ie c) (cat (cat (same Tm) (cat mapping (same Tm))) (right_context optional ty ie c)) p.

(** The mapping of a rule, :601-672 and :954-996; [mark]: what is put after the right sides. *)
Definition mapping (mark : word) (r : rule) : pset := fun p =>
  exists A B, In (A, B) (r_map r) /\ sub (cross A (fun y => exists y', B y' /\ y = y' ++ mark)) has_boundary p.
(** If it is empty: identity, :675-696 and :1014-1036. *)
Definition mapping_or_identity (mark : word) (r : rule) : pset := fun p =>
  mapping mark r p \/
  ((forall q, ~ mapping mark r q) /\ exists al, star (any (LM :: RM :: Tm :: al)) p /\
    match r_map r with
    | (_, b) :: _ => ((forall w, ~ b w) /\ al = r_alph r) \/ ((exists w, b w) /\ al = [])
    | [] => False
    end).
Definition left_sides (r : rule) : lang := fun x => exists A B, In (A, B) (r_map r) /\ A x.

Definition bracketed (l r : sym) (P : pset) : pset := cat (same l) (cat P (same r)).
Definition none : pset := fun _ => False.

(** :763-832 and :1063-1234, common to one rule and several: [maps] are the bracketed mappings
    with the contexts and types of their rules, [known] what identity does not stand for. *)
Definition identity_expanded (known : list sym) (maps : list (pset * list ctxt * rtype)) : pset :=
  star (alt (any known) (fun p => exists m, In m maps /\ fst (fst m) p)).
Definition in_wrong_context (optional : bool) (ie : pset) (maps : list (pset * list ctxt * rtype)) : pset :=
  sub (fun p => exists m, In m maps /\ cat ie (cat (cat (same Tm) (cat (fst (fst m)) (same Tm))) ie) p)
      (fun p => exists m, In m maps /\ expand_contexts optional (snd m) ie (snd (fst m)) (fst (fst m)) p).
Definition is_tm (x : option sym * option sym) : bool :=
  match x with (Some Tm, Some Tm) => true | _ => false end.
Definition erase_tm (P : pset) : pset := fun p => exists q, P q /\ p = filter (fun x => negb (is_tm x)) q.
Definition conditional (optional : bool) (known : list sym) (maps : list (pset * list ctxt * rtype)) : pset :=
  sub (identity_expanded known maps) (erase_tm (in_wrong_context optional (identity_expanded (Tm :: known) maps) maps)).

(** A context that says nothing, :768-778. *)
Definition is_epsilon (L : lang) : Prop := forall w, L w <-> w = [].
Definition no_context (r : rule) : Prop :=
  exists c, r_ctx r = [c] /\ is_epsilon (c_left c) /\ is_epsilon (c_right c).

(** bracketedReplace, :590-834. *)
Definition bracketed_replace (r : rule) (optional : bool) : pset := fun p =>
  let m := alt (bracketed LM RM (mapping_or_identity [] r))
               (if optional then none else bracketed LM2 RM2 (aut (left_sides r))) in
  let maps := [(m, r_ctx r, r_type r)] in
  (no_context r /\ identity_expanded (brackets optional) maps p) \/
  (~ no_context r /\ conditional optional (brackets optional) maps p).

(** parallelBracketedReplace, :865-1257: the mapping of the i-th rule is marked by @i@ after its
    output; if contexts use the output, the marks may come in them freely (:1131-1157,
    getMarkerNumber returns 100000).  The contexts are taken into account only if a rule has
    exactly one of them and that is not empty (:957, :1000-1012).  In the end the marks are
    removed. *)
Definition marked (n : nat) (ty : rtype) (c : ctxt) : ctxt :=
  match ty with
  | REPL_UP => c
  | _ => {| c_left := freely (map Mk (seq 1 n)) (c_left c); c_left_bd := c_left_bd c;
            c_right := freely (map Mk (seq 1 n)) (c_right c); c_right_bd := c_right_bd c |}
  end.
Definition parallel_map (n : nat) (optional : bool) (ir : nat * rule) : pset * list ctxt * rtype :=
  let m := mapping_or_identity [Mk (fst ir)] (snd ir) in
  (alt (bracketed LM RM m) (if optional then none else bracketed LM2 RM2 (aut (fun x => exists p, m p /\ x = up p))),
   map (marked n (r_type (snd ir))) (r_ctx (snd ir)), r_type (snd ir)).
Definition has_one_context (r : rule) : Prop :=
  exists c, r_ctx r = [c] /\ ~ (is_epsilon (c_left c) /\ is_epsilon (c_right c)).
Definition not_mark (s : sym) : bool := match s with Mk _ => false | _ => true end.
Definition parallel_bracketed_replace (rs : list rule) (optional : bool) : rel := fun x y =>
  let n := List.length rs in
  let maps := map (parallel_map n optional) (combine (seq 1 n) rs) in
  let known := [LM; RM; LM2; RM2] ++ map Mk (seq 1 n) in
  exists p, x = up p /\ y = filter not_mark (down p) /\
    (((forall r, In r rs -> ~ has_one_context r) /\ identity_expanded known maps p) \/
     ((exists r, In r rs /\ has_one_context r) /\ conditional optional known maps p)).

(** The operations on relations: input_project, output_project, compose. *)
Definition iproj (t : rel) : lang := fun x => exists y, t x y.
Definition oproj (t : rel) : lang := fun y => exists x, t x y.
Definition ident (L : lang) : rel := fun x y => x = y /\ L x.
Definition comp (s t : rel) : rel := fun x z => exists y, s x y /\ t y z.

(** constraintComposition, :339-366. *)
Definition constraint_composition (t : rel) (c : pset) : rel :=
  let tmp := comp (comp (ident (iproj t)) (rel_of c)) (ident (iproj t)) in
  comp (ident (fun x => iproj t x /\ ~ oproj tmp x)) t.

(** The constraints.  [B]: a bracket; constraintsRightPart, :1268-1306. *)
Definition anything : pset := star (any []).
Definition B : pset := alt (same LM) (same RM).
Definition del (s : sym) : pset := one (Some s) None.
Definition ins (s : sym) : pset := one None (Some s).
Definition not_B : pset := any [LM; RM].
Definition right_part : pset := star (alt (alt (alt (ins LM) (ins RM)) (alt (del LM) (del RM))) not_B).
(** oneBetterthanNoneConstraint, :1310-1355. *)
Definition one_better (t : rel) : rel :=
  constraint_composition t (cat (same Bd) (cat anything (cat (del LM) (cat (del RM) (cat (same Bd) anything))))).
(** leftMostConstraint, :1358-1441. *)
Definition leftmost (t : rel) : rel :=
  constraint_composition t (cat (same Bd) (cat anything (cat (del LM) (cat (star (alt (del LM) (del RM)))
    (cat not_B (cat right_part (same Bd))))))).
(** rightMostConstraint, :1445-1517. *)
Definition rightmost (t : rel) : rel :=
  constraint_composition t (cat right_part (cat (plus not_B) (cat (del RM) anything))).
(** longestMatchLeftMostConstraint, :1521-1608. *)
Definition longest_leftmost (t : rel) : rel :=
  constraint_composition t (cat anything (cat (same LM) (cat (plus not_B) (cat (ins RM)
    (cat (alt not_B (cat (alt (alt (ins LM) (del LM)) (alt (ins RM) B)) (plus not_B))) right_part))))).
(** longestMatchRightMostConstraint, :1612-1695. *)
Definition longest_rightmost (t : rel) : rel :=
  constraint_composition t (cat right_part (cat (plus not_B)
    (cat (alt (any []) (alt (alt (ins LM) (del RM)) (alt (ins RM) B)))
    (cat (ins LM) (cat (plus not_B) (cat (same RM) anything)))))).
(** shortestMatchLeftMostConstraint, :1699-1782. *)
Definition shortest_leftmost (t : rel) : rel :=
  constraint_composition t (cat anything (cat (same LM) (cat (plus not_B) (cat (del RM)
    (cat (alt not_B (cat (alt (alt (ins LM) (del LM)) (alt (del RM) B)) (plus not_B))) right_part))))).
(** shortestMatchRightMostConstraint, :1786-1863. *)
Definition shortest_rightmost (t : rel) : rel :=
  constraint_composition t (cat right_part
    (cat (alt not_B (cat (plus not_B) (alt (alt (ins RM) (del RM)) (alt (del LM) B))))
    (cat (del LM) (cat (plus not_B) (cat (same RM) anything))))).
(** mostBracketsStarConstraint, :1960-2046. *)
Definition most_brackets (t : rel) : rel :=
  constraint_composition t (cat anything (plus
    (cat (alt (del LM) (del LM2)) (cat (star (any [LM; RM; LM2; RM2])) (cat (alt (del RM) (del RM2)) anything))))).
(** removeB2Constraint, :2050-2096. *)
Definition remove_b2 (t : rel) : rel :=
  constraint_composition t (cat anything (cat (alt (same LM2) (same RM2)) anything)).
(** noRepetitionConstraint, :2100-2170; the second brackets are concerned if the alphabet lists
    them. *)
Definition no_repetition (second : bool) (t : rel) : rel :=
  let ls := if second then alt (same LM) (same LM2) else same LM in
  let rs := if second then alt (same RM) (same RM2) else same RM in
  constraint_composition t (cat anything (cat ls (cat rs (cat ls (cat rs anything))))).
(** applyBoundaryMark, :2185-2264. *)
Definition apply_boundary (t : rel) : rel :=
  comp (comp (comp (rel_of (star (alt (ins Bd) (any [Bd])))) t)
             (rel_of (cat (same Bd) (cat (star (any [Bd])) (same Bd)))))
       (rel_of (star (alt (del Bd) (any [Bd])))).
(** removeMarkers, :302-325.  Brackets stand in pairs with themselves, so both sides lose the
    same ones. *)
Definition not_bracket (s : sym) : bool := match s with LM | RM => false | _ => true end.
Definition remove_markers (t : rel) : rel :=
  fun x y => exists x' y', t x' y' /\ x = filter not_bracket x' /\ y = filter not_bracket y'.

(** The result of bracketedReplace or parallelBracketedReplace, as replace(vector) and the others
    choose, :2381-2389 and elsewhere. *)
Definition bracketed_rules (rs : list rule) (optional : bool) : rel :=
  match rs with
  | [r] => rel_of (bracketed_replace r optional)
  | _ => parallel_bracketed_replace rs optional
  end.
(** parallelBracketedReplace puts the second brackets into the alphabet in any case,
    :924-929. *)
Definition lists_second (rs : list rule) (optional : bool) : bool :=
  match rs with [_] => negb optional | _ => true end.

(** replace, :2340-2375 (one rule) and :2378-2432. *)
Definition replace (rs : list rule) (optional : bool) : rel :=
  let t := apply_boundary (no_repetition (lists_second rs optional) (bracketed_rules rs optional)) in
  let t := if optional then t else most_brackets t in
  remove_markers (remove_b2 t).
(** replace_left, :2436-2457 and :2460-2489. *)
Definition replace_left (rs : list rule) (optional : bool) : rel :=
  let swap r := {| r_map := map (fun ab => (snd ab, fst ab)) (r_map r); r_ctx := r_ctx r;
                   r_type := r_type r; r_alph := r_alph r |} in
  fun x y => replace (map swap rs) optional y x.
(** replace_leftmost_longest_match, :2494-2526 and :2531-2581. *)
Definition replace_leftmost_longest (rs : list rule) : rel :=
  let t := no_repetition (lists_second rs true) (bracketed_rules rs true) in
  apply_boundary (remove_markers (remove_b2 (longest_leftmost (one_better (leftmost t))))).
(** replace_leftmost_shortest_match, :2657-2686 and :2690-2724. *)
Definition replace_leftmost_shortest (rs : list rule) : rel :=
  let t := no_repetition (lists_second rs true) (bracketed_rules rs true) in
  apply_boundary (remove_markers (remove_b2 (shortest_leftmost (one_better (leftmost t))))).
(** replace_rightmost_longest_match, :2586-2616 and :2620-2653. *)
Definition replace_rightmost_longest (rs : list rule) : rel :=
  let t := longest_rightmost (rightmost (bracketed_rules rs true)) in
  apply_boundary (remove_markers (remove_b2 (no_repetition (lists_second rs true) t))).
(** replace_rightmost_shortest_match, :2728-2752 and :2756-2788. *)
Definition replace_rightmost_shortest (rs : list rule) : rel :=
  let t := shortest_rightmost (rightmost (bracketed_rules rs true)) in
  apply_boundary (remove_markers (remove_b2 (no_repetition (lists_second rs true) t))).

(** restriction, :2830-2930.  [Tm] stands for the mark @_D_@ ; a context: two automata.  The loop
    over no contexts leaves a transducer of no type, so there is at least one. *)
Definition restriction (center : lang) (contexts : list (lang * lang)) : rel :=
  let u := star (any [Tm]) in
  let no_tm (L : lang) : pset := aut (fun w => L w /\ ~ In Tm w) in
  let center_marked := cat u (cat (same Tm) (cat (no_tm center) (cat (same Tm) u))) in
  let context_marked := fun p => exists l r, In (l, r) contexts /\
    cat u (cat (no_tm l) (cat (same Tm) (cat u (cat (same Tm) (cat (no_tm r) u))))) p in
  let minus := sub center_marked context_marked in
  let tmp := comp (comp (rel_of (star (alt (ins Tm) (any [Tm])))) (rel_of minus))
                  (rel_of (star (alt (del Tm) (any [Tm])))) in
  let res := sub u (fun p => exists w, p = idw w /\ tmp w w) in
  apply_boundary (rel_of res).
(** before, :2933-2968; after, :2971-3005. *)
Definition before (left right : lang) : pset :=
  sub anything (cat anything (cat (aut right) (cat anything (cat (aut left) anything)))).
Definition after (left right : lang) : pset :=
  sub anything (cat anything (cat (aut left) (cat anything (cat (aut right) anything)))).
