(** Specification of the rules in terms of pair strings. *)
From Verif Require Import Base BT_Model Ru_Model.

(** A pair string over an alphabet. *)
Definition over (al : list pair) (w : list pair) : Prop := forall p, In p w -> In p al.
(** [x] ends in a string of [l]; [y] starts with a string of [r]. *)
Definition ends_in (l : plang) (x : list pair) : Prop := exists u v, x = u ++ v /\ l v.
Definition starts_with (r : plang) (y : list pair) : Prop := exists u v, y = u ++ v /\ r u.
(** Membership is decided: this holds of everything a transducer accepts. *)
Definition decided (l : plang) : Prop := forall w, l w \/ ~ l w.
(** A pair occurs in no string of a language. *)
Definition never (p : pair) (l : plang) : Prop := forall w, l w -> ~ In p w.
Definition no_epsilons (l : plang) : Prop := forall w p, l w -> In p w -> fst p <> B "@_EPSILON_SYMBOL_@" /\ snd p <> B "@_EPSILON_SYMBOL_@".

(** mappings <= l _ r: between the contexts an input symbol of the mappings is mapped as they
    say. *)
Definition obligatory (l r : plang) (mappings : list pair) (w : list pair) : Prop :=
  forall x i o y, w = x ++ (i, o) :: y -> ends_in l x -> starts_with r y ->
    (exists o', In (i, o') mappings) -> In (i, o) mappings.
(** mappings => l _ r: the mappings occur only between the contexts. *)
Definition only_there (l r : plang) (mappings : list pair) (w : list pair) : Prop :=
  forall x p y, w = x ++ p :: y -> In p mappings -> ends_in l x /\ starts_with r y.

(** The same for strings and several contexts. *)
Definition in_context (contexts : list (plang * plang)) (x y : list pair) : Prop :=
  exists c, In c contexts /\ ends_in (fst c) x /\ starts_with (snd c) y.
Definition restricted (contexts : list (plang * plang)) (mapping : plang) (w : list pair) : Prop :=
  forall x m y, w = x ++ m ++ y -> mapping m -> in_context contexts x y.
Definition coerced (contexts : list (plang * plang)) (trigger mapping : plang) (w : list pair) : Prop :=
  forall x m y, w = x ++ m ++ y -> in_context contexts x y -> trigger m -> mapping m.
(** Strings with the input side, or the output side, of some string of a language. *)
Definition same_input (l : plang) : plang := fun w => exists v, l v /\ map fst v = map fst w.
Definition same_output (l : plang) : plang := fun w => exists v, l v /\ map snd v = map snd w.

(** Strings of symbols read and written, without epsilons. *)
Definition read (w : list pair) : list bstr := filter (fun x => negb (bstr_eqb x (B "@_EPSILON_SYMBOL_@"))) (map fst w).
Definition written (w : list pair) : list bstr := filter (fun x => negb (bstr_eqb x (B "@_EPSILON_SYMBOL_@"))) (map snd w).
(** [w] occurs in [u]. *)
Definition factor (w u : list bstr) : Prop := exists x y, u = x ++ w ++ y.
(** Replacement: parts in which nothing replaceable occurs, unchanged, and between them
    strings of the mapping.  [side] tells which side of the mapping is looked for. *)
Definition nothing_in (side : list pair -> list bstr) (t : plang) (x : list bstr) : Prop := forall m, t m -> ~ factor (side m) x.
Inductive replacing (side : list pair -> list bstr) (t : plang) (al : list bstr) : list pair -> Prop :=
| rp_end x : incl x al -> nothing_in side t x -> replacing side t al (map (fun a => (a, a)) x)
| rp_more x m w : incl x al -> nothing_in side t x -> t m -> replacing side t al w ->
    replacing side t al (map (fun a => (a, a)) x ++ m ++ w).
