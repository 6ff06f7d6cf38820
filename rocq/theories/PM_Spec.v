(** Pattern matching in text, stated independently of the search. *)
From Verif Require Import Base Flags_Spec PM_Model.

(** * What a network of patterns matches *)
Section Matches.
  Variable nets : nat -> ptrans.
  Variable al : palpha.
  Variable input : list nat.
  Variable max_weight : option Z.

  (** A transition with input symbol [k] reads the symbol [x] of the text (default aside). *)
  Definition stands_for (k x : nat) : Prop :=
    In k (al_lists al x) \/ In k (al_classes al x) \/ (x < al_orig al /\ k = x) \/
    (al_orig al <= x /\ (al_identity al = Some k \/ al_unknown al = Some k)).
  (** Transition [a] of state [i] reads [x]; a default transition does if no other does. *)
  Definition reads (T i : nat) (a : parc) (x : nat) : Prop :=
    In a (pt_arcs (nets T) i) /\
    (stands_for (pa_in a) x \/
     al_default al = Some (pa_in a) /\ forall b, In b (pt_arcs (nets T) i) -> ~ stands_for (pa_in b) x).

  (** Where a run is: in which network and state; the calls to return from (network, state and
      flags to return to); the flags of this call and the global ones; the position in the text;
      what has been written; the weight. *)
  Record conf := Conf {
    c_net : nat; c_state : nat; c_calls : list (nat * nat * fenv); c_flags : fenv; c_global : fenv;
    c_pos : nat; c_out : tape; c_weight : Z }.
  Inductive move : conf -> conf -> Prop :=
  | move_epsilon T i k e g p o w a : In a (pt_arcs (nets T) i) -> pa_in a = 0 ->
      move (Conf T i k e g p o w) (Conf T (pa_to a) k e g p (o ++ [(0, pa_out a)]) (w + pa_weight a))
  | move_flag T i k e g p o w a f e' g' : In a (pt_arcs (nets T) i) -> pa_in a <> 0 -> al_flag al (pa_in a) = Some f ->
      step f e = (e', true) -> (if al_global al (pa_in a) then step f g = (g', true) else g' = g) ->
      move (Conf T i k e g p o w) (Conf T (pa_to a) k e' g' p o (w + pa_weight a))
  | move_call T i k e g p o w a U : In a (pt_arcs (nets T) i) -> pa_in a <> 0 -> al_flag al (pa_in a) = None -> al_rtn al (pa_in a) = Some U ->
      move (Conf T i k e g p o w) (Conf U 0 ((T, pa_to a, e) :: k) env0 g p o (w + pa_weight a))
  | move_return T i C r eC k e g p o w wf : pt_final (nets T) i = Some wf ->
      move (Conf T i ((C, r, eC) :: k) e g p o w) (Conf C r k eC g p o (w + wf))
  | move_read T i k e g p o w a x : nth_error input p = Some x -> reads T i a x ->
      move (Conf T i k e g p o w)
        (Conf T (pa_to a) k e g (S p) (o ++ [if al_meta al (pa_out a) then (x, x) else (pa_in a, pa_out a)]) (w + pa_weight a)).

  Definition affordable (c : conf) : Prop := match max_weight with Some m => (c_weight c <= m)%Z | None => True end.
  (** A match: what is written, where it ends, its weight. *)
  Definition hit : Type := tape * nat * Z.
  (** [found n c h]: a run of fewer than [n] moves from [c] that is nowhere over the limit of
      weight ends, with no call to return from, in a final state. *)
  Inductive found : nat -> conf -> hit -> Prop :=
  | found_here n T i e g p o w wf : affordable (Conf T i [] e g p o w) -> pt_final (nets T) i = Some wf ->
      found (S n) (Conf T i [] e g p o w) (o, p, (w + wf)%Z)
  | found_move n c c' h : affordable c -> move c c' -> found n c' h -> found (S n) c h.

  Definition start (p : nat) : conf := Conf 0 0 [] env0 env0 p [] 0.
  (** The matches that start at [p], with at most [n] - 1 moves. *)
  Definition matches (n p : nat) (h : hit) : Prop := found n (start p) h.
  (** Of the matches at [p], one of the longest; and of these, one of the lightest. *)
  Definition longest (n p : nat) (h : hit) : Prop :=
    matches n p h /\ forall h', matches n p h' -> snd (fst h') <= snd (fst h).
  Definition best (n p : nat) (h : hit) : Prop :=
    longest n p h /\ forall h', longest n p h' -> (snd h <= snd h')%Z.

  (** The calls are not recursive: networks can be ranked so that each calls only lower ones. *)
  Definition no_recursion : Prop := exists rank : nat -> nat, forall T i a U,
    In a (pt_arcs (nets T) i) -> al_rtn al (pa_in a) = Some U -> rank U < rank T.
  Definition no_flags : Prop := forall T i a, In a (pt_arcs (nets T) i) -> al_flag al (pa_in a) = None.
  (** Default transitions are not mixed with transitions that read nothing. *)
  Definition separate_defaults : Prop := forall k T i a b, al_default al = Some k ->
    In a (pt_arcs (nets T) i) -> pa_in a = k -> In b (pt_arcs (nets T) i) ->
    pa_in b <> 0 /\ al_flag al (pa_in b) = None /\ al_rtn al (pa_in b) = None.
  Definition sound_setting : Prop :=
    no_recursion /\ separate_defaults \/ no_flags /\ al_default al = None.
End Matches.

(** * The division of a text *)
(** The text is gone through from the left; at each position the best match is taken and
    replaced by what it writes; a symbol at which none starts is copied.  [h] being an empty
    match, what it writes may or may not be inserted before the symbol. *)
Section Text.
  Variable nets : nat -> ptrans.
  Variable al : palpha.
  Variable first : list bool.
  Variable n : nat.
  Variable max_weight : option Z.
  Variable input : list nat.
  Let hits := matches nets al input max_weight n.

  Definition may_start (x : nat) : Prop := first = [] \/ nth x first false = true.
  Inductive replaced : nat -> tape -> Prop :=
  | replaced_end p : length input <= p -> replaced p []
  | replaced_match p x o q w t : nth_error input p = Some x -> may_start x ->
      best nets al input max_weight n p (o, q, w) -> p < q -> replaced q t -> replaced p (o ++ t)
  | replaced_copy p x t : nth_error input p = Some x -> (~ may_start x \/ forall o q w, hits p (o, q, w) -> q <= p) ->
      replaced (S p) t -> replaced p ((x, x) :: t)
  | replaced_empty p x o w t : nth_error input p = Some x -> may_start x -> (forall o q w, hits p (o, q, w) -> q <= p) ->
      hits p (o, p, w) -> replaced (S p) t -> replaced p (o ++ (x, x) :: t).

  Definition no_empty_match : Prop := forall p o w, ~ hits p (o, p, w).
  (** All the best matches at a position write the same. *)
  Definition one_best : Prop := forall p o q w o' q' w', best nets al input max_weight n p (o, q, w) ->
    best nets al input max_weight n p (o', q', w') -> o = o'.
End Text.

(** A container after any number of texts. *)
Inductive reached (nets : nat -> ptrans) (al : palpha) : state -> Prop :=
| reached_new w : reached nets al (new_container w)
| reached_match nm opts first n mw input s out s' : reached nets al s -> match_text nets al nm opts first n mw input s = Ok (out, s') -> reached nets al s'
| reached_locate nm first n mw input s out s' : reached nets al s -> locate_text nets al nm first n mw input s = Ok (out, s') -> reached nets al s'.

(** * The text that is read *)
Definition slice (input : list nat) (p q : nat) : list nat := firstn (q - p) (skipn p input).
Definition nonzero (k : nat) : bool := negb (k =? 0).
(** A transition that reads a symbol under another name (a list, say) copies it. *)
Definition literal (nets : nat -> ptrans) (al : palpha) : Prop :=
  forall T i a x, reads nets al T i a x -> pa_in a = x \/ al_meta al (pa_out a) = true.
(** Tags are written without reading. *)
Definition silent_tags (nets : nat -> ptrans) (al : palpha) (nm : names) (input : list nat) : Prop :=
  (forall x, In x input -> n_tag nm x = None) /\ forall T i a x, In x input -> reads nets al T i a x -> n_tag nm (pa_out a) = None.

(** * Locations *)
(** What a location says about a match [t] of weight [w] that starts at [p]. *)
Definition joined (nm : names) (ks : list nat) : bstr := concat (map (n_string nm) (filter (n_printable nm) ks)).
Definition untagged (nm : names) (t : tape) : tape := filter (fun x => match n_tag nm (snd x) with None => true | _ => false end) t.
Definition describes (nm : names) (p : nat) (t : tape) (w : Z) (l : location) : Prop :=
  l_start l = p /\ l_weight l = w /\
  l_output l = joined nm (map snd (untagged nm t)) /\
  l_input l = joined nm (map fst (untagged nm t)) /\
  l_length l = length (filter (n_printable nm) (map fst (untagged nm t))) /\
  ((forall x, In x t -> n_tag nm (snd x) = None) -> l_tag l = []) /\
  (forall t1 x g t2, t = t1 ++ x :: t2 -> n_tag nm (snd x) = Some g -> (forall y, In y t2 -> n_tag nm (snd y) = None) -> l_tag l = B "<" ++ g ++ B ">").
(** The text [ks], from [p] on, in which nothing matched. *)
Definition unmatched (nm : names) (p : nat) (ks : list nat) (l : location) : Prop :=
  l_start l = p /\ l_length l = length ks /\ l_input l = concat (map (n_string nm) ks) /\
  l_output l = B "@_NONMATCHING_@" /\ l_tag l = [] /\ l_weight l = 0%Z.
Definition light_first (l m : location) : Prop := (l_weight l <= l_weight m)%Z.

Section Locations.
  Variable nets : nat -> ptrans.
  Variable al : palpha.
  Variable nm : names.
  Variable first : list bool.
  Variable n : nat.
  Variable max_weight : option Z.
  Variable input : list nat.
  Let hits := matches nets al input max_weight n.
  Let long := longest nets al input max_weight n.

  (** [ls] are the locations of the longest matches at [p], which end at [q]. *)
  Definition all_longest (p q : nat) (ls : list location) : Prop :=
    ls <> [] /\ Sorted.StronglySorted light_first ls /\
    (forall l, In l ls -> exists o w, long p (o, q, w) /\ describes nm p o w l) /\
    (forall o r w, long p (o, r, w) -> r = q /\ exists l, In l ls /\ describes nm p o w l).
  (** The pending text [ks], which ends at [p], as a location. *)
  Definition pending (p : nat) (ks : list nat) (out : list (list location)) : Prop :=
    ks = [] /\ out = [] \/ ks <> [] /\ exists l, out = [[l]] /\ unmatched nm (p - length ks) ks l.
  (** [located p ks out]: from position [p] on, with the text [ks] before it not matched. *)
  Inductive located : nat -> list nat -> list (list location) -> Prop :=
  | located_end p ks out : length input <= p -> pending p ks out -> located p ks out
  | located_match p ks x q out ls rest : nth_error input p = Some x -> may_start first x -> pending p ks out ->
      all_longest p q ls -> p < q -> located q [] rest -> located p ks (out ++ ls :: rest)
  | located_empty p ks x out ls rest : nth_error input p = Some x -> may_start first x -> pending p ks out ->
      all_longest p p ls -> located (S p) [x] rest -> located p ks (out ++ ls :: rest)
  | located_copy p ks x out : nth_error input p = Some x -> (~ may_start first x \/ forall h, ~ hits p h) ->
      located (S p) (ks ++ [x]) out -> located p ks out.
End Locations.

(** The locations cover the text from [p] on without gaps, and show it. *)
Inductive tiles (nm : names) (input : list nat) : nat -> list (list location) -> Prop :=
| tiles_end : tiles nm input (length input) []
| tiles_next p q ls rest : p <= q -> ls <> [] ->
    (forall l, In l ls -> l_start l = p /\ l_length l = q - p /\ l_input l = concat (map (n_string nm) (slice input p q))) ->
    tiles nm input q rest -> tiles nm input p (ls :: rest).

(** * Tags in the output *)
(** Each tag is written after something printable has been read. *)
Definition after_text (nm : names) (t : tape) : Prop := forall t1 i k t2 g, t = t1 ++ (i, k) :: t2 -> n_tag nm k = Some g ->
  exists y, In y (t1 ++ [(i, k)]) /\ n_printable nm (fst y) = true.
(** The output as a tree: text, and groups (between an entry and an exit symbol); a tag marks
    all of its group so far. *)
Inductive item := Text (i k : nat) | Tag (i k : nat) (g : bstr) | Group (i k : nat) (body : list item) (i' k' : nat).
Section Tree.
  Variable nm : names.
  Fixpoint flat (x : item) : tape :=
    match x with
    | Text i k => [(i, k)]
    | Tag i k _ => [(i, k)]
    | Group i k body i' k' => (i, k) :: flat_map flat body ++ [(i', k')]
    end.
  (** The symbols are what the tree says. *)
  Fixpoint well_named (x : item) : Prop :=
    match x with
    | Text _ k => n_entry nm k = false /\ n_exit nm k = false /\ n_tag nm k = None
    | Tag _ k g => n_entry nm k = false /\ n_exit nm k = false /\ n_tag nm k = Some g
    | Group _ k body _ k' =>
        n_entry nm k = true /\ n_entry nm k' = false /\ n_exit nm k' = true /\
        (fix all (l : list item) := match l with [] => True | y :: r => well_named y /\ all r end) body
    end.
  Definition shown (k : nat) : bstr := if n_printable nm k then n_string nm k else [].
  (** The text of [x] after the text [acc] of its group. *)
  Fixpoint marked (acc : bstr) (x : item) : bstr :=
    match x with
    | Text _ k => acc ++ shown k
    | Tag _ _ g => B "<" ++ g ++ B ">" ++ acc ++ B "</" ++ g ++ B ">"
    | Group _ _ body _ _ => acc ++ fold_left marked body []
    end.
  Definition marked_text (l : list item) : bstr := fold_left marked l [].
  (** Only tagged text, each replaced by its tag. *)
  Fixpoint replaced_by_tags (acc : bstr) (x : item) : bstr :=
    match x with
    | Text _ k => acc ++ shown k
    | Tag _ _ g => B "<" ++ g ++ B ">"
    | Group _ _ body _ _ => acc ++ fold_left replaced_by_tags body []
    end.
  (** Only the text inside groups. *)
  Definition extracted (x : item) : bstr :=
    match x with
    | Text _ _ => []
    | Tag _ _ _ => []
    | Group _ _ body _ _ => fold_left marked body []
    end.
End Tree.
