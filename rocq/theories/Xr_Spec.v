(** Specification of the replace rules of xfst, in terms of the texts read and written.  Of the
    model only the representation of rules is used: left and right sides and contexts are sets
    of strings, [Pl a] is the user's symbol [a] and [Bd] the boundary .#. *)
From Verif Require Import Base Xr_Model.

Definition text := list nat.
Definition txt (x : text) : word := map Pl x.
(** A rule maps [x] to [y]. *)
Definition maps (r : rule) (x y : text) : Prop :=
  exists A B, In (A, B) (r_map r) /\ A (txt x) /\ B (txt y).
(** [u] after the boundary ends in a string of [l]; [u] before it starts with one of [l]. *)
Definition ends_in (l : lang) (u : text) : Prop := exists v w, Bd :: txt u = v ++ w /\ l w.
Definition starts_with (l : lang) (u : text) : Prop := exists w v, txt u ++ [Bd] = w ++ v /\ l w.

(** A way to change a text: which symbols are kept and which parts are changed into what. *)
Inductive piece := Keep (a : nat) | Change (x y : text).
Definition read1 (p : piece) : text := match p with Keep a => [a] | Change x _ => x end.
Definition written1 (p : piece) : text := match p with Keep a => [a] | Change _ y => y end.
Definition read (ps : list piece) : text := flat_map read1 ps.
Definition written (ps : list piece) : text := flat_map written1 ps.

(** A place between what comes before and after it is in a context of the rule; || contexts are
    those of the text read, \/ contexts those of the text written, // has the text written on
    the left, \\ on the right. *)
Definition in_context (r : rule) (before after : list piece) : Prop :=
  exists c, In c (r_ctx r) /\
    ends_in (c_left c) (match r_type r with REPL_UP | REPL_LEFT => read before | _ => written before end) /\
    starts_with (c_right c) (match r_type r with REPL_UP | REPL_RIGHT => read after | _ => written after end).
Definition applies (rs : list rule) (before : list piece) (x y : text) (after : list piece) : Prop :=
  exists r, In r rs /\ maps r x y /\ in_context r before after.

(** What is changed is changed as one of the rules says and where it says. *)
Definition licensed (rs : list rule) (ps : list piece) : Prop :=
  forall l x y r, ps = l ++ Change x y :: r -> applies rs l x y r.
(** The empty string is changed, that is, something is inserted, once at most in one place. *)
Definition once (ps : list piece) : Prop := forall l y y' r, ps <> l ++ Change [] y :: Change [] y' :: r.
Definition beside_insertion (l r : list piece) : Prop :=
  (exists l' y, l = l' ++ [Change [] y]) \/ (exists y r', r = Change [] y :: r').
(** Nothing that could be changed is kept. *)
Definition nothing_left (rs : list rule) (ps : list piece) : Prop :=
  forall l x r, ps = l ++ map Keep x ++ r -> x <> [] \/ ~ beside_insertion l r -> ~ exists y, applies rs l x y r.
Definition optionally (rs : list rule) (x y : text) : Prop :=
  exists ps, read ps = x /\ written ps = y /\ licensed rs ps /\ once ps.
Definition obligatorily (rs : list rule) (x y : text) : Prop :=
  exists ps, read ps = x /\ written ps = y /\ licensed rs ps /\ once ps /\ nothing_left rs ps.

(** Directed replacement.  [x] can be changed between [u] and [v] of the text read. *)
Definition match_at (rs : list rule) (u x v : text) : Prop :=
  exists y, applies rs (map Keep u) x y (map Keep v).
(** From left to right: a symbol is kept only if nothing that starts there can be changed;
    from right to left: only if nothing that ends there can. *)
Definition from_left (rs : list rule) (ps : list piece) : Prop :=
  forall l a r x v, ps = l ++ Keep a :: r -> a :: read r = x ++ v -> ~ match_at rs (read l) x v.
Definition from_right (rs : list rule) (ps : list piece) : Prop :=
  forall l a r u x, ps = l ++ Keep a :: r -> read l ++ [a] = u ++ x -> ~ match_at rs u x (read r).
(** What is changed is the longest or the shortest that can be. *)
Definition longest_from_left (rs : list rule) (ps : list piece) : Prop :=
  forall l x y r w v, ps = l ++ Change x y :: r -> read r = w ++ v -> w <> [] -> ~ match_at rs (read l) (x ++ w) v.
Definition shortest_from_left (rs : list rule) (ps : list piece) : Prop :=
  forall l x y r w v, ps = l ++ Change x y :: r -> x = w ++ v -> v <> [] -> ~ match_at rs (read l) w (v ++ read r).
Definition longest_from_right (rs : list rule) (ps : list piece) : Prop :=
  forall l x y r u w, ps = l ++ Change x y :: r -> read l = u ++ w -> w <> [] -> ~ match_at rs u (w ++ x) (read r).
Definition shortest_from_right (rs : list rule) (ps : list piece) : Prop :=
  forall l x y r u w, ps = l ++ Change x y :: r -> x = u ++ w -> u <> [] -> ~ match_at rs (read l ++ u) w (read r).
Definition directed (rs : list rule) (c1 c2 : list rule -> list piece -> Prop) (x y : text) : Prop :=
  exists ps, read ps = x /\ written ps = y /\ licensed rs ps /\ c1 rs ps /\ c2 rs ps.

(** The rules considered: both sides of a mapping consist of the user's symbols, there is a
    right side; contexts consist of the user's symbols
    and, if their alphabet lists it, the boundary; membership and the comparison with epsilon
    are decided, as they are for what transducers accept. *)
Definition decided (l : lang) : Prop := forall w, l w \/ ~ l w.
Definition user (l : lang) : Prop := forall w, l w -> exists x, w = txt x.
Definition user_bd (b : bool) (l : lang) : Prop :=
  forall w s, l w -> In s w -> (exists a, s = Pl a) \/ (b = true /\ s = Bd).
Definition usual_ctx (c : ctxt) : Prop :=
  user_bd (c_left_bd c) (c_left c) /\ user_bd (c_right_bd c) (c_right c) /\
  decided (c_left c) /\ decided (c_right c) /\
  (is_epsilon (c_left c) \/ ~ is_epsilon (c_left c)) /\ (is_epsilon (c_right c) \/ ~ is_epsilon (c_right c)).
Definition usual (r : rule) : Prop :=
  (forall A B, In (A, B) (r_map r) ->
     user A /\ user B /\ decided A /\ decided B /\ exists y, B y) /\
  (exists x y, maps r x y) /\
  (forall c, In c (r_ctx r) -> usual_ctx c).
(** One rule; or several, of which none has a context, or one has a single context. *)
Definition contexts_seen (rs : list rule) : Prop :=
  (exists r, rs = [r]) \/
  (rs <> [] /\ ((forall r, In r rs -> no_context r) \/ exists r, In r rs /\ has_one_context r)).
Definition upward (rs : list rule) : Prop := forall r, In r rs -> r_type r = REPL_UP.
(** No rule inserts. *)
Definition not_inserting (rs : list rule) : Prop := forall r x y, In r rs -> maps r x y -> x <> [].
(** No rule deletes. *)
Definition not_deleting (rs : list rule) : Prop := forall r x y, In r rs -> maps r x y -> y <> [].
(** What is written depends on what is changed only. *)
Definition one_valued (rs : list rule) : Prop :=
  forall r r' x y y', In r rs -> In r' rs -> maps r x y -> maps r' x y' -> y = y'.

(** Restriction: every occurrence of the center is in one of the contexts. *)
Definition restricted (center : lang) (cs : list (lang * lang)) (x : text) : Prop :=
  forall u c v, x = u ++ c ++ v -> center (txt c) ->
    exists l r, In (l, r) cs /\ ends_in l u /\ starts_with r v.
(** Some string of [l] and, after its end, some string of [m]. *)
Definition precedes (l m : lang) (x : text) : Prop :=
  exists u a w b v, x = u ++ a ++ w ++ b ++ v /\ l (txt a) /\ m (txt b).
