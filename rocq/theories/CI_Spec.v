(** Specification vocabulary for compose-intersect. *)
From Coq Require Import Sorted.
From Verif Require Import Base Flags_Model BT_Model BT_Spec CI_Model.

(** * Rules *)
(** Rules to be intersected: a tree of transducers. *)
Inductive rules := One (g : graph) | Both (r1 r2 : rules).
(** A state of the intersection is a state of each transducer. *)
Inductive place := At (s : nat) | AtBoth (p1 p2 : place).
Fixpoint start (r : rules) : place := match r with One _ => At 0 | Both r1 r2 => AtBoth (start r1) (start r2) end.
(** Reading the symbol pair x:y.  An identity transition reads x:x for every symbol x that is
    not in the alphabet; the intersection reads what both sides read, weights added. *)
Inductive reads : rules -> place -> bstr -> bstr -> Z -> place -> Prop :=
| reads_arc g s a : In a (nth s (sts g) []) -> isy a <> B "@_IDENTITY_SYMBOL_@" ->
    reads (One g) (At s) (isy a) (osy a) (wt a) (At (tgt a))
| reads_identity g s a x : In a (nth s (sts g) []) -> isy a = B "@_IDENTITY_SYMBOL_@" -> ~ In x (alpha g) ->
    reads (One g) (At s) x x (wt a) (At (tgt a))
| reads_both r1 r2 p1 p2 x y w1 w2 q1 q2 : reads r1 p1 x y w1 q1 -> reads r2 p2 x y w2 q2 ->
    reads (Both r1 r2) (AtBoth p1 p2) x y (w1 + w2) (AtBoth q1 q2).
Fixpoint stops (r : rules) (p : place) : option Z :=
  match r, p with
  | One g, At s => mget Nat.compare s (fin g)
  | Both r1 r2, AtBoth p1 p2 => match stops r1 p1, stops r2 p2 with Some x, Some y => Some (x + y)%Z | _, _ => None end
  | _, _ => None
  end.
(** A sequence of symbol pairs accepted with a weight. *)
Inductive follows (r : rules) : place -> list (bstr * bstr) -> Z -> place -> Prop :=
| follows_nil p : follows r p [] 0 p
| follows_cons p x y w q l v u : reads r p x y w q -> follows r q l v u -> follows r p ((x, y) :: l) (w + v) u.
Definition rules_accept (r : rules) (l : list (bstr * bstr)) (w : Z) : Prop :=
  exists p v f, follows r (start r) l v p /\ stops r p = Some f /\ w = (v + f)%Z.

(** No state has two identity transitions. *)
Definition one_identity (g : graph) : Prop :=
  forall s, length (filter (fun a => bstr_eqb (isy a) (B "@_IDENTITY_SYMBOL_@")) (nth s (sts g) [])) <= 1.
(** Two transitions of a state with the same label are the same. *)
Definition label_deterministic (g : graph) : Prop :=
  forall s a b, In a (nth s (sts g) []) -> In b (nth s (sts g) []) -> isy a = isy b -> osy a = osy b -> a = b.
Fixpoint every (P : graph -> Prop) (r : rules) : Prop :=
  match r with One g => P g | Both r1 r2 => every P r1 /\ every P r2 end.
(** What is required of the rules: well formed, at most one identity transition in a state,
    and, when there are several rules, deterministic. *)
Definition usable (r : rules) : Prop :=
  every (fun g => well_formed g /\ one_identity g) r
  /\ match r with One _ => True | Both _ _ => every label_deterministic r end.

(** * Composition of a lexicon with rules *)
Fixpoint knows (r : rules) (x : bstr) : Prop :=
  match r with One g => In x (alpha g) | Both r1 r2 => knows r1 x \/ knows r2 x end.
(** A lexicon output that the rules do not see: epsilon, or a flag diacritic they do not mention. *)
Definition unseen (r : rules) (x : bstr) : Prop :=
  x = B "@_EPSILON_SYMBOL_@" \/ is_diacritic x = true /\ ~ knows r x.
(** A lexicon path [pl] and a rule path [pr] joined: a lexicon output the rules do not see is
    passed on, any other is an input of the rules, and the rules may read epsilon by themselves. *)
Inductive joined (r : rules) : list (bstr * bstr) -> list (bstr * bstr) -> list (bstr * bstr) -> Prop :=
| joined_nil : joined r [] [] []
| joined_lexicon i o pl pr l : unseen r o -> joined r pl pr l -> joined r ((i, o) :: pl) pr ((i, o) :: l)
| joined_both i x y pl pr l : ~ unseen r x -> joined r pl pr l -> joined r ((i, x) :: pl) ((x, y) :: pr) ((i, y) :: l)
| joined_rules y pl pr l : joined r pl pr l ->
    joined r pl ((B "@_EPSILON_SYMBOL_@", y) :: pr) ((B "@_EPSILON_SYMBOL_@", y) :: l).

(** An identity symbol on the input side has one on the output side. *)
Definition identity_outputs (g : graph) : Prop :=
  forall s a, In a (nth s (sts g) []) -> isy a = B "@_IDENTITY_SYMBOL_@" -> osy a = B "@_IDENTITY_SYMBOL_@".
(** Several rules mention no flag diacritics. *)
Definition no_flags_in_pairs (r : rules) : Prop :=
  match r with One _ => True | Both _ _ => forall x, is_diacritic x = true -> ~ knows r x end.
(** The number of states of the intersection. *)
Fixpoint places (r : rules) : nat :=
  match r with One g => length (sts g) | Both r1 r2 => places r1 * places r2 end.

(** * Rule objects *)
(** The object made for rules, and the way compose_intersect makes it for a list of at least one. *)
Fixpoint rule_object (num : bstr -> nat) (r : rules) : rule :=
  match r with One g => make_rule num g | Both r1 r2 => make_pair (rule_object num r1) (rule_object num r2) end.
Definition rule_tree (g : graph) (gs : list graph) : rules :=
  match gs with
  | [] => One g
  | g2 :: gs => fold_left (fun r h => Both (One h) r) gs (Both (One g) (One g2))
  end.
(** Asking questions of a rule object: any query may be made at any time. *)
Inductive queried (num : bstr -> nat) : rule -> rule -> Prop :=
| queried_none r : queried num r r
| queried_more r s x r1 set r2 : get_transitions num r s (num x) = Ok (r1, set) -> queried num r1 r2 -> queried num r r2.
(** Following transitions that the object answers, with other queries in between. *)
Inductive walks (num : bstr -> nat) : rule -> nat -> list (bstr * bstr) -> Z -> rule -> nat -> Prop :=
| walks_nil r s : walks num r s [] 0 r s
| walks_step r s x y r1 set t l v r2 u : get_transitions num r s (num x) = Ok (r1, set) -> In t set -> t_out t = num y ->
    walks num r1 (t_to t) l v r2 u -> walks num r s ((x, y) :: l) (t_w t + v) r2 u
| walks_asking r r1 s l v r2 u : queried num r r1 -> walks num r1 s l v r2 u -> walks num r s l v r2 u.
(** What the object accepts, starting at state 0 and using its final weights. *)
Definition object_accepts (num : bstr -> nat) (r : rule) (l : list (bstr * bstr)) (w : Z) : Prop :=
  exists r' s v f, walks num r 0 l v r' s /\ rule_final_weight r' s = Ok (Some f) /\ w = (v + f)%Z.
Definition sum (l : list Z) : Z := fold_right Z.add 0%Z l.
