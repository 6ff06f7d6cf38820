(** Specification vocabulary for hfst-pair-test. *)
From Verif Require Import Base BT_Model BT_Spec S2_Spec.

(** A label stands for itself; identity also for any symbol, on both sides, that is not [known]. *)
Inductive matches (known : bstr -> Prop) : bstr * bstr -> bstr * bstr -> Prop :=
| m_same p : matches known p p
| m_identity x : ~ known x -> matches known (B "@_IDENTITY_SYMBOL_@", B "@_IDENTITY_SYMBOL_@") (x, x).
(** The rule accepts the pairs; the symbols it knows are those of its transitions. *)
Definition accepted_by (g : graph) (ps : list (bstr * bstr)) : Prop :=
  exists m w, accepts g m w /\ Forall2 (matches (used g)) m ps.
(** No two transitions of a state have the same label. *)
Definition deterministic (g : graph) : Prop :=
  forall s a b, In a (nth s (sts g) []) -> In b (nth s (sts g) []) -> isy a = isy b -> osy a = osy b -> tgt a = tgt b.
(** The pairs between word boundaries. *)
Definition bounded (ps : list (bstr * bstr)) : list (bstr * bstr) := (B "@#@", epsilon) :: ps ++ [(B "@#@", epsilon)].

(** Lines with nothing to test: blanks only, or an exclamation mark after them. *)
Definition skipped (s : bstr) : Prop :=
  exists b r, s = b ++ r /\ (forall c, In c b -> c = " "%char \/ c = "009"%char) /\ (r = [] \/ exists r', r = "!"%char :: r').
(** [line_says one line o]: the line is to be skipped, or has pairs to test, spaces between them and 0
    for epsilon. *)
Inductive line_says (one : bstr -> Prop) : bstr -> option (list (bstr * bstr)) -> Prop :=
| ls_skip s e : ~ In "010"%char s -> e = [] \/ (exists e', e = "010"%char :: e') -> skipped s -> line_says one (s ++ e) None
| ls_test s e ps : ~ In "010"%char s -> e = [] \/ (exists e', e = "010"%char :: e') -> ~ skipped s -> spaced_pairs one (B "0") ps s -> line_says one (s ++ e) (Some ps).
