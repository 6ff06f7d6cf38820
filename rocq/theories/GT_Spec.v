(** Specification vocabulary for hfst-affix-guessify, hfst-traverse and the encoding of flags. *)
From Verif Require Import Base BT_Model BT_Spec FH_Spec.

(** Flags hidden between percent signs; other symbols stay. *)
Inductive hidden : bstr -> bstr -> Prop :=
| hid_flag m : is_flag (B "@" ++ m ++ B "@") -> hidden (B "@" ++ m ++ B "@") (B "%" ++ m ++ B "%")
| hid_other s : ~ is_flag s -> hidden s s.
(** A symbol that looks like a hidden flag. *)
Definition looks_hidden (s : bstr) : Prop := exists m, s = B "%" ++ m ++ B "%" /\ is_flag (B "@" ++ m ++ B "@").

(** Pairs of equal symbols, identity or from the list [al]. *)
Definition copies (al : list bstr) (u : list (bstr * bstr)) : Prop :=
  Forall (fun p => fst p = snd p /\ (fst p = B "@_IDENTITY_SYMBOL_@" \/ In (fst p) al)) u.
(** [v] can be read from some state to a final one, with the weight [w]. *)
Definition ending (g : graph) (v : list (bstr * bstr)) (w : Z) : Prop :=
  exists s t x f, s < length (sts g) /\ run g s v x t /\ mget Nat.compare t (fin g) = Some f /\ w = (x + f)%Z.
(** [p] can be read from the start to some state, with the weight [w]. *)
Definition beginning (g : graph) (p : list (bstr * bstr)) (w : Z) : Prop := exists s, run g 0 p w s.
(** Every state is on a path from the start. *)
Definition reachable (g : graph) : Prop := forall s, s < length (sts g) -> exists p w, run g 0 p w s.

(** The text shown for a path: i:o and a space for each pair. *)
Fixpoint shown (l : list (bstr * bstr)) : bstr :=
  match l with [] => [] | p :: r => fst p ++ B ":" ++ snd p ++ B " " ++ shown r end.
(** [l] reads the labels [ls] from the start to [s]. *)
Definition walks (g : graph) (ls : list bstr) (l : list (bstr * bstr)) (s : nat) : Prop := map fst l = ls /\ exists w, run g 0 l w s.
(** [follows g done labels kept]: of the labels given after [done], those that no path can read are
    passed over. *)
Inductive follows (g : graph) : list bstr -> list bstr -> list bstr -> Prop :=
| fo_end done : follows g done [] done
| fo_go done x ls kept : (exists l s, walks g (done ++ [x]) l s) -> follows g (done ++ [x]) ls kept -> follows g done (x :: ls) kept
| fo_stay done x ls kept : ~ (exists l s, walks g (done ++ [x]) l s) -> follows g done ls kept -> follows g done (x :: ls) kept.
