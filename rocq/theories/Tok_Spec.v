(** Leftmost-longest tokenization, stated independently of the tries. *)
From Verif Require Import Base.

Definition prefix_of (w s : bstr) : Prop := exists r, s = w ++ r.

(** [w] is the longest string of the set [S] that starts [s]. *)
Definition longest_prefix (S : bstr -> Prop) (s w : bstr) : Prop :=
  S w /\ prefix_of w s /\ forall w', S w' -> prefix_of w' s -> length w' <= length w.
Definition no_prefix (S : bstr -> Prop) (s : bstr) : Prop :=
  forall w, S w -> ~ prefix_of w s.

(** Shape of UTF-8 characters (lead byte and continuation bytes). *)
Definition cont_byte (b : ascii) : Prop :=
  exists b0 b1 b2 b3 b4 b5, b = Ascii b0 b1 b2 b3 b4 b5 false true.
Inductive utf8_char : bstr -> Prop :=
| u1 b0 b1 b2 b3 b4 b5 b6 : utf8_char [Ascii b0 b1 b2 b3 b4 b5 b6 false]
| u2 b0 b1 b2 b3 b4 x : cont_byte x -> utf8_char [Ascii b0 b1 b2 b3 b4 false true true; x]
| u3 b0 b1 b2 b3 x y : cont_byte x -> cont_byte y ->
    utf8_char [Ascii b0 b1 b2 b3 false true true true; x; y]
| u4 b0 b1 b2 x y z : cont_byte x -> cont_byte y -> cont_byte z ->
    utf8_char [Ascii b0 b1 b2 false true true true true; x; y; z].
Definition utf8 (s : bstr) : Prop := exists cs, Forall utf8_char cs /\ s = concat cs.

(** Leftmost-longest segmentation of [s] over the symbol set [S]; [C c r] says that
    [c] is the first character of the text [c ++ r]. *)
Inductive segmentation (S : bstr -> Prop) (C : bstr -> bstr -> Prop) : bstr -> list bstr -> Prop :=
| seg_nil : segmentation S C [] []
| seg_sym w r ts : longest_prefix S (w ++ r) w -> segmentation S C r ts ->
    segmentation S C (w ++ r) (w :: ts)
| seg_chr c r ts : no_prefix S (c ++ r) -> C c r -> segmentation S C r ts ->
    segmentation S C (c ++ r) (c :: ts).

(** The symbols registered by a configuration (empty ones are ignored). *)
Definition registered (regs : list (bool * bstr)) (w : bstr) : Prop :=
  w <> [] /\ exists k, In (k, w) regs.
Definition skipped (regs : list (bool * bstr)) (w : bstr) : Prop :=
  w <> [] /\ In (true, w) regs.

(** Latest number registered for [w]. *)
Fixpoint latest (regs : list (bstr * N)) (w : bstr) : option N :=
  match regs with
  | [] => None
  | (s, k) :: r =>
      match latest r w with
      | Some n => Some n
      | None => if bstr_eqb s w then Some k else None
      end
  end.

(** Maximal runs of non-space bytes, in order. *)
Inductive spaced : bstr -> list bstr -> Prop :=
| sp_end : spaced [] []
| sp_space s ws : spaced s ws -> spaced (" "%char :: s) ws
| sp_word w ws s : w <> [] -> ~ In " "%char w ->
    (s = [] \/ exists r, s = " "%char :: r) -> spaced s ws -> spaced (w ++ s) (w :: ws).

(** [sub xs ys]: xs is obtained from ys by leaving out elements. *)
Inductive sub {A} : list A -> list A -> Prop :=
| sub_nil : sub [] []
| sub_keep x xs ys : sub xs ys -> sub (x :: xs) (x :: ys)
| sub_skip y xs ys : sub xs ys -> sub xs (y :: ys).
