(** Specifications for the string utilities. *)
From Verif Require Import Base.

(** [n] occurs somewhere in [s]. *)
Definition occurs (n s : bstr) : Prop := exists a b, s = a ++ n ++ b.

(** Leftmost non-overlapping replacement of [n] by [r], scanning left to right. *)
Inductive replaced (n r : bstr) : bstr -> bstr -> Prop :=
| rp_end : replaced n r [] []
| rp_hit h h' : replaced n r h h' -> replaced n r (n ++ h) (r ++ h')
| rp_miss c h h' : (forall t, c :: h <> n ++ t) -> replaced n r h h' -> replaced n r (c :: h) (c :: h').

(** Symbols whose AT&T notation is reversible. *)
Definition blank (c : ascii) : Prop := c = " "%char \/ c = "009"%char.
Definition att_reversible (s : bstr) : Prop :=
  s = B "@_EPSILON_SYMBOL_@" \/
  (Forall (fun c => ~ blank c) s /\
   ~ occurs (B "@_EPSILON_SYMBOL_@") s /\ ~ occurs (B "@_SPACE_@") s /\ ~ occurs (B "@0@") s /\
   ~ occurs (B "@_TAB_@") s /\ ~ occurs (B "@_COLON_@") s) \/
  (~ In "@"%char s /\
   forall a x y b, s = a ++ x :: y :: b -> blank x -> y <> "_"%char /\ y <> "0"%char).

(** lexc percent escapes with @...@ groups copied literally; z says whether a bare 0
    stands for the empty symbol.  None: the text ends inside an escape. *)
Inductive lexc_unescaped (z : bool) : bstr -> option bstr -> Prop :=
| lu_end : lexc_unescaped z [] (Some [])
| lu_stray : lexc_unescaped z (B "%") None
| lu_zero s t : lexc_unescaped z s t ->
    lexc_unescaped z (B "%0" ++ s) (option_map (app (B "@ZERO@")) t)
| lu_escape c s t : c <> "0"%char -> lexc_unescaped z s t ->
    lexc_unescaped z ("%"%char :: c :: s) (option_map (cons c) t)
| lu_group g s t : ~ In "@"%char g -> lexc_unescaped z s t ->
    lexc_unescaped z ("@"%char :: g ++ "@"%char :: s) (option_map (app ("@"%char :: g ++ ["@"%char])) t)
| lu_open g : ~ In "@"%char g -> lexc_unescaped z ("@"%char :: g) (Some ("@"%char :: g))
| lu_bare_zero s t : z = true -> lexc_unescaped z s t ->
    lexc_unescaped z ("0"%char :: s) (option_map (app (B "@0@")) t)
| lu_char c s t : c <> "%"%char -> c <> "@"%char -> (z = true -> c <> "0"%char) ->
    lexc_unescaped z s t -> lexc_unescaped z (c :: s) (option_map (cons c) t).

(** White space of the C locale. *)
Definition white (c : ascii) : Prop :=
  In c [" "%char; "009"%char; "010"%char; "011"%char; "012"%char; "013"%char].
(** [t] is [s] without leading and trailing white space. *)
Definition trimmed (s t : bstr) : Prop :=
  exists a b, s = a ++ t ++ b /\ Forall white a /\ Forall white b /\
    (forall c r, t = c :: r -> ~ white c) /\ (forall c r, t = r ++ [c] -> ~ white c).

(** Alignments of two symbol sequences: deletions, insertions, pairings. *)
Definition edit := (option bstr * option bstr)%type.
Definition edit_ok (e : edit) : Prop := e <> (None, None).
Fixpoint keep {A} (l : list (option A)) : list A :=
  match l with [] => [] | Some x :: r => x :: keep r | None :: r => keep r end.
Definition aligns (s1 s2 : list bstr) (al : list edit) : Prop :=
  Forall edit_ok al /\ keep (map fst al) = s1 /\ keep (map snd al) = s2.
Definition edit_cost (e : edit) : nat :=
  match e with (Some x, Some y) => if bstr_eqb x y then 0 else 100 | _ => 1 end.
Definition cost (al : list edit) : nat := list_sum (map edit_cost al).

(** Line number after reading a text, counting from 1. *)
Definition line_after (s : bstr) : nat := 1 + count_occ ascii_dec s "010"%char.

(** Quoted literals as sequences of plain bytes and escapes of one byte. *)
Inductive quoted_item := Plain (c : ascii) | Escaped (d : ascii).
Definition item_ok (i : quoted_item) : Prop :=
  match i with
  | Plain c => ~ In c (B "\" ++ ["010"; "013"]%char)
  | Escaped d => ~ In d (B "01234567ux")
  end.
Definition item_text (i : quoted_item) : bstr :=
  match i with Plain c => [c] | Escaped d => B "\" ++ [d] end.
(** The C meaning of the escape letters; any other byte stands for itself. *)
Definition item_byte (i : quoted_item) : ascii :=
  match i with
  | Plain c => c
  | Escaped "a" => "007" | Escaped "b" => "008" | Escaped "f" => "012" | Escaped "n" => "010"
  | Escaped "r" => "013" | Escaped "t" => "009" | Escaped "v" => "011"
  | Escaped d => d
  end%char.
