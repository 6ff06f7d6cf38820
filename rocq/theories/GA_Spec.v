(** Specification vocabulary for generation with hfst-proc. *)
From Verif Require Import Base HP_Model HP_Spec.

(** The parts of a text: what is outside words, words to be generated, and words that end in a mark
    (an asterisk, an at sign or a number sign) and a text of their own. *)
Inductive part := Outside (t : token) | Word (w : list token) | Marked (m : ascii) (w : list token) (x : bstr).

Section Text.
  Variable g : config.
  Definition dollar (t : token) : Prop := t = TRes "$"%char.
  Definition mark (t : token) (m : ascii) : Prop := token_to_string g t = [m] /\ In m (B "*@#").
  Definition in_word (t : token) : Prop := t <> TNone /\ ~ dollar t /\ forall m, ~ mark t m.
  (** A text without dollar signs, escaped characters or brackets. *)
  Definition simple (x : bstr) : Prop := forall c, In c x -> c <> "$"%char /\ c <> "\"%char /\ c <> "["%char.
  (** The parts of what is left in the stream. *)
  Inductive parts : istream -> list part -> Prop :=
  | p_end is is' : read_token g is = Ok (TNone, [], is') -> parts is []
  | p_outside is t is' ps : read_token g is = Ok (t, [], is') -> t <> TNone -> (forall c, t <> TRes c) -> parts is' ps -> parts is (Outside t :: ps)
  | p_word is is1 w is2 is3 ps : read_token g is = Ok (TRes "^"%char, [], is1) -> reads_some g is1 w is2 -> Forall in_word w ->
      read_token g is2 = Ok (TRes "$"%char, [], is3) -> parts is3 ps -> parts is (Word w :: ps)
  | p_marked is is1 w is2 t is3 m x r ps : read_token g is = Ok (TRes "^"%char, [], is1) -> reads_some g is1 w is2 -> Forall in_word w ->
      read_token g is2 = Ok (t, [], is3) -> t <> TNone -> ~ dollar t -> mark t m -> is3 = IS (x ++ "$"%char :: r) false -> simple x ->
      parts (IS r false) ps -> parts is (Marked m w x :: ps).

  (** A word made of several: after a plus sign that follows a tag a new one begins. *)
  Definition plus (t : token) : Prop := token_to_string g t = B "+".
  Definition tag (t : token) : Prop := exists k, to_symbol (alph g) t = Some k /\ is_tag (alph g) k = true.
  Definition whole (p : list token) : Prop := forall u a b v, p = u ++ a :: b :: v -> tag a -> ~ plus b.
  Inductive divided : list token -> list (list token) -> Prop :=
  | d_none : divided [] []
  | d_last p : p <> [] -> whole p -> divided p [p]
  | d_cut p a b r ps : whole (p ++ [a]) -> tag a -> plus b -> ~ tag b -> divided r ps -> divided (p ++ a :: b :: r) ((p ++ [a]) :: ps).
  (** What comes before a plus sign is a symbol of the transducer, not an unknown character. *)
  Definition plus_after_symbols (w : list token) : Prop := forall u a b v, w = u ++ a :: b :: v -> plus b -> to_symbol (alph g) a <> None.

  (** The text without tags. *)
  Inductive untagged : bstr -> bstr -> Prop :=
  | ut_nil : untagged [] []
  | ut_char c s s' : c <> "<"%char -> untagged s s' -> untagged (c :: s) (c :: s')
  | ut_tag t s s' : ~ In ">"%char t -> untagged s s' -> untagged ("<"%char :: t ++ ">"%char :: s) s'.

  (** The options: -g (marks, no tags), -n (neither), -d (both). *)
  Variables show_marks show_tags : bool.
  (** The forms of the transducer. *)
  Variable forms : list token -> list bstr.
  Definition listed (l : list bstr) : bstr := match l with [] => [] | f :: r => f ++ flat_map (fun f => B "/" ++ f) r end.
  Definition bare (t : token) : bstr := match t with TSym k _ => symbol_to_string (alph g) k | TChar c => c | TBlank x => x | TRes c => [c] | TNone => [] end.
  Definition shown_mark (m : bstr) : bstr := if show_marks then m else [].
  Definition shown_text (s s' : bstr) : Prop := if show_tags then s' = s else untagged s s'.
  Inductive piece : list token -> bstr -> Prop :=
  | pc_known p : forms p <> [] -> piece p (listed (forms p))
  | pc_unknown p s : forms p = [] -> shown_text (flat_map bare p) s -> piece p (shown_mark (B "#") ++ escape g s).
  Inductive word_text (w : list token) : bstr -> Prop :=
  | wt_whole : forms w <> [] -> word_text w (listed (forms w))
  | wt_pieces ps os : forms w = [] -> plus_after_symbols w -> divided w ps -> Forall2 piece ps os -> word_text w (concat os).
  (** An unanalysed or untranslated word is shown up to its tags. *)
  Definition until_tags (x s : bstr) : Prop := ~ In "<"%char s /\ (x = s \/ exists r, x = s ++ "<"%char :: r).
  Inductive part_text : part -> bstr -> Prop :=
  | t_outside t : part_text (Outside t) (token_to_string g t)
  | t_word w o : word_text w o -> part_text (Word w) o
  | t_unanalysed w x s : until_tags x s -> part_text (Marked "*"%char w x) (shown_mark (B "*") ++ escape g s)
  | t_untranslated w x s : (if show_tags then s = x else until_tags x s) -> part_text (Marked "@"%char w x) (shown_mark (escape g (B "@")) ++ escape g s)
  | t_invariant w o x : word_text w o -> part_text (Marked "#"%char w x) (o ++ escape g x).
End Text.
