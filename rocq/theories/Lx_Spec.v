(** What a lexc grammar means, and the conditions under which the compiler is right.
    The tokens of entries are described with [segmentation] of Tok_Spec. *)
From Verif Require Import Base Tok_Spec Lx_Model.

(** * Meaning of a grammar *)
(** The strings of an entry: two sequences of tokens, or a set of weighted pair strings (a
    regular expression). *)
Inductive body :=
| Literal (upper lower : list bstr)
| Regexp (r : list (bstr * bstr) -> Z -> Prop).
Record entry := Entry { e_lexicon : bstr; e_body : body; e_continuation : bstr; e_weight : Z }.

(** Every %0 (written @ZERO@ by the reader of the grammar) is the digit zero. *)
Fixpoint zeros (s : bstr) : bstr :=
  match s with
  | [] => []
  | a :: r =>
      match r with
      | b :: c :: d :: e :: f :: r' =>
          if bstr_eqb [a; b; c; d; e; f] (B "@ZERO@") then "0"%char :: zeros r' else a :: zeros r
      | _ => a :: zeros r
      end
  end.
(** The tokens that stand for nothing: a lone 0 and the other names of epsilon. *)
Definition silent (t : bstr) : Prop :=
  t = B "0" \/ t = B "@0@" \/ t = B "@@ANOTHER_EPSILON@@" \/ t = B "@_EPSILON_SYMBOL_@".
Inductive denote : list bstr -> list bstr -> Prop :=
| dn_nil : denote [] []
| dn_silent t ts ss : silent t -> denote ts ss -> denote (t :: ts) ss
| dn_symbol t ts ss : ~ silent t -> denote ts ss -> denote (t :: ts) (zeros t :: ss).
(** The two sides of a pair string. *)
Inductive sides : list (bstr * bstr) -> list bstr -> list bstr -> Prop :=
| sd_nil : sides [] [] []
| sd_both x y l xs ys : x <> B "@_EPSILON_SYMBOL_@" -> y <> B "@_EPSILON_SYMBOL_@" -> sides l xs ys -> sides ((x, y) :: l) (x :: xs) (y :: ys)
| sd_upper x l xs ys : x <> B "@_EPSILON_SYMBOL_@" -> sides l xs ys -> sides ((x, B "@_EPSILON_SYMBOL_@") :: l) (x :: xs) ys
| sd_lower y l xs ys : y <> B "@_EPSILON_SYMBOL_@" -> sides l xs ys -> sides ((B "@_EPSILON_SYMBOL_@", y) :: l) xs (y :: ys)
| sd_none l xs ys : sides l xs ys -> sides ((B "@_EPSILON_SYMBOL_@", B "@_EPSILON_SYMBOL_@") :: l) xs ys.

(** What one entry contributes: upper string, lower string, weight. *)
Definition contributes (e : entry) (x y : list bstr) (w : Z) : Prop :=
  match e_body e with
  | Literal u l => denote u x /\ denote l y /\ w = e_weight e
  | Regexp r => exists l v, r l v /\ sides l x y /\ w = (e_weight e + v)%Z
  end.
(** A word of the grammar: entries are chained from a lexicon through continuations to #. *)
Inductive derives (G : list entry) : bstr -> list bstr -> list bstr -> Z -> Prop :=
| dv_end : derives G (B "#") [] [] 0%Z
| dv_step e x y w x' y' w' : In e G -> contributes e x y w -> derives G (e_continuation e) x' y' w' ->
    derives G (e_lexicon e) (x ++ x') (y ++ y') (w + w')%Z.

(** * Conditions *)
Definition text (s : bstr) : Prop := utf8 s /\ ~ In "000"%char s.
(** The compiler's own codes begin and end with a dollar sign. *)
Definition plain (s : bstr) : Prop := text s /\ ~ In "$"%char s.
Definition name (s : bstr) : Prop := plain s /\ s <> [] /\ ~ In "@"%char s.
Definition starts (p s : bstr) : Prop := exists r, s = p ++ r.
(** Symbols that do not collide with the compiler's internal symbols. *)
Definition visible (s : bstr) : Prop :=
  s <> B "@0@" /\ s <> B "@ZERO@" /\ ~ starts (B "@_") s /\ ~ starts (B "@@ANOTHER_EPSILON@@") s.
(** At most one %0 in a symbol. *)
Definition one_zero (t : bstr) : Prop := forall a b c, t <> a ++ B "@ZERO@" ++ b ++ B "@ZERO@" ++ c.
Definition usable (t : bstr) : Prop := silent t \/ (one_zero t /\ visible (zeros t)).
Definition usable_entry (e : entry) : Prop :=
  match e_body e with Literal u l => Forall usable u /\ Forall usable l | Regexp _ => True end.
(** Two regular expressions are kept apart only by lexicon name _ continuation. *)
Definition same_key (e f : entry) : Prop :=
  e_lexicon e ++ B "_" ++ e_continuation e = e_lexicon f ++ B "_" ++ e_continuation f.
Definition regexps_apart (G : list entry) : Prop :=
  forall e f r q, In e G -> In f G -> e_body e = Regexp r -> e_body f = Regexp q -> same_key e f ->
    e_lexicon e = e_lexicon f /\ e_continuation e = e_continuation f /\ e_weight e = e_weight f.

(** * Sessions *)
Section Session.
  Variable grapheme : bstr -> nat.
  Variable valid_utf8 : bstr -> bool.
  Variable clusters : bstr -> list bstr.

  (** First character, as in C08. *)
  Definition character (split : bool) (c r : bstr) : Prop :=
    if split then utf8_char c else length c = grapheme (c ++ r) /\ c <> [].
  (** The symbols the compiler knows when it reads an entry with the strings [ds]. *)
  Definition sees (c : lexc) (ds : list bstr) (w : bstr) : Prop :=
    w <> [] /\ (In w (known c) \/ w = B "0" \/ w = B "@ZERO@" \/
                (split_characters c = false /\ exists d, In d ds /\ In w (clusters d))).
  Definition cut_into (c : lexc) (ds : list bstr) (d : bstr) (ts : list bstr) : Prop :=
    segmentation (sees c ds) (character (split_characters c)) d ts.

  (** The entry that a call stands for. *)
  Inductive adds (c : lexc) : call -> list entry -> Prop :=
  | ad_alphabet s : adds c (Alphabet s) []
  | ad_noflag s : adds c (NoFlag s) []
  | ad_lexicon n : adds c (Lexicon n) []
  | ad_initial n : adds c (Initial n) []
  | ad_word d k w ts : cut_into c [d] d ts ->
      adds c (Word d k w) [Entry (currentName c) (Literal ts ts) k w]
  | ad_pair u l k w us ls : cut_into c [u; l] u us -> cut_into c [u; l] l ls ->
      adds c (Pair u l k w) [Entry (currentName c) (Literal us ls) k w]
  | ad_regex r a k w : adds c (Regex r a k w) [Entry (currentName c) (Regexp r) k w].

  (** Characters that do not run together with what is put behind a string ... *)
  Definition ends_before (split : bool) (d f : bstr) : Prop :=
    split = false -> forall p q r, d = p ++ q -> q <> [] -> grapheme (q ++ f ++ r) = grapheme q.
  (** ... and symbols that do not reach into it. *)
  Definition no_overlap (S : bstr -> Prop) (d f : bstr) : Prop :=
    (forall p q r w, d = p ++ q -> q <> [] -> S w -> prefix_of w (q ++ f ++ r) -> prefix_of w q) /\
    (forall w, S w -> starts f w -> w = f).
  Definition tame (c : lexc) (k : call) : Prop :=
    let entry cont := name (currentName c) /\ name cont in
    match k with
    | Alphabet s => plain s
    | NoFlag _ => with_flags c = false
    | Lexicon n | Initial n => name n
    | Word d k _ => entry k /\ plain d /\ ends_before (split_characters c) d (B "$")
    | Pair u l k _ => entry k /\ plain u /\ plain l /\
        ends_before (split_characters c) u (B "$") /\ ends_before (split_characters c) l (B "$") /\
        ends_before (split_characters c) u (B "@@ANOTHER_EPSILON@@") /\
        ends_before (split_characters c) l (B "@@ANOTHER_EPSILON@@") /\
        no_overlap (sees c [u; l]) u (B "@@ANOTHER_EPSILON@@") /\
        no_overlap (sees c [u; l]) l (B "@@ANOTHER_EPSILON@@")
    | Regex _ a k _ => entry k /\ Forall plain a
    end.

  (** A session in which all calls return, with its grammar. *)
  Inductive session : lexc * bool -> list call -> list entry -> lexc * bool -> Prop :=
  | se_nil s : session s [] [] s
  | se_call s k ks s1 s2 G1 G2 : do_call grapheme valid_utf8 clusters k s = Ok s1 -> adds (fst s) k G1 -> tame (fst s) k ->
      session s1 ks G2 s2 -> session s (k :: ks) (G1 ++ G2) s2.

  (** What is known of ICU: characters and clusters are non-empty pieces of text. *)
  Definition icu : Prop :=
    (forall x, x <> [] -> utf8 x -> exists c r, x = c ++ r /\ length c = grapheme x /\ utf8 c /\ c <> []) /\
    (forall d w, utf8 d -> In w (clusters d) -> utf8 w /\ w <> [] /\ exists a b, d = a ++ w ++ b).
End Session.

(** * Flags mode *)
Definition lexname (s : bstr) : Prop := starts (B "@P.LEXNAME") s \/ starts (B "@R.LEXNAME") s.
(** The string without the flags of lexicon names. *)
Inductive erased : list bstr -> list bstr -> Prop :=
| er_nil : erased [] []
| er_flag s x y : lexname s -> erased x y -> erased (s :: x) y
| er_keep s x y : ~ lexname s -> erased x y -> erased (s :: x) (s :: y).
(** Entries that have none of these flags themselves. *)
Definition flag_free (e : entry) : Prop :=
  match e_body e with
  | Literal u l => Forall (fun t => ~ lexname (zeros t)) u /\ Forall (fun t => ~ lexname (zeros t)) l
  | Regexp r => forall l v, r l v -> Forall (fun p => ~ lexname (fst p) /\ ~ lexname (snd p)) l
  end.
