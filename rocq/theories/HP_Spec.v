(** What hfst-proc should do with a text, stated without its buffers and positions. *)
From Verif Require Import Base HP_Model.

(** * Tokens and text *)
(** The characters that must be escaped in a stream, and a backslash only before those. *)
Definition special (c : ascii) : Prop := In c (B "[]{}^$/\@<>").
Inductive escaped_well : bstr -> Prop :=
| ew_nil : escaped_well []
| ew_plain c l : c <> "\"%char -> escaped_well l -> escaped_well (c :: l)
| ew_escape c l : special c -> escaped_well l -> escaped_well ("\"%char :: c :: l).
(** No NUL, and the bytes that follow the first byte of a longer UTF-8 character are above 127. *)
Definition following (c : ascii) : nat :=
  let n := N_of_ascii c in if (240 <=? n)%N then 3 else if (224 <=? n)%N then 2 else if (192 <=? n)%N then 1 else 0.
Definition continued (l : bstr) : Prop :=
  forall u c v, l = u ++ c :: v -> Forall (fun d => (128 <= N_of_ascii d)%N) (firstn (following c) v).
Definition plain_text (l : bstr) : Prop := escaped_well l /\ ~ In (ascii_of_nat 0) l /\ continued l.
(** An alphabet with symbols [names] (number 0 is the epsilon symbol): they are looked up by name
    and printed as they are, and none contains a backslash unless it is one. *)
Definition has_symbols (a : alphabet) (names : list bstr) : Prop :=
  symb a = add_symbols names /\ (forall k, 0 < k -> symbol_to_string a k = nth k names []) /\
  Forall (fun y => In "\"%char y -> y = ["\"%char]) names.

(** The tokens of an input, read one after the other until none is left, and the bytes that are
    then left unread. *)
Inductive reads (g : config) : istream -> list token -> bstr -> Prop :=
| reads_end is is' : read_token g is = Ok (TNone, [], is') -> reads g is [] (bytes is)
| reads_token is t is' ts rest : read_token g is = Ok (t, [], is') -> t <> TNone -> reads g is' ts rest -> reads g is (t :: ts) rest.

(** The same up to some point. *)
Inductive reads_some (g : config) : istream -> list token -> istream -> Prop :=
| some_none is : reads_some g is [] is
| some_token is t is1 ts is' : read_token g is = Ok (t, [], is1) -> t <> TNone -> reads_some g is1 ts is' -> reads_some g is (t :: ts) is'.

(** * Running text *)
(** What is reported about a text: characters between the words, words with their analyses,
    unknown words. *)
Inductive event := Between (t : token) | Known (w : list token) (analyses : list bstr) | Unknown (w : list token).
Definition surface (e : event) : list token := match e with Between t => [t] | Known w _ => w | Unknown w => w end.

Section Text.
  Variable M : machine.
  Variable a : alphabet.
  Let letter (t : token) : Prop := is_alphabetic a t = true.
  (** The lexicon after a sequence of tokens, and whether it can follow it all the way. *)
  Definition after (w : list token) : mstate M := fold_left (fun s t => mstep s (to_symbol a t)) w reset.
  Definition followed (w : list token) : Prop := forall u v, w = u ++ v -> u <> [] -> is_active (after u) = true.
  (** [w] is accepted at the start of a text that goes on with [t]: not in the middle of letters. *)
  Definition acceptable (w : list token) (t : token) : Prop :=
    followed w /\ is_final (after w) = true /\ exists w' v, w = w' ++ [v] /\ ~ (letter v /\ letter t).
  Definition accepted_length (ts : list token) (k : nat) : Prop :=
    exists w t r, ts = w ++ t :: r /\ length w = k /\ acceptable w t.
  (** The lexicon follows the text for exactly [n] tokens. *)
  Definition followed_length (ts : list token) (n : nat) : Prop :=
    exists w t r, ts = w ++ t :: r /\ length w = n /\ followed w /\ is_active (after (w ++ [t])) = false.
  (** The analyses found for the longest accepted beginning of the text; none if there are
      none for it, or if the word must go on: a letter follows it, and the lexicon has followed
      the text to another letter. *)
  Definition analysed (ts : list token) (k : nat) : Prop :=
    accepted_length ts k /\ (forall j, accepted_length ts j -> j <= k) /\ finals (after (firstn k ts)) (firstn k ts) <> [] /\
    forall n, followed_length ts n -> ~ (letter (nth k ts TNone) /\ letter (nth (n - 1) ts TNone)).
  (** An unknown word: what the lexicon has followed, and the letters from there on. *)
  Definition unknown_length (ts : list token) (k : nat) : Prop :=
    exists n, followed_length ts n /\ n <= k < length ts /\
      Forall letter (firstn (k - n) (skipn n ts)) /\ ~ letter (nth k ts TNone).

  Inductive segmented : list token -> list event -> Prop :=
  | seg_end : segmented [] []
  | seg_between t ts es : ~ letter t -> (forall k, ~ analysed (t :: ts) k) ->
      segmented ts es -> segmented (t :: ts) (Between t :: es)
  | seg_known w ts es : analysed (w ++ ts) (length w) ->
      segmented ts es -> segmented (w ++ ts) (Known w (finals (after w) w) :: es)
  | seg_unknown t w ts es : letter t -> (forall k, ~ analysed (t :: w ++ ts) k) -> unknown_length (t :: w ++ ts) (S (length w)) ->
      segmented ts es -> segmented (t :: w ++ ts) (Unknown (t :: w) :: es).

  (** The text ends with a token the lexicon cannot read and that is no letter. *)
  Definition ends_outside (ts : list token) : Prop := exists ts' t, ts = ts' ++ [t] /\ ~ letter t /\ forall s : mstate M, is_active (mstep s (to_symbol a t)) = false.
  (** Where the lexicon starts to follow the text at a token that is no letter but finds no
      analysis, the token after that is a letter (or it has stopped at once). *)
  Definition no_stall (ts : list token) : Prop := forall u t v n, ts = u ++ t :: v -> ~ letter t ->
    (forall k, ~ analysed (t :: v) k) -> followed_length (t :: v) n -> 0 < n -> letter (nth n (t :: v) TNone).
  (** No stretch the lexicon follows, with the letters after it, is as long as the buffer,
      and none it accepts ends where the buffer is full. *)
  Definition fits (size : nat) (ts : list token) : Prop :=
    (forall u w l v, ts = u ++ w ++ l ++ v -> followed w -> Forall letter l -> length w + length l + 1 < size) /\
    (forall u w v, ts = u ++ w ++ v -> w <> [] -> v <> [] -> followed w -> is_final (after w) = true -> (length (u ++ w)) mod size <> 0).
End Text.

(** What the Apertium format shows for each event. *)
Definition apertium_text (g : config) (e : event) : bstr :=
  match e with
  | Between t => token_to_string g t
  | Known w forms =>
      B "^" ++ flat_map (fun t => match t with TBlank _ => symbol_to_string (alph g) (blank_symbol (alph g)) | _ => token_to_string g t end) w ++
      flat_map (fun f => B "/" ++ f) forms ++ B "$" ++ flat_map (fun t => match t with TBlank x => x | _ => [] end) w
  | Unknown w => B "^" ++ flat_map (token_to_string g) w ++ B "/*" ++ flat_map (token_to_string g) w ++ B "$"
  end.
(** What a formatter shows. *)
Definition shown (g : config) (F : formatter) (e : event) : bstr :=
  match e with
  | Between t => if preserve_nonalphabetic F then token_to_string g t else []
  | Known w forms => print_word F w forms
  | Unknown w => print_unknown_word F w
  end.
