(** Model of GenerationApplicator, tools/src/hfst-proc/applicators.cc:252-499 (line numbers without a file
    name refer to it), on the token streams of HP_Model.

    Simplifications: the lookup is a parameter [generate]: the strings made of the paths that are put out
    for the tokens of a word, in order, none if the lookup does not end in a final state (:426-473, with
    preprocess_finals and capitalisation; the options leave at least one path); stream_error is Throw;
    debugging output is left out. *)
From Verif Require Import Base HP_Model.

(** hfst-proc.h:61-65. *)
Inductive gmode := gm_clean | gm_unknown | gm_all.
Definition is_clean (m : gmode) : bool := match m with gm_clean => true | _ => false end.
Definition is_all (m : gmode) : bool := match m with gm_all => true | _ => false end.

Section Generation.
  Variable g : config.
  Variable mode : gmode.
  Variable generate : list token -> list bstr.

  (** token_to_string with the raw argument, tokenizer.cc:401-427; a superblank holds its text. *)
  Definition raw_string (t : token) : bstr :=
    match t with TSym k _ => symbol_to_string (alph g) k | TChar c => c | TBlank x => x | TRes c => [c] | TNone => [] end.
  (** std::string::find of a character from the start: what is before it and what is after. *)
  Fixpoint find_char (c : ascii) (s : bstr) : option (bstr * bstr) :=
    match s with
    | [] => None
    | d :: r => if Ascii.eqb d c then Some ([], r) else match find_char c r with Some (u, v) => Some (d :: u, v) | None => None end
    end.
  (** :483-491. *)
  Fixpoint strip_tags (fuel : nat) (word : bstr) : res bstr :=
    match fuel with
    | 0 => Diverge
    | S f =>
        match find_char "<"%char word with
        | None => Ok word
        | Some (u, v) => match find_char ">"%char v with Some (_, r) => strip_tags f (u ++ r) | None => Throw end
        end
    end.
  (** lookup, :426-499: what is written, if it returns true. *)
  Definition lookup (tokens : list token) (generate_on_fail : bool) : res (option bstr) :=
    match generate tokens with
    | f :: r => Ok (Some (f ++ flat_map (fun f => B "/" ++ f) r))
    | [] =>
        if generate_on_fail then
          let word := flat_map raw_string tokens in
          rmap (fun word => Some ((if is_clean mode then [] else B "#") ++ escape g word)) (if is_all mode then Ok word else strip_tags (S (length word)) word)
        else Ok None
    end.
  (** split, :354-375: [part]: the tokens since start, [prev]: the token before.  For a token that is no
      symbol is_tag looks at the symbol table with NO_SYMBOL_NUMBER. *)
  Fixpoint split_from (tokens : list token) (prev : option token) (part : list token) : res (list (list token)) :=
    match tokens with
    | [] => Ok (match part with [] => [] | _ => [part] end)
    | t :: r =>
        let go_on := split_from r (Some t) (part ++ [t]) in
        if bstr_eqb (token_to_string g t) (B "+") then
          match prev with
          | None => go_on
          | Some p =>
              match to_symbol (alph g) p with
              | None => Ub
              | Some k => if is_tag (alph g) k then rmap (cons part) (split_from r (Some t) []) else go_on
              end
          end
        else go_on
    end.
  Definition split (tokens : list token) : res (list (list token)) := split_from tokens None [].
  (** :326-337. *)
  Fixpoint lookups (ps : list (list token)) : res bstr :=
    match ps with
    | [] => Ok []
    | p :: r => rbind (lookup p true) (fun o => rmap (fun o' => match o with Some o => o | None => [] end ++ o') (lookups r))
    end.
  Definition generate_word (form : list token) : res bstr :=
    rbind (lookup form false) (fun o => match o with Some o => Ok o | None => rbind (split form) lookups end).

  Definition is_reserved (c : ascii) (t : token) : bool := match t with TRes d => Ascii.eqb d c | _ => false end.
  (** :266-288: the tokens of a word, and the mark that ended it. *)
  Fixpoint read_form (fuel : nat) (x : io) (form : list token) : res (list token * option ascii * io) :=
    match fuel with
    | 0 => Diverge
    | S f =>
        rbind (get_token g x) (fun '(t, x) =>
        let s := token_to_string g t in
        if is_reserved "$"%char t then Ok (form, None, x)
        else if bstr_eqb s (B "*") || bstr_eqb s (B "@") || bstr_eqb s (B "#") then Ok (form, Some (hd NUL s), x)
        else match t with TNone => Throw | _ => read_form f x (form ++ [t]) end)
    end.
  (** read_delimited at the stream; the text it returns. *)
  Definition delimited (x : io) : res (bstr * io) :=
    rmap (fun '(s, o, r) => (s, IO (IS r (bad (input x))) (tb x) (out x ++ o))) (read_delimited g "$"%char (bytes (input x))).
  (** :292-345: what is written for a word. *)
  Definition put_word (form : list token) (prefix_char : option ascii) (x : io) : res io :=
    let starred (c : ascii) :=
      let x := if is_clean mode then x else put (escape g [c]) x in
      rmap (fun '(word, x) =>
        let word := if Ascii.eqb c "*"%char || negb (is_all mode)
                    then match find_char "<"%char word with Some (u, _) => u | None => removelast word end
                    else removelast word in
        put (escape g word) x) (delimited x) in
    let is_prefix (c : ascii) := match prefix_char with Some d => Ascii.eqb d c | None => false end in
    if is_prefix "*"%char then starred "*"%char
    else if is_prefix "@"%char then starred "@"%char
    else
      rbind (generate_word form) (fun o =>
      let x := put o x in
      if is_prefix "#"%char then rmap (fun '(invariant, x) => put (escape g (removelast invariant)) x) (delimited x)
      else Ok x).
  (** apply, :254-352. *)
  Fixpoint generation (fuel : nat) (x : io) : res bstr :=
    match fuel with
    | 0 => Diverge
    | S f =>
        rbind (get_token g x) (fun '(t, x) =>
        match t with
        | TNone => Ok (out x)
        | TRes c =>
            if Ascii.eqb c "^"%char then rbind (read_form f x []) (fun '(form, prefix_char, x) => rbind (put_word form prefix_char x) (generation f))
            else Throw
        | _ => generation f (put (token_to_string g t) x)
        end)
    end.
  Definition generate_text (fuel : nat) (text : bstr) : res bstr := generation fuel (new_io text).
End Generation.
