(** Model of tools/src/hfst-pair-test.cc without the option -X (line numbers without a file name refer to
    it).  Simplifications: messages are left out; the lines have no zero bytes; the state number
    (HfstState)-1 is None. *)
From Verif Require Import Base BT_Model Tok_Model S2_Model.

(** get_target, :246-271: the loop over the transitions. *)
Fixpoint target_among (i o : bstr) (unknown : bool) (l : list arc) (identity_target : option nat) : option nat :=
  match l with
  | [] => if bstr_eqb i o && unknown then identity_target else None
  | a :: r =>
      if bstr_eqb (isy a) i && bstr_eqb (osy a) o then Some (tgt a)
      else target_among i o unknown r (if bstr_eqb (isy a) IDN && bstr_eqb (osy a) IDN then Some (tgt a) else identity_target)
  end.
Definition get_target (known : list bstr) (g : graph) (p : bstr * bstr) (s : nat) : option nat :=
  target_among (fst p) (snd p) (negb (smem bcmp (fst p) known)) (arcs g s) None.
(** test for one rule, :276-304. *)
Fixpoint test_from (known : list bstr) (g : graph) (positive : bool) (ps : list (bstr * bstr)) (s : nat) : nat :=
  match ps with
  | [] => if is_final_state g s && positive then 0 else if positive then 1 else if negb (is_final_state g s) then 0 else 1
  | p :: r => match get_target known g p s with None => if positive then 1 else 0 | Some t => test_from known g positive r t end
  end.
(** test for a grammar, :386-442. *)
Definition test_grammar (known : list bstr) (grammar : list graph) (positive : bool) (ps : list (bstr * bstr)) : nat :=
  if positive then fold_left (fun c g => if c =? 0 then test_from known g true ps 0 else c) grammar 0
  else fold_left (fun c g => if c =? 1 then test_from known g false ps 0 else c) grammar 1.

(** is_empty_or_comment, :458-465. *)
Fixpoint is_empty_or_comment (s : bstr) : bool :=
  match s with
  | [] => true
  | c :: r => if Ascii.eqb c " " || Ascii.eqb c "009" then is_empty_or_comment r else Ascii.eqb c "!"
  end.
(** :540-549. *)
Definition line_of (line : bstr) : bstr := until (Ascii.eqb "010"%char) line.

Section Stream.
  (** ICU, as in Tok_Model. *)
  Variable grapheme : bstr -> nat.
  Variable valid_utf8 : bstr -> bool.
  (** :536-590; Throw: the program ends. *)
  Fixpoint test_lines (known : list bstr) (grammar : list graph) (positive : bool) (t : tokenizer) (lines : list bstr) (exit_code : nat) : res nat :=
    match lines with
    | [] => Ok exit_code
    | line :: r =>
        let s := line_of line in
        if is_empty_or_comment s then test_lines known grammar positive t r exit_code
        else
          rbind (tokenize_pair_string grapheme valid_utf8 (B "0") t s true) (fun ps =>
          let ps := (B "@#@", EPSILON_SYMBOL) :: ps ++ [(B "@#@", EPSILON_SYMBOL)] in
          let new_exit_code := test_grammar known grammar positive ps in
          test_lines known grammar positive t r (if exit_code =? 0 then new_exit_code else exit_code))
    end.
  (** process_stream, :498-526 and :590: the symbols known are those of the first rule. *)
  Definition pair_test (grammar : list graph) (positive : bool) (lines : list bstr) : res nat :=
    let known := match grammar with [] => [] | g :: _ => symbols_used g end in
    rbind (new_tokenizer grapheme valid_utf8 [] (B "0")) (fun t => test_lines known grammar positive t lines 0).
End Stream.
