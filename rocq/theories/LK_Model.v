(** Model of lookup in HfstBasicTransducer
    (libhfst/src/implementations/HfstBasicTransducer.cc; line numbers without a file name
    refer to it) and of the epsilon handler (libhfst/src/HfstEpsilonHandler.cc).
    Simplifications: as in BT_Model; the vector of flag diacritics seen so far
    (obey_flags) is left out, because FlagDiacriticTable::is_valid_string returns true
    for every vector (C05), so it never changes the outcome; the recursion depth is
    bounded by [fuel], running out of which is Diverge. *)
From Verif Require Import Base Flags_Model BT_Model An_Model.

(** HfstEpsilonHandler.h:19-30. *)
Record handler := Handler { epsilon_path : list nat; max_cycles : nat; cycles : nat }.
(** Constructor, HfstEpsilonHandler.cc:17-18. *)
Definition new_handler (cutoff : nat) : handler := Handler [] cutoff 0.
(** push_back, HfstEpsilonHandler.cc:22-32. *)
Definition push_back (h : handler) (s : nat) : handler :=
  match rev (epsilon_path h) with
  | b :: _ => if b =? s then h else Handler (epsilon_path h ++ [s]) (max_cycles h) (cycles h)
  | [] => Handler (epsilon_path h ++ [s]) (max_cycles h) (cycles h)
  end.
(** The path up to and including the first occurrence of s. *)
Fixpoint cut_after (s : nat) (l : list nat) : option (list nat) :=
  match l with
  | [] => None
  | x :: r => if x =? s then Some [x] else match cut_after s r with Some r' => Some (x :: r') | None => None end
  end.
(** can_continue, HfstEpsilonHandler.cc:45-63. *)
Definition can_continue (h : handler) (s : nat) : bool * handler :=
  match cut_after s (epsilon_path h) with
  | Some p => let c := cycles h + 1 in (negb (max_cycles h <? c), Handler p (max_cycles h) c)
  | None => (true, h)
  end.

(** HfstTwoLevelPath: weight and vector of symbol pairs; HfstTwoLevelPaths: std::set of
    them, ordered by weight and then lexicographically. *)
Definition tlp : Type := Z * list (bstr * bstr).
Fixpoint lpcmp (x y : list (bstr * bstr)) : comparison :=
  match x, y with
  | [], [] => Eq
  | [], _ => Lt
  | _, [] => Gt
  | a :: x', c :: y' => match pcmp a c with Eq => lpcmp x' y' | o => o end
  end.
Definition tlpcmp (p q : tlp) : comparison := match Z.compare (fst p) (fst q) with Eq => lpcmp (snd p) (snd q) | o => o end.

(** max_weight (NULL: None) and max_number (negative: None). *)
Record limits := Limits { max_weight : option Z; max_number : option nat }.
Definition too_heavy (lim : limits) (w : Z) : bool := match max_weight lim with Some m => (m <? w)%Z | None => false end.
Definition enough (lim : limits) (results : list tlp) : bool :=
  match max_number lim with Some m => m <=? length results | None => false end.
(** add_to_results, :3709-3732. *)
Definition add_to_results (lim : limits) (results : list tlp) (w : Z) (path : list (bstr * bstr)) : list tlp :=
  if too_heavy lim w then results else sadd tlpcmp (w, path) results.
(** is_possible_transition, :3734-3788; Some b: possible, and b says whether an input
    symbol is consumed. *)
Definition is_possible_transition (g : graph) (a : arc) (input : list bstr) : option bool :=
  let free := if is_epsilon (isy a) || is_diacritic (isy a) then Some false else None in
  match input with
  | x :: _ => if bstr_eqb (isy a) x || ((bstr_eqb (isy a) IDN || bstr_eqb (isy a) UNK) && negb (smem bcmp x (alpha g)))
              then Some true else free
  | [] => free
  end.
(** The pair appended to the path, :3838-3856; std::vector::at throws. *)
Definition path_pair (a : arc) (input : list bstr) : res (bstr * bstr) :=
  if bstr_eqb (isy a) IDN then match input with x :: _ => Ok (x, x) | [] => Throw end
  else if bstr_eqb (isy a) UNK then match input with x :: _ => Ok (x, osy a) | [] => Throw end
  else Ok (isy a, osy a).
(** lookup (recursive), :3790-3902; the input from lookup_index on is [input].
    is_final_state and get_final_weight are one map lookup.  push_back_to_two_level_path
    and pop_back_from_two_level_path (:3678-3707) restore the path and weight exactly, as
    weights are integers here. *)
Fixpoint lookup_from (fuel : nat) (g : graph) (lim : limits) (cutoff : nat) (input : list bstr) (state : nat)
    (path : list (bstr * bstr)) (weight : Z) (eh : handler) (results : list tlp) : res (list tlp) :=
  match fuel with
  | O => Diverge
  | S fuel' =>
      let '(ok, eh1) := can_continue eh state in
      if negb ok then Ok results
      else if too_heavy lim weight then Ok results
      else if enough lim results then Ok results
      else
        let results1 := match input, finw g state with
                        | [], Some fw => add_to_results lim results (weight + fw) path
                        | _, _ => results
                        end in
        rbind (at_state g state) (fun l =>
        let fix go (l : list arc) (eh : handler) (results : list tlp) : res (list tlp) :=
          match l with
          | [] => Ok results
          | a :: r =>
              match is_possible_transition g a input with
              | None => go r eh results
              | Some consumed =>
                  rbind (path_pair a input) (fun p =>
                  if consumed then
                    rbind (lookup_from fuel' g lim cutoff (tl input) (tgt a) (path ++ [p]) (weight + wt a) (new_handler cutoff) results)
                          (go r eh)
                  else
                    let eh' := push_back eh state in
                    rbind (lookup_from fuel' g lim cutoff input (tgt a) (path ++ [p]) (weight + wt a) eh' results)
                          (go r eh'))
              end
          end in
        go l eh1 results1)
  end.
(** lookup, :3904-3935; the limit on epsilon cycles defaults to 100000. *)
Definition lookup (fuel : nat) (g : graph) (lim : limits) (cutoff : nat) (input : list bstr) : res (list tlp) :=
  lookup_from fuel g lim cutoff input 0 [] 0 (new_handler cutoff) [].
