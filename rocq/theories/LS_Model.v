(** The lookup state of hfst-proc and the choice among the analyses found.
    Models tools/src/hfst-proc/lookup-state.cc, lookup-path.cc (and lookup-path.h),
    transducer.cc and the beginning of formatter.cc.

    Simplifications (whole file):
    - the four classes of paths (with or without weights and flags) are one record; without
      weights all are zero, and without flags there are no operations in the table;
    - the tables are not changed, so the entries a loop visits are collected first and then
      followed one after another;
    - paths are values; the order of the addresses of two paths, on which get_finals_set
      depends, is the parameter [before];
    - the final weight of a path that is not final is never used, and is zero here;
    - which symbols have which case (the ICU calls) is a parameter; debugging output is left
      out; weights are integers. *)
From Verif Require Import Base Flags_Model BT_Model OLF_Model OLC_Model OLL_Model.
Local Open Scope N_scope.

(** LookupPath, LookupPathW, PathFd, lookup-path.h:24-170. *)
Record path := Path {
  lp_index : N; lp_final : bool; lp_out : list N; lp_weight : Z; lp_final_weight : Z; lp_fd : fdstate }.
(** LookupPathW::get_weight, lookup-path.h:166. *)
Definition get_weight (p : path) : Z := if lp_final p then (lp_weight p + lp_final_weight p)%Z else lp_weight p.

(** symbol_to_string (alphabet.h) of the table made by the constructor, alphabet.cc:141-160: the
    names of flags and of the epsilon symbol are emptied. *)
Definition proc_string (a : alphabet) (k : N) : bstr :=
  if (k =? 0) || is_flag_symbol a k then [] else nth (N.to_nat k) (a_table a) [].

(** Letter case of symbols, alphabet.h: has_case, is_lower, to_lower; and whether the mode of
    capitalisation is CaseSensitive or CaseSensitiveDictionaryCase. *)
Record casing := Casing { has_case : N -> bool; is_lower : N -> bool; to_lower : N -> N; case_sensitive : bool }.

Section State.
  Variable dec : N -> Z.
  Variable a : alphabet.
  Variable t : tables.

  (** LookupPath::follow(TransitionIndex) and LookupPathW::follow, lookup-path.cc:17-26, 73-81. *)
  Definition follow_index (e : index_entry) (p : path) : res path :=
    rmap (fun o => Path (ie_target e) (match o with Some _ => true | None => false end) (lp_out p) (lp_weight p)
                     (match o with Some w => w | None => 0%Z end) (lp_fd p))
      (final_weight dec t (ie_target e)).
  (** follow(Transition), lookup-path.cc:28-41, 60-66, 83-96 and 111-117, with
      evaluate_flag_diacritic, :50-54: [false] if a flag forbids it; only the flag values may
      then have changed. *)
  Definition follow (e : trans_entry) (p : path) : res (path * bool) :=
    rbind (match mget Nat.compare (N.to_nat (te_input e)) (operations (a_fd a)) with
           | None => Ok (lp_fd p, true)
           | Some op => match apply_op op (lp_fd p) with None => Ub | Some r => Ok r end
           end) (fun '(fs, ok) =>
    if ok then
      rmap (fun o => (Path (te_target e) (match o with Some _ => true | None => false end)
                        (match proc_string a (te_output e) with [] => lp_out p | _ => lp_out p ++ [te_output e] end)
                        (lp_weight p + weight_of dec t e)%Z (match o with Some w => w | None => 0%Z end) fs, true))
        (final_weight dec t (te_target e))
    else Ok (Path (lp_index p) (lp_final p) (lp_out p) (lp_weight p) (lp_final_weight p) fs, false)).

  (** The transition from which try_epsilon_transitions and try_transitions start,
      lookup-state.cc:204-208 and 290-294. *)
  Definition first_transition (i : N) : res N :=
    rmap (fun e => if te_input e =? OLF_Model.NO_SYMBOL then i + 1 else i) (get_transition t i).

  (** try_epsilon_transitions, :200-231. *)
  Definition try_epsilon_transitions (p : path) : res (list path) :=
    rbind (first_transition (lp_index p)) (fun i =>
    rbind (run_of (free_entry a) (transitions_from t i)) (fun es =>
    rmap (@concat path) (rseq (map (fun e => rmap (fun '(q, ok) => if ok : bool then [q] else []) (follow e p)) es)))).
  (** try_epsilon_index, :183-198. *)
  Definition try_epsilon_index (p : path) : res (list path) :=
    rbind (get_index t (lp_index p + 1)) (fun e =>
    if ie_input e =? 0 then rmap (fun q => [q]) (follow_index e p) else Ok []).
  (** try_epsilons, :169-181: new paths are added at the end while the vector is gone through. *)
  Definition epsilons (p : path) : res (list path) :=
    if lp_index p <? TA_OFFSET then try_epsilon_index p else try_epsilon_transitions p.
  Fixpoint try_epsilons (fuel : nat) (todo : list path) : res (list path) :=
    match todo with
    | [] => Ok []
    | p :: r =>
        match fuel with
        | O => Diverge
        | S fuel' => rbind (epsilons p) (fun new => rmap (cons p) (try_epsilons fuel' (r ++ new)))
        end
    end.

  (** try_transitions, :282-316: the result of follow is not looked at. *)
  Definition try_transitions (p : path) (input : N) : res (list path) :=
    rbind (first_transition (lp_index p)) (fun i =>
    rbind (run_of (entry_with input) (transitions_from t i)) (fun es =>
    rseq (map (fun e => rmap fst (follow e p)) es))).
  (** try_index, :262-280. *)
  Definition try_index (p : path) (input : N) : res (list path) :=
    rbind (get_index t (lp_index p + input + 1)) (fun e =>
    if ie_input e =? input then rbind (follow_index e p) (fun q => try_transitions q input) else Ok []).
  Definition try_input (p : path) (input : N) : res (list path) :=
    if lp_index p <? TA_OFFSET then try_index p input else try_transitions p input.
  (** apply_input, :234-260. *)
  Definition apply_input (paths : list path) (input alt : N) : res (list path) :=
    if input =? 0 then Ok []
    else rmap (@concat path) (rseq (map (fun p =>
           rbind (try_input p input) (fun l1 =>
           rbind (if alt =? OLF_Model.NO_SYMBOL then Ok [] else try_input p alt) (fun l2 => Ok (l1 ++ l2)))) paths)).

  (** init, :16-22, with create_initial_path, transducer.cc:22-25. *)
  Definition initial_path : path := Path 0 false [] 0%Z 0%Z (fdstate_new (a_fd a)).
  Definition init (fuel : nat) : res (list path) := try_epsilons fuel [initial_path].
  (** step, :31-49. *)
  Definition step2 (fuel : nat) (paths : list path) (input alt : N) : res (list path) :=
    if input =? OLF_Model.NO_SYMBOL then Ok []
    else rbind (apply_input paths input alt) (try_epsilons fuel).
  (** step, :51-59. *)
  Definition alternative (c : casing) (input : N) : N :=
    if (input =? OLF_Model.NO_SYMBOL) || negb (has_case c input) || is_lower c input || case_sensitive c then OLF_Model.NO_SYMBOL
    else to_lower c input.
  Definition step (c : casing) (fuel : nat) (paths : list path) (input : N) : res (list path) :=
    step2 fuel paths input (alternative c input).
  (** lookup, :24-29, in the state made by init. *)
  Fixpoint steps (c : casing) (fuel : nat) (paths : list path) (input : list N) : res (list path) :=
    match input with
    | [] => Ok paths
    | k :: r => rbind (step c fuel paths k) (fun paths => steps c fuel paths r)
    end.
  Definition lookup (c : casing) (fuel : nat) (input : list N) : res (list path) :=
    rbind (init fuel) (fun paths => steps c fuel paths input).

  (** is_active, lookup-state.h: there are paths. *)
  Definition is_active (paths : list path) : bool := match paths with [] => false | _ => true end.
  (** is_final, :70-90. *)
  Definition at_final (p : path) : res bool :=
    rmap (fun o => match o with Some _ => true | None => false end) (final_weight dec t (lp_index p)).
  Fixpoint is_final (paths : list path) : res bool :=
    match paths with
    | [] => Ok false
    | p :: r => rbind (at_final p) (fun b => if b : bool then Ok true else is_final r)
    end.
End State.

(** std::vector<SymbolNumber>::operator<. *)
Fixpoint ncmp (x y : list N) : comparison :=
  match x, y with
  | [], [] => Eq
  | [], _ :: _ => Lt
  | _ :: _, [] => Gt
  | k :: x', l :: y' => match N.compare k l with Eq => ncmp x' y' | o => o end
  end.

(** get_finals_set, :113-154: a set ordered by compare_pointers (lookup-path.h:73), that is, by
    the output symbols.  A second path with the same output replaces the first if its address
    is lower. *)
Section Finals.
  Variable before : path -> path -> bool.
  Definition add_final (m : list (list N * path)) (p : path) : list (list N * path) :=
    match mget ncmp (lp_out p) m with
    | None => mset ncmp (lp_out p) p m
    | Some q => if before p q then mset ncmp (lp_out p) p m else m
    end.
  Fixpoint gather_finals (dec : N -> Z) (t : tables) (paths : list path) (m : list (list N * path)) : res (list (list N * path)) :=
    match paths with
    | [] => Ok m
    | p :: r => rbind (at_final dec t p) (fun b => gather_finals dec t r (if b : bool then add_final m p else m))
    end.
  Definition get_finals_set (dec : N -> Z) (t : tables) (paths : list path) : res (list path) :=
    rmap (map snd) (gather_finals dec t paths []).
End Finals.

(** * The choice among the analyses, formatter.cc *)
(** LookupPathW::operator<, lookup-path.cc:98-106. *)
Definition wcmp (p q : path) : comparison :=
  match Z.compare (get_weight p) (get_weight q) with Eq => ncmp (lp_out p) (lp_out q) | o => o end.
(** insert in a set ordered by compare_weights; equal elements are not inserted again. *)
Definition by_weight (l : list path) : list path := fold_left (fun s p => sadd wcmp p s) l [].
(** filter_compound_analyses, :33-63; [boundaries] is num_compound_boundaries. *)
Definition fewest (boundaries : path -> nat) (l : list path) : nat :=
  fold_left (fun m p => Nat.min m (boundaries p)) l (match l with [] => O | p :: _ => boundaries p end).
Definition filter_compounds (boundaries : path -> nat) (l : list path) : list path :=
  filter (fun p => negb (fewest boundaries l <? boundaries p)%nat) l.
(** The loop over the weight classes, :84-109, for paths with weights; [found] is classes_found
    and None stands for -1. *)
Fixpoint best_classes (max : Z) (found : option (Z * Z)) (l : list path) : list path :=
  match l with
  | [] => []
  | p :: r =>
      let n := match found with
               | None => 1%Z
               | Some (n, w) => if (w =? get_weight p)%Z then n else (n + 1)%Z
               end in
      if (max <? n)%Z then [] else p :: best_classes max (Some (n, get_weight p)) r
  end.
(** preprocess_finals, :65-119.  The sets goodweight_finals and clipped_finals have the order of
    the set they are made from. *)
Definition preprocess_finals (compounds : bool) (boundaries : path -> nat) (max_classes max_analyses : Z) (finals : list path) : list path :=
  let l := by_weight finals in
  let l := if compounds then filter_compounds boundaries l else l in
  firstn (Z.to_nat max_analyses) (best_classes max_classes None l).
