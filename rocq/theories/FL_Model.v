(** Model of find_epsilon_loops.cc (libhfst/src/implementations/optimized-lookup; line numbers
    without a file name refer to it) and of is_lookup_infinitely_ambiguous,
    transducer.cc:382-405.

    Simplifications (whole file): those of OLL_Model; the flag values are restored exactly on
    return, so they are an argument.  The search has no depth limit; [fuel] bounds the depth of
    the recursion, and Diverge stands for a deeper one. *)
From Verif Require Import Base Flags_Model OLF_Model OLC_Model OLL_Model.
From Verif Require Tok_Model.
Local Open Scope N_scope.

(** What the search changes: traversal_states, found_transition. *)
Record fstate := FState { f_travs : list trav; f_found : bool }.
Definition f_set (b : bool) (st : fstate) : fstate := FState (f_travs st) b.
Definition f_add (p : trav) (st : fstate) : fstate := FState (p :: f_travs st) (f_found st).
Definition f_del (p : trav) (st : fstate) : fstate := FState (filter (fun q => negb (trav_eqb p q)) (f_travs st)) (f_found st).
Definition f_has (p : trav) (st : fstate) : bool := existsb (trav_eqb p) (f_travs st).
Definition f_clear (st : fstate) : fstate := FState [] (f_found st).

(** None = throw true. *)
Definition fbind (m : res (option fstate)) (k : fstate -> res (option fstate)) : res (option fstate) :=
  rbind m (fun o => match o with None => Ok None | Some st => k st end).

Section Find.
  Variable a : alphabet.
  Variable t : tables.
  Section Loops.
    Variable rec : list N -> fdstate -> N -> fstate -> res (option fstate).
    Variable fs : fdstate.
    (** find_loop_epsilon_transitions, :48-91, over the entries visited. *)
    Fixpoint loop_free (input : list N) (es : list trans_entry) (st : fstate) : res (option fstate) :=
      match es with
      | [] => Ok (Some st)
      | e :: r =>
          let p := (te_target e, fs_values fs) in
          if te_input e =? 0 then
            if f_has p st then Ok None
            else fbind (rec input fs (te_target e) (f_add p st)) (fun st => loop_free input r (f_set true (f_del p st)))
          else
            match mget Nat.compare (N.to_nat (te_input e)) (operations (a_fd a)) with
            | None => Ub
            | Some op =>
                match apply_op op fs with
                | None => Ub
                | Some (_, false) => loop_free input r st
                | Some (fs', true) =>
                    if f_has p st then Ok None
                    else fbind (rec input fs' (te_target e) (f_add p st)) (fun st => loop_free input r (f_del p st))
                end
            end
      end.
    (** find_loop_transitions, :104-121. *)
    Fixpoint loop_consume (rest : list N) (es : list trans_entry) (st : fstate) : res (option fstate) :=
      match es with
      | [] => Ok (Some st)
      | e :: r => fbind (rec rest fs (te_target e) (f_clear st)) (fun st => loop_consume rest r (f_set true st))
      end.
    (** find_loop_transitions or find_loop_index, :123-135, in state [i]. *)
    Definition loop_attempt (rest : list N) (i y : N) (st : fstate) : res (option fstate) :=
      rbind (symbol_entries t i y) (fun '(hit, es) =>
      fbind (loop_consume rest es st) (fun st => Ok (Some (if hit : bool then f_set true st else st)))).
  End Loops.
  (** find_loop, :140-186. *)
  Fixpoint find_loop (fuel : nat) (input : list N) (fs : fdstate) (i : N) (st : fstate) : res (option fstate) :=
    match fuel with
    | O => Diverge
    | S fuel' =>
        let rec := find_loop fuel' in
        rbind (free_entries a t i) (fun '(hit, es) =>
        fbind (loop_free rec fs input es (f_set false st)) (fun st =>
        let st := if hit : bool then f_set true st else st in
        match input with
        | [] => Ok (Some st)
        | x :: rest =>
            fbind (loop_attempt rec fs rest i x st) (fun st =>
            if negb (a_default a =? OLF_Model.NO_SYMBOL) && negb (f_found st) then loop_attempt rec fs rest i (a_default a) st else Ok (Some st))
        end))
    end.
End Find.

(** is_lookup_infinitely_ambiguous, transducer.cc:382-396, and the growing parts of the transducer
    afterwards (those of lookup). *)
Definition is_lookup_infinitely_ambiguous (fuel : nat) (t : tables) (al : alphabet) (en : Tok_Model.encoder) (s : bstr)
  : res (bool * alphabet * Tok_Model.encoder) :=
  rbind (initialize_input (length s) s al en) (fun '(o, al, en) =>
  match o with
  | None => Ok (false, al, en)
  | Some input =>
      rmap (fun r => (match r with None => true | Some _ => false end, al, en))
        (find_loop al t fuel input (fdstate_new (a_fd al)) 0 (FState [] false))
  end).
