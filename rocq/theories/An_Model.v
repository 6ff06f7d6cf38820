(** Model of the graph analyses of HfstBasicTransducer:
    libhfst/src/implementations/HfstBasicTransducer.cc (line numbers without a file name
    refer to it).  Simplifications as in BT_Model.  Recursion depth and the number of loop
    iterations are bounded by [fuel], running out of which is Diverge. *)
From Verif Require Import Base Flags_Model BT_Model.

(** is_epsilon, HfstSymbolDefs.cc:17-20. *)
Definition is_epsilon (x : bstr) : bool := bstr_eqb x EPS.
Definition both_epsilon (a : arc) : bool := is_epsilon (isy a) && is_epsilon (osy a).
(** operator[], :630-642: throws beyond the last state. *)
Definition at_state (g : graph) (s : nat) : res (list arc) := transitions g s.

(** has_negative_epsilon_cycles(state, total_weight, state_weights), :3428-3458.  The map
    is passed by reference, so it is returned together with the answer. *)
Fixpoint neg_cycles_from (fuel : nat) (g : graph) (state : nat) (total : Z) (weights : list (nat * Z)) : res (bool * list (nat * Z)) :=
  match fuel with
  | O => Diverge
  | S fuel' =>
      match mget Nat.compare state weights with
      | Some w => Ok ((total - w <? 0)%Z, weights)
      | None =>
          rbind (at_state g state) (fun l =>
          let fix go (l : list arc) (weights : list (nat * Z)) : res (bool * list (nat * Z)) :=
            match l with
            | [] => Ok (false, mdel Nat.compare state weights)
            | a :: r =>
                if both_epsilon a then
                  rbind (neg_cycles_from fuel' g (tgt a) (total + wt a) weights) (fun '(b, weights') =>
                  if b then Ok (true, weights') else go r weights')
                else go r weights
            end in
          go l (mset Nat.compare state total weights))
      end
  end.
(** has_negative_epsilon_cycles(), :3460-3493. *)
Fixpoint neg_cycles_any (fuel : nat) (g : graph) (states : list nat) (weights : list (nat * Z)) : res bool :=
  match states with
  | [] => Ok false
  | s :: r => rbind (neg_cycles_from fuel g s 0 weights) (fun '(b, weights') =>
              if b then Ok true else neg_cycles_any fuel g r weights')
  end.
Definition has_negative_epsilon_cycles (fuel : nat) (g : graph) : res bool :=
  if negb (existsb (existsb (fun a => both_epsilon a && (wt a <? 0)%Z)) (sts g)) then Ok false
  else neg_cycles_any fuel g (seq 0 (get_max_state g + 1)) [].

(** is_infinitely_ambiguous(state, epsilon_path_states, states_handled), :3495-3532.  The
    set and the vector are passed by reference; states_handled is indexed after the
    state was checked to exist, so it is modelled by the list of the states marked. *)
Definition epsilon_like (x : bstr) : bool := is_epsilon x || is_diacritic x.
Fixpoint inf_from (fuel : nat) (g : graph) (state : nat) (path handled : list nat) : res (bool * list nat * list nat) :=
  match fuel with
  | O => Diverge
  | S fuel' =>
      if smem Nat.compare state handled then Ok (false, path, handled)
      else
        rbind (at_state g state) (fun l =>
        let fix go (l : list arc) (path handled : list nat) : res (bool * list nat * list nat) :=
          match l with
          | [] => Ok (false, path, state :: handled)
          | a :: r =>
              if epsilon_like (isy a) then
                let path1 := sadd Nat.compare state path in
                if smem Nat.compare (tgt a) path1 then Ok (true, path1, handled)
                else
                  rbind (inf_from fuel' g (tgt a) path1 handled) (fun '(b, path2, handled2) =>
                  if b then Ok (true, path2, handled2) else go r (sdel Nat.compare state path2) handled2)
              else go r path handled
          end in
        go l path handled)
  end.
(** is_infinitely_ambiguous(), :3534-3547. *)
Fixpoint inf_any (fuel : nat) (g : graph) (states path handled : list nat) : res bool :=
  match states with
  | [] => Ok false
  | s :: r => rbind (inf_from fuel g s path handled) (fun '(b, path', handled') =>
              if b then Ok true else inf_any fuel g r path' handled')
  end.
Definition is_infinitely_ambiguous (fuel : nat) (g : graph) : res bool :=
  inf_any fuel g (seq 0 (get_max_state g + 1)) [] [].

(** is_possible_flag, :3549-3568, when it returns true; it does for every flag diacritic,
    with obey_flags because FlagDiacriticTable::is_valid_string always does (C05).  The
    vector of flags is otherwise unused here and left out. *)
(** Whether a transition can read symbol x, :3619-3633. *)
Definition reads (g : graph) (i x : bstr) : bool :=
  bstr_eqb i x || ((bstr_eqb i UNK || bstr_eqb i IDN) && negb (smem bcmp x (alpha g))).
(** is_lookup_infinitely_ambiguous, :3570-3651; the input from [index] on is [input]. *)
Fixpoint lookup_inf_from (fuel : nat) (g : graph) (input : list bstr) (state : nat) (path : list nat) : res (bool * list nat) :=
  match fuel with
  | O => Diverge
  | S fuel' =>
      rbind (at_state g state) (fun l =>
      let fix go (l : list arc) (path : list nat) : res (bool * list nat) :=
        match l with
        | [] => Ok (false, path)
        | a :: r =>
            if epsilon_like (isy a) then
              let path1 := sadd Nat.compare state path in
              if smem Nat.compare (tgt a) path1 then Ok (true, path1)
              else
                rbind (lookup_inf_from fuel' g input (tgt a) path1) (fun '(b, path2) =>
                if b then Ok (true, path2) else go r (sdel Nat.compare state path2))
            else
              match input with
              | [] => go r path
              | x :: input' =>
                  if reads g (isy a) x then
                    rbind (lookup_inf_from fuel' g input' (tgt a) []) (fun '(b, _) =>
                    if b then Ok (true, path) else go r path)
                  else go r path
              end
        end in
      go l path)
  end.
(** :3653-3676. *)
Definition is_lookup_infinitely_ambiguous (fuel : nat) (g : graph) (input : list bstr) : res bool :=
  rmap fst (lookup_inf_from fuel g input 0 [0]).

(** * Topological sort, HfstBasicTransducer.h:873-935 *)
Record topsort_state := TopSort { distance_of_state : list (option nat); states_at_distance : list (list nat) }.
(** Pushing empty sets up to index [d]. *)
Definition grow_to (d : nat) (l : list (list nat)) : list (list nat) := l ++ repeat [] (S d - length l).
(** set_state_at_distance; vector::at throws. *)
Definition set_state_at_distance (state d : nat) (overwrite : bool) (ts : topsort_state) : res topsort_state :=
  let sets := grow_to d (states_at_distance ts) in
  match nth_error (distance_of_state ts) state with
  | None => Throw
  | Some previous =>
      let sets1 := match previous with
                   | Some p => if negb (p =? d) && overwrite then upd p (sdel Nat.compare state (nth p sets [])) sets else sets
                   | None => sets
                   end in
      Ok (TopSort (upd state (Some d) (distance_of_state ts)) (upd d (sadd Nat.compare state (nth d sets1 [])) sets1))
  end.
(** One round of the do-while loop and the rest of it, :3322-3357. *)
Definition all_targets (g : graph) (states : list nat) : res (list nat) :=
  fold_left (fun r s => rbind r (fun acc => rmap (fun l => fold_left (fun acc a => sadd Nat.compare (tgt a) acc) l acc) (at_state g s))) states (Ok []).
Fixpoint topsort_loop (fuel : nat) (g : graph) (overwrite : bool) (d : nat) (ts : topsort_state) : res (list (list nat)) :=
  match fuel with
  | O => Diverge
  | S fuel' =>
      let sets := grow_to d (states_at_distance ts) in
      rbind (all_targets g (nth d sets [])) (fun new =>
      rbind (fold_left (fun r s => rbind r (set_state_at_distance s (d + 1) overwrite)) new
               (Ok (TopSort (distance_of_state ts) sets))) (fun ts' =>
      match new with [] => Ok (states_at_distance ts') | _ => topsort_loop fuel' g overwrite (d + 1) ts' end))
  end.
(** topsort, :3306-3360; [overwrite] is dist == MaximumDistance. *)
Definition topsort (fuel : nat) (g : graph) (overwrite : bool) : res (list (list nat)) :=
  match sts g with
  | [] => Ok []
  | _ => rbind (set_state_at_distance 0 0 overwrite (TopSort (repeat None (length (sts g))) []))
           (topsort_loop fuel g overwrite 0)
  end.
(** The loop from the largest distance down, :3373-3391; -1 if no set has a final state. *)
Fixpoint last_final (g : graph) (distance : nat) (sets : list (list nat)) : Z :=
  match sets with
  | [] => (-1)%Z
  | s :: r => let rest := last_final g (S distance) r in
              if (rest <? 0)%Z then (if existsb (is_final_state g) s then Z.of_nat distance else (-1)%Z) else rest
  end.
(** longest_path_size, :3364-3395. *)
Definition longest_path_size (fuel : nat) (g : graph) : res Z := rmap (last_final g 0) (topsort fuel g true).
(** path_sizes, :3399-3426. *)
Fixpoint final_distances (g : graph) (distance : nat) (sets : list (list nat)) : list nat :=
  match sets with
  | [] => []
  | s :: r => final_distances g (S distance) r ++ (if existsb (is_final_state g) s then [distance] else [])
  end.
Definition path_sizes (fuel : nat) (g : graph) : res (list nat) := rmap (final_distances g 0) (topsort fuel g false).
