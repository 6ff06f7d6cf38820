(** Model of HfstBasicTransducer::intersect: libhfst/src/implementations/HfstBasicTransducer.cc
    (line numbers refer to it).  Simplifications as in BT_Model; in addition the transitions
    matched in a state are computed before they are handled one after another (matching
    reads only the two arguments, handling writes only the result). *)
From Verif Require Import Base BT_Model.

Section Isect.
  Variable num : bstr -> nat.

  (** HfstTropicalTransducerTransitionData::less_than_ignore_weight,
      HfstTropicalTransducerTransitionData.cc:232-243. *)
  Definition label_lt (a b : arc) : bool :=
    if num (isy a) <? num (isy b) then true
    else if num (isy b) <? num (isy a) then false
    else if num (osy a) <? num (osy b) then true
    else if num (osy b) <? num (osy a) then false
    else false.

  (** The loop over tr2, :4266-4306: [rest] is tr2 from position j, [orig] is tr2 from
      start_search_from; returns the match and tr2 from the new start_search_from (which
      stays when the loop runs to the end). *)
  Fixpoint scan (a : arc) (orig rest : list arc) : option arc * list arc :=
    match rest with
    | [] => (None, orig)
    | b :: r =>
        if label_lt b a then scan a orig r
        else if label_lt a b then (None, rest)
        else (Some b, r)
    end.
  (** The loop over tr1, :4259-4309. *)
  Fixpoint join (tr1 tr2 : list arc) : list (arc * arc) :=
    match tr1 with
    | [] => []
    | a :: r => let '(m, rest) := scan a tr2 tr2 in
                match m with Some b => (a, b) :: join r rest | None => join r rest end
    end.

  (** StatePair keys of StateMap, :4154-4155. *)
  Definition npcmp (p q : nat * nat) : comparison :=
    match Nat.compare (fst p) (fst q) with Eq => Nat.compare (snd p) (snd q) | c => c end.
  (** The result under construction, state_map and agenda. *)
  Record istate := IState { i_graph : graph; i_map : list ((nat * nat) * nat); i_agenda : list nat }.

  (** find_target_state, :4161-4178. *)
  Definition find_target_state (p : nat * nat) (st : istate) : istate * nat * bool :=
    match mget npcmp p (i_map st) with
    | Some s => (st, s, false)
    | None => let '(g, s) := add_state (i_graph st) in
              (IState g (mset npcmp p s (i_map st)) (i_agenda st), s, true)
    end.
  (** handle_match, :4184-4215. *)
  Definition handle_match (g1 : graph) (a1 : arc) (g2 : graph) (a2 : arc) (state : nat) (st : istate) : istate * nat :=
    let '(st1, t, was_new) := find_target_state (tgt a1, tgt a2) st in
    let g := add_transition (i_graph st1) state (Arc t (isy a1) (osy a1) (wt a1 + wt a2)) true in
    let g' := if was_new then
                match finw g1 (tgt a1), finw g2 (tgt a2) with
                | Some f1, Some f2 => set_final_weight g t (f1 + f2)
                | _, _ => g
                end
              else g in
    (IState g' (i_map st1) (i_agenda st1), t).
  (** find_matches, :4234-4312.  [fuel] bounds the depth of the recursion. *)
  Fixpoint find_matches (fuel : nat) (g1 g2 : graph) (s1 s2 state : nat) (st : istate) : res istate :=
    match fuel with
    | O => Diverge
    | S fuel' =>
        fold_left (fun r '(a1, a2) => rbind r (fun st =>
            let '(st1, t) := handle_match g1 a1 g2 a2 state st in
            if smem Nat.compare t (i_agenda st1) then Ok st1
            else find_matches fuel' g1 g2 (tgt a1) (tgt a2) t st1))
          (join (arcs g1 s1) (arcs g2 s2))
          (Ok (IState (i_graph st) (i_map st) (sadd Nat.compare state (i_agenda st))))
    end.
  (** intersect, :4314-4335; also sorts the arguments, which the caller sees (sort_arcs). *)
  Definition intersect (fuel : nat) (g1 g2 : graph) : res graph :=
    let g1 := sort_arcs num g1 in
    let g2 := sort_arcs num g2 in
    let r := match finw g1 0, finw g2 0 with
             | Some f1, Some f2 => set_final_weight empty_graph 0 (Z.min f1 f2)
             | _, _ => empty_graph
             end in
    rmap i_graph (find_matches fuel g1 g2 0 0 0 (IState r [((0, 0), 0)] [])).
End Isect.
