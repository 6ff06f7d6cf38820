(** Model of tools/src/hfst-summarize.cc, process_stream (line numbers refer to it): the values
    that are printed for one transducer.
    Simplifications: the report is the record of the values, without the fixed words around them;
    the averages, which are quotients of these values, and the lines that are constant (???) or
    depend only on the type are left out; counters are unbounded; the number of arcs in the
    sparsest state starts at a number larger than any (1<<31 converted to size_t, :179), None
    here; is_infinitely_ambiguous is property C27 and get_first_input_symbols is left out. *)
From Verif Require Import Base BT_Model An_Model.

(** The local variables of process_stream, :165-202 and :239. *)
Record tally := Tally {
  v_states : nat; v_finals : nat; v_arcs : nat; v_io : nat; v_ie : nat; v_oe : nat;
  v_dense : nat; v_sparse : option nat; v_uin : nat; v_uout : nat;
  v_min : bstr * nat; v_mout : bstr * nat; v_found : list bstr;
  v_acc : bool; v_idet : bool; v_odet : bool; v_cyc : bool; v_cyc0 : bool;
  v_pairs : list ((bstr * bstr) * nat) }.
(** arcs_here, input_ambiguity, output_ambiguity, :251-253. *)
Record here := Here { h_arcs : nat; h_in : list (bstr * nat); h_out : list (bstr * nat) }.
Definition start : tally :=
  Tally 0 0 0 0 0 0 0 None 0 0 ([], 0) ([], 0) [] true true true false false [].

(** A counter of a map, which is 0 before it is first used, :291-299. *)
Definition counter {K} (cmp : K -> K -> comparison) (m : list (K * nat)) (k : K) : nat :=
  match mget cmp k m with Some n => n | None => 0 end.
Definition bump {K} (cmp : K -> K -> comparison) (m : list (K * nat)) (k : K) : list (K * nat) :=
  mset cmp k (S (counter cmp m k)) m.

(** The body of the loop over the transitions of the state [s], :255-321.  [pairs] is
    print_symbol_pair_statistics. *)
Definition one_arc (pairs : bool) (s : nat) (x : tally * here) (a : arc) : tally * here :=
  let (v, h) := x in
  let i := isy a in let o := osy a in
  let ei := is_epsilon i in let eo := is_epsilon o in
  let both := ei && eo in
  let h_in' := bump bcmp (h_in h) i in
  let h_out' := bump bcmp (h_out h) o in
  (Tally (v_states v) (v_finals v) (S (v_arcs v))
     (if both then S (v_io v) else v_io v)
     (if both then S (v_ie v) else if ei then S (v_ie v) else v_ie v)
     (if both then S (v_oe v) else if ei then v_oe v else if eo then S (v_oe v) else v_oe v)
     (v_dense v) (v_sparse v) (v_uin v) (v_uout v) (v_min v) (v_mout v)
     (sadd bcmp o (sadd bcmp i (v_found v)))
     (if bstr_eqb i o then v_acc v else false)
     (if both then false else if ei then false else if 1 <? counter bcmp h_in' i then false else v_idet v)
     (if both then false else if ei then (if 1 <? counter bcmp h_out' o then false else v_odet v)
      else if eo then false else if 1 <? counter bcmp h_out' o then false else v_odet v)
     (if (s =? 0) && (tgt a =? 0) then true else if s =? tgt a then true else v_cyc v)
     (if (s =? 0) && (tgt a =? 0) then true else v_cyc0 v)
     (if pairs then bump pcmp (v_pairs v) (i, o) else v_pairs v),
   Here (S (h_arcs h)) h_in' h_out').

(** :330-350: the largest counter of a map so far, the first of equal ones. *)
Definition largest (best : bstr * nat) (m : list (bstr * nat)) : bstr * nat :=
  fold_left (fun b kv => if snd b <? snd kv then kv else b) m best.

(** The body of the loop over the states, :243-352. *)
Definition one_state (pairs : bool) (g : graph) (s : nat) (v : tally) (l : list arc) : tally :=
  let final := match mget Nat.compare s (fin g) with Some _ => true | None => false end in
  let v := Tally (S (v_states v)) (if final then S (v_finals v) else v_finals v) (v_arcs v)
     (v_io v) (v_ie v) (v_oe v) (v_dense v) (v_sparse v) (v_uin v) (v_uout v) (v_min v) (v_mout v)
     (v_found v) (v_acc v) (v_idet v) (v_odet v) (v_cyc v) (v_cyc0 v) (v_pairs v) in
  let (v, h) := fold_left (one_arc pairs s) l (v, Here 0 [] []) in
  Tally (v_states v) (v_finals v) (v_arcs v) (v_io v) (v_ie v) (v_oe v)
     (if v_dense v <? h_arcs h then h_arcs h else v_dense v)
     (match v_sparse v with
      | Some n => if h_arcs h <? n then Some (h_arcs h) else Some n
      | None => Some (h_arcs h) end)
     (length (h_in h) + v_uin v) (length (h_out h) + v_uout v)
     (largest (v_min v) (h_in h)) (largest (v_mout v) (h_out h))
     (v_found v) (v_acc v) (v_idet v) (v_odet v) (v_cyc v) (v_cyc0 v) (v_pairs v).
Fixpoint all_states (pairs : bool) (g : graph) (s : nat) (ls : list (list arc)) (v : tally) : tally :=
  match ls with
  | [] => v
  | l :: r => all_states pairs g (S s) r (one_state pairs g s v l)
  end.
(** :165-352. *)
Definition summarize (pairs : bool) (g : graph) : tally := all_states pairs g 0 (sts g) start.

(** The sigma symbols missing from the transducer, :515-523: std::set_difference of two sets in the same
    order. *)
Definition missing_symbols (g : graph) (v : tally) : list bstr := filter (fun x => negb (smem bcmp x (v_found v))) (alpha g).
(** The lines of symbol pairs, :560-579; [threshold] is None without an argument (-1, which the
    comparison makes the largest unsigned number). *)
Definition pair_lines (threshold : option nat) (v : tally) : list ((bstr * bstr) * nat) :=
  filter (fun kv => match threshold with Some n => snd kv <=? n | None => true end) (v_pairs v).
