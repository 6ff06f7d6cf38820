(** Model of path extraction
    (libhfst/src/implementations/TropicalWeightTransducer.cc; line numbers without a file
    name refer to it) and of its callers in libhfst/src/HfstTransducer.cc.
    Simplifications: weights are integers instead of floats; an OpenFst vector transducer
    is given by its states, its start state and its input symbol table; the recursion depth
    is bounded by [fuel], running out of which is Diverge. *)
From Coq Require Import NArith.
From Verif Require Import Base Flags_Model BT_Model LK_Model.

(** StdArc: ilabel, olabel, weight, nextstate. *)
Record larc := LArc { l_in : nat; l_out : nat; l_w : Z; l_to : nat }.
(** StdVectorFst: for each state its final weight (None: TropicalWeight::Zero()) and its
    arcs; the start state (None: -1); the pairs of label and symbol of InputSymbols(). *)
Record tfst := TFst { t_states : list (option Z * list larc); t_start : option nat; t_syms : list (nat * bstr) }.
Definition t_arcs (t : tfst) (s : nat) : list larc := snd (nth s (t_states t) (None, [])).
Definition t_final (t : tfst) (s : nat) : option Z := fst (nth s (t_states t) (None, [])).
(** SymbolTable::Find(label): the empty string when there is none. *)
Fixpoint find_label (tab : list (nat * bstr)) (k : nat) : bstr :=
  match tab with
  | [] => []
  | (k', x) :: r => if k =? k' then x else find_label r k
  end.

(** TropicalWeightTransducer::get_flag_diacritics, :3218-3231 (None: an exception). *)
Definition get_flag_diacritics (t : tfst) : option fdtable :=
  define_all fd_empty (filter (fun p => is_diacritic (snd p)) (t_syms t)).

(** std::map<StateId, unsigned short>: absent states count 0; ++ wraps at 65536.  The
    maps all_visitations and path_visitations are passed by value and always hold the
    same numbers (the decrements at :2862 and :2925 act on copies that are then dropped),
    so one map stands for both. *)
Definition visits := list (nat * N).
Definition visits_of (v : visits) (s : nat) : N := match mget Nat.compare s v with Some n => n | None => 0%N end.
Definition visit (v : visits) (s : nat) : visits := mset Nat.compare s ((visits_of v s + 1) mod 65536)%N v.

(** The sort of the arcs, :2867-2881. *)
Fixpoint insert_arc (v : visits) (a : larc) (l : list larc) : list larc :=
  match l with
  | [] => [a]
  | c :: r => if (visits_of v (l_to a) <? visits_of v (l_to c))%N then a :: l else c :: insert_arc v a r
  end.
Definition sorted_arcs (v : visits) (l : list larc) : list larc := fold_left (fun acc a => insert_arc v a acc) l [].

Section Extract.
  Context {R : Type}.
  Variable t : tfst.
  (** The callback: takes its state, a path and whether it is accepted; returns its new
      state, continueSearch and continuePath (ExtractStrings.h:72-92). *)
  Variable cb : R -> tlp -> bool -> R * (bool * bool).
  Variable cycles : Z.
  (** The flag table (None: fd is NULL). *)
  Variable tab : option fdtable.
  Variable filter_fd : bool.

  (** The test of :2889-2904 on an arc: None when the arc is not followed, else the state
      of the flags after it. *)
  Definition follow (a : larc) (fd : option fdstate) : res (option (option fdstate)) :=
    match tab, fd with
    | Some tb, Some st =>
        match mget Nat.compare (l_in a) (operations tb) with
        | Some op => match apply_op op st with
                     | Some (st', true) => Ok (Some (Some st'))
                     | Some (_, false) => Ok None
                     | None => Ub
                     end
        | None => Ok (Some fd)
        end
    | _, _ => Ok (Some fd)
    end.
  (** istring and ostring, :2909-2920; filter_fd without a table dereferences NULL. *)
  Definition string_of (k : nat) : res bstr :=
    if filter_fd then
      match tab with
      | None => Ub
      | Some tb => match mget Nat.compare k (operations tb) with
                   | Some _ => Ok []
                   | None => Ok (find_label (t_syms t) k)
                   end
      end
    else Ok (find_label (t_syms t) k).

  (** The loop over the sorted arcs, :2883-2934. *)
  Fixpoint arc_loop (rec : larc -> option fdstate -> bstr * bstr -> R -> res (bool * R)) (fd : option fdstate)
      (l : list larc) (acc : R) : res (bool * R) :=
    match l with
    | [] => Ok (true, acc)
    | a :: r =>
        rbind (follow a fd) (fun o =>
          match o with
          | None => arc_loop rec fd r acc
          | Some fd' =>
              rbind (string_of (l_in a)) (fun i => rbind (string_of (l_out a)) (fun o' =>
                rbind (rec a fd' (i, o') acc) (fun x =>
                  if fst x then arc_loop rec fd r (snd x) else Ok (false, snd x))))
          end)
    end.
  (** extract_paths, :2835-2937. *)
  Fixpoint extract (fuel : nat) (s : nat) (v : visits) (w : Z) (fd : option fdstate) (spv : list (bstr * bstr))
      (acc : R) {struct fuel} : res (bool * R) :=
    match fuel with
    | 0 => Diverge
    | S f =>
        if ((0 <=? cycles) && (cycles <? Z.of_N (visits_of v s)))%Z then Ok (true, acc)
        else
          let v' := visit v s in
          let go acc :=
            arc_loop (fun a fd' p acc => extract f (l_to a) v' (w + l_w a) fd' (spv ++ [p]) acc) fd
              (sorted_arcs v' (t_arcs t s)) acc in
          match spv with
          | [] => go acc
          | _ :: _ =>
              let fw := match t_final t s with Some z => z | None => 0%Z end in
              let final := match t_final t s with Some _ => true | None => false end in
              let '(acc', (cs, cp)) := cb acc ((w + fw)%Z, spv) final in
              if negb cs || negb cp then Ok (cs, acc') else go acc'
          end
    end.
  (** TropicalWeightTransducer::extract_paths, :2941-2973. *)
  Definition extract_all (fuel : nat) (acc : R) : res R :=
    match t_start t with
    | None => Ok acc
    | Some s =>
        rbind (extract fuel s [] 0 (option_map fdstate_new tab) [] acc) (fun x =>
          Ok (match t_final t s with
              | Some z => fst (cb (snd x) (z, []) true)
              | None => snd x
              end))
    end.
End Extract.

(** ExtractStringsCb_, HfstTransducer.cc:2698-2715. *)
Definition strings_cb (max_num : Z) (paths : list tlp) (p : tlp) (final : bool) : list tlp * (bool * bool) :=
  let paths' := if final then sadd tlpcmp p paths else paths in
  (paths', ((max_num <? 1)%Z || (Z.of_nat (length paths') <? max_num)%Z, true)).
(** HfstTransducer::extract_paths, HfstTransducer.cc:2815-2825 with :2582-2600: is_cyclic()
    is answered by OpenFst and given here as [cyclic]. *)
Definition extract_paths (cyclic : bool) (t : tfst) (fuel : nat) (max_num cycles : Z) (results : list tlp) : res (list tlp) :=
  if cyclic && (max_num <? 1)%Z && (cycles <? 0)%Z then Throw
  else extract_all t (strings_cb max_num) cycles None false fuel results.
(** HfstTransducer::extract_paths_fd, HfstTransducer.cc:2827-2837 with :2624-2651. *)
Definition extract_paths_fd (cyclic : bool) (t : tfst) (fuel : nat) (max_num cycles : Z) (filter_fd : bool) (results : list tlp)
  : res (list tlp) :=
  if cyclic && (max_num <? 1)%Z && (cycles <? 0)%Z then Throw
  else match get_flag_diacritics t with
       | None => Throw
       | Some tb => extract_all t (strings_cb max_num) cycles (Some tb) filter_fd fuel results
       end.
