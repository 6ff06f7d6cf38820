(** Matching of patterns in running text (hfst-pmatch, hfst-tokenize).
    Models libhfst/src/implementations/optimized-lookup/pmatch.cc and pmatch.h: process, the
    search through the networks, the choice of the best match, stringify and locatefy; and
    DoubleTape of transducer.h.

    Simplifications (whole file):
    - the tables of a network are given as the list of transitions of each state, in the order of
      the table; the layout of the tables and the lookup in them are the subject of C31, C35
      and C110.  No symbol of the text is epsilon, a flag, the name of a
      network or the passthrough symbol;
    - the values of flags are an environment of the calculus of flags, which the machine of
      HfstFlagDiacritics.h is proved to implement in C02;
    - contexts, captures (and the stack of entry positions, which only they read), counters,
      guards, the limit on time, pattern_counts and the messages of verbose mode are left out;
    - weights are integers, positions are not bounded. *)
From Verif Require Import Base Flags_Spec.

(** TransitionW, transducer.h: input, output, target and weight of a transition. *)
Record parc := PArc { pa_in : nat; pa_out : nat; pa_to : nat; pa_weight : Z }.
(** The tables of a PmatchTransducer, pmatch.h:407-408: final weights (is_final and get_weight,
    :414-430) and transitions.  The start state is 0. *)
Record ptrans := PTrans { pt_final : nat -> option Z; pt_arcs : nat -> list parc }.
(** PmatchAlphabet, pmatch.h:46-84: is_flag_diacritic and get_operation; is_global_flag; has_rtn
    and get_rtn (networks are numbered); the outputs that stand for the symbol read (is_meta_arc
    or a list); the lists that allow a symbol; the Unicode classes it belongs to;
    orig_symbol_count and the three special symbols. *)
Record palpha := PAlpha {
  al_flag : nat -> option flag; al_global : nat -> bool; al_rtn : nat -> option nat; al_meta : nat -> bool;
  al_lists : nat -> list nat; al_classes : nat -> list nat;
  al_orig : nat; al_identity : option nat; al_unknown : option nat; al_default : option nat }.

(** DoubleTape, transducer.h:845-888. *)
Definition tape := list (nat * nat).
Fixpoint write (pos : nat) (x : nat * nat) (t : tape) : tape :=
  match pos, t with
  | O, [] => [x]
  | O, _ :: r => x :: r
  | S p, [] => (0, 0) :: write p x []
  | S p, y :: r => y :: write p x r
  end.
Definition extract_slice (stop : nat) (t : tape) : res tape :=
  if stop <=? length t then Ok (firstn stop t) else Throw.

(** The part of LocalVariables (pmatch.h:391-402) that is modelled: flag_state and
    default_symbol_trap. *)
Record locals := Locals { lv_flags : fenv; lv_trap : bool }.
(** RtnStackFrame, pmatch.h:135-139: caller and caller_index. *)
Definition frame : Type := nat * nat.
(** What has been found: best_result, best_input_pos, best_weight and tape_locations,
    pmatch.h:164, 168, 217-218. *)
Record found_so_far := Best { b_result : tape; b_pos : nat; b_weight : Z; b_locations : list (tape * Z) }.
(** The variables of the container and the local_stack of each network (top first). *)
Record state := State {
  s_weight : Z; s_depth : nat; s_stacks : list (list frame); s_locals : nat -> list locals;
  s_global : fenv; s_tape : tape; s_best : found_so_far }.
Definition set_weight (w : Z) (s : state) : state := State w (s_depth s) (s_stacks s) (s_locals s) (s_global s) (s_tape s) (s_best s).
Definition set_depth (d : nat) (s : state) : state := State (s_weight s) d (s_stacks s) (s_locals s) (s_global s) (s_tape s) (s_best s).
Definition set_stacks (k : list (list frame)) (s : state) : state := State (s_weight s) (s_depth s) k (s_locals s) (s_global s) (s_tape s) (s_best s).
Definition set_locals (T : nat) (l : list locals) (s : state) : state :=
  State (s_weight s) (s_depth s) (s_stacks s) (fun U => if U =? T then l else s_locals s U) (s_global s) (s_tape s) (s_best s).
Definition set_global (e : fenv) (s : state) : state := State (s_weight s) (s_depth s) (s_stacks s) (s_locals s) e (s_tape s) (s_best s).
Definition set_tape (t : tape) (s : state) : state := State (s_weight s) (s_depth s) (s_stacks s) (s_locals s) (s_global s) t (s_best s).
Definition set_best (b : found_so_far) (s : state) : state := State (s_weight s) (s_depth s) (s_stacks s) (s_locals s) (s_global s) (s_tape s) b.

(** local_stack.top(). *)
Definition top (T : nat) (s : state) : res locals := match s_locals s T with [] => Ub | l :: _ => Ok l end.
Definition set_top (T : nat) (l : locals) (s : state) : state := set_locals T (l :: tl (s_locals s T)) s.
Definition set_trap (T : nat) (b : bool) (s : state) : res state :=
  rmap (fun l => set_top T (Locals (lv_flags l) b) s) (top T s).

(** A loop over the transitions. *)
Fixpoint rfor {A} (f : A -> state -> res state) (l : list A) (s : state) : res state :=
  match l with [] => Ok s | x :: r => rbind (f x s) (rfor f r) end.

(** push_rtn_call, pmatch.cc:1121-1136; rtn_stack_top, :1138-1142; rtn_stack_pop, :1150-1154. *)
Fixpoint on_stack (d : nat) (f : list frame -> list frame) (k : list (list frame)) : list (list frame) :=
  match d, k with
  | _, [] => []
  | O, x :: r => f x :: r
  | S d, x :: r => x :: on_stack d f r
  end.
Definition push_rtn_call (fr : frame) (s : state) : state :=
  set_stacks (if length (s_stacks s) <=? s_depth s then s_stacks s ++ [[fr]] else on_stack (s_depth s) (cons fr) (s_stacks s)) s.
Definition stack_back (d : nat) (s : state) : res frame :=
  match nth_error (s_stacks s) d with Some (fr :: _) => Ok fr | _ => Ub end.
Definition rtn_stack_pop (s : state) : res state :=
  match nth_error (s_stacks s) (s_depth s) with
  | Some (_ :: _) => Ok (set_stacks (on_stack (s_depth s) (@tl frame) (s_stacks s)) s)
  | _ => Ub
  end.
(** increase_stack_depth and decrease_stack_depth, pmatch.h:284-291. *)
Definition increase_stack_depth (s : state) : state := set_depth (S (s_depth s)) s.
Definition decrease_stack_depth (s : state) : res state :=
  match s_depth s with O => Throw | S d => Ok (set_depth d s) end.

(** note_analysis, :2014-2038. *)
Definition note_analysis (pos tpos : nat) (s : state) : res state :=
  let b := s_best s in
  if (b_pos b <? pos) || ((pos =? b_pos b) && (s_weight s <? b_weight b)%Z) then
    rmap (fun t => set_best (Best t pos (s_weight s) (b_locations b)) s) (extract_slice tpos (s_tape s))
  else Ok s.
(** grab_location, :2040-2062. *)
Definition grab_location (pos tpos : nat) (s : state) : res state :=
  let b := s_best s in
  let keep := match b_locations b with [] => true | _ => false end in
  if negb keep && (pos <? b_pos b) then Ok s
  else
    let old := if negb keep && (b_pos b <? pos) then [] else b_locations b in
    rmap (fun t => set_best (Best (b_result b) pos (b_weight b) (old ++ [(t, s_weight s)])) s) (extract_slice tpos (s_tape s)).

Section Search.
  Variable nets : nat -> ptrans.
  Variable al : palpha.
  Variable input : list nat.
  (** max_weight; None stands for INFINITE_WEIGHT. *)
  Variable max_weight : option Z.
  Variable locate_mode : bool.

  Section Body.
    (** get_analyses with one level of recursion less. *)
    Variable rec : nat -> nat -> nat -> nat -> state -> res state.

    (** rtn_call, :1950-1968, on network [U], called by [T]; the start state is 0. *)
    Definition rtn_call (U pos tpos T target : nat) (s : state) : res state :=
      let s := increase_stack_depth (push_rtn_call (target, T) s) in
      rbind (top U s) (fun _ =>
      let s := set_locals U (Locals env0 false :: s_locals s U) s in
      rbind (rec U pos tpos 0 s) (fun s =>
      rbind (top U s) (fun _ =>
      let s := set_locals U (tl (s_locals s U)) s in
      rbind (decrease_stack_depth s) rtn_stack_pop))).
    (** rtn_return, :1988-1996, on network [C]. *)
    Definition rtn_return (C pos tpos : nat) (s : state) : res state :=
      rbind (decrease_stack_depth s) (fun s =>
      rbind (stack_back (s_depth s) s) (fun fr =>
      rmap increase_stack_depth (rec C pos tpos (fst fr) s))).
    (** handle_final_state, :1998-2012, with get_latest_rtn_caller, :1144-1148. *)
    Definition handle_final_state (pos tpos : nat) (s : state) : res state :=
      match s_depth s with
      | S d => rbind (stack_back d s) (fun fr => rtn_return (snd fr) pos tpos s)
      | O => if locate_mode then grab_location pos tpos s else note_analysis pos tpos s
      end.
    (** take_flag, :2275-2306. *)
    Definition take_flag (f : flag) (global : bool) (T pos tpos target : nat) (s : state) : res state :=
      let old_global := s_global s in
      let '(g', allowed) := if global then step f old_global else (old_global, true) in
      let s := set_global g' s in
      if negb allowed then Ok s
      else
        rbind (top T s) (fun l =>
        let old := lv_flags l in
        let '(e', ok) := step f old in
        let s := set_top T (Locals e' (lv_trap l)) s in
        rbind (if ok : bool then rec T pos tpos target s else Ok s) (fun s =>
        let s := if global then set_global old_global s else s in
        rbind (top T s) (fun l => Ok (set_top T (Locals old (lv_trap l)) s)))).

    (** One round of the loop in take_epsilons, :2113-2236, outside contexts. *)
    Definition take_epsilon (T pos tpos : nat) (a : parc) (s : state) : res state :=
      let old := s_weight s in
      let s := set_weight (old + pa_weight a)%Z s in
      rmap (set_weight old)
        (if pa_in a =? 0 then rec T pos (S tpos) (pa_to a) (set_tape (write tpos (0, pa_out a) (s_tape s)) s)
         else match al_flag al (pa_in a) with
              | Some f => take_flag f (al_global al (pa_in a)) T pos tpos (pa_to a) s
              | None => match al_rtn al (pa_in a) with
                        | Some U => rtn_call U pos tpos T (pa_to a) s
                        | None => Ok s
                        end
              end).
    (** The transitions that take_epsilons goes through, :2113-2120. *)
    Definition free (a : parc) : bool :=
      (pa_in a =? 0) || (match al_flag al (pa_in a) with Some _ => true | None => false end) ||
      (match al_rtn al (pa_in a) with Some _ => true | None => false end).
    Definition take_epsilons (T pos tpos i : nat) (s : state) : res state :=
      rfor (take_epsilon T pos tpos) (filter free (pt_arcs (nets T) i)) s.

    (** One round of the loop in take_transitions, :2318-2386, outside contexts; [x] is the
        symbol at the position in the text. *)
    Definition take_transition (T pos tpos x : nat) (a : parc) (s : state) : res state :=
      let old := s_weight s in
      let s := set_weight (old + pa_weight a)%Z s in
      let pair := if al_meta al (pa_out a) then (x, x) else (pa_in a, pa_out a) in
      rbind (rec T (S pos) (S tpos) (pa_to a) (set_tape (write tpos pair (s_tape s)) s)) (fun s =>
      rmap (set_weight old) (set_trap T false s)).
    Definition take_transitions (k : nat) (T pos tpos x i : nat) (s : state) : res state :=
      rfor (take_transition T pos tpos x) (filter (fun a => pa_in a =? k) (pt_arcs (nets T) i)) s.

    Definition opt (o : option nat) : list nat := match o with Some k => [k] | None => [] end.
    (** The symbols under which transitions for the symbol [x] are looked for, before the default
        symbol, :2448-2514. *)
    Definition tried (x : nat) : list nat :=
      al_lists al x ++ al_classes al x ++
      (if x <? al_orig al then [x] else opt (al_identity al) ++ opt (al_unknown al)).

    (** get_analyses, :2388-2524, after the checks of the limits. *)
    Definition body (T pos tpos i : nat) (s : state) : res state :=
      rbind (set_trap T true s) (fun s =>
      rbind (take_epsilons T pos tpos i s) (fun s =>
      rbind (match pt_final (nets T) i with
             | Some w =>
                 let old := s_weight s in
                 rmap (set_weight old) (handle_final_state pos tpos (set_weight (old + w)%Z s))
             | None => Ok s
             end) (fun s =>
      match nth_error input pos with
      | None => Ok s
      | Some x =>
          rbind (rfor (fun k => take_transitions k T pos tpos x i) (tried x) s) (fun s =>
          match al_default al with
          | None => Ok s
          | Some k => rbind (top T s) (fun l => if lv_trap l then take_transitions k T pos tpos x i s else Ok s)
          end)
      end))).
  End Body.

  (** get_analyses, :2388-2524; [depth] is recursion_depth_left (try_recurse and unrecurse,
      pmatch.h:305-315). *)
  Fixpoint get_analyses (depth : nat) (T pos tpos i : nat) (s : state) : res state :=
    if match max_weight with Some m => (m <? s_weight s)%Z | None => false end then Ok s
    else match depth with
         | O => Ok s
         | S depth => body (get_analyses depth) T pos tpos i s
         end.

  (** match, :1939-1948. *)
  Definition match_at (depth pos : nat) (s : state) : res state :=
    rbind (top 0 s) (fun l => get_analyses depth 0 pos 0 0 (set_top 0 (Locals (lv_flags l) false) s)).
End Search.

(** * Tags and text *)
(** The part of PmatchAlphabet that stringify and locatefy use: is_printable (:192-196), the
    special symbols entry and exit, the names of end tags (end_tag_map) and the symbols'
    strings. *)
Record names := Names {
  n_printable : nat -> bool; n_entry : nat -> bool; n_exit : nat -> bool; n_tag : nat -> option bstr; n_string : nat -> bstr }.
(** start_tag and end_tag, :1025-1049. *)
Definition start_tag (t : bstr) : bstr := B "<" ++ t ++ B ">".
Definition end_tag (t : bstr) : bstr := B "</" ++ t ++ B ">".
(** delete_patterns, mark_patterns and extract_patterns, pmatch.h:180-184. *)
Record options := Options { o_delete : bool; o_mark : bool; o_extract : bool }.

(** stringify, :1471-1541. *)
Fixpoint stringify (nm : names) (o : options) (seen : bool) (starts : list nat) (acc : bstr) (t : tape) : bstr :=
  match t with
  | [] => acc
  | (i, k) :: r =>
      let seen := seen || n_printable nm i in
      if n_entry nm k then stringify nm o seen (length acc :: starts) acc r
      else if n_exit nm k then stringify nm o seen (tl starts) acc r
      else match n_tag nm k with
           | Some tag =>
               let pos := hd 0 starts in
               let acc :=
                 if o_delete o then firstn pos acc ++ start_tag tag
                 else if o_mark o && seen then firstn pos acc ++ start_tag tag ++ skipn pos acc ++ end_tag tag
                 else acc in
               stringify nm o seen starts acc r
           | None =>
               let acc := if (negb (o_extract o) || negb (match starts with [] => true | _ => false end)) && n_printable nm k
                          then acc ++ n_string nm k else acc in
               stringify nm o seen starts acc r
           end
  end.

(** Location, pmatch.h:343-359, without the parts. *)
Record location := Loc { l_start : nat; l_length : nat; l_input : bstr; l_output : bstr; l_tag : bstr; l_weight : Z }.
(** The loop of locatefy, :1556-1597; [n] is input_offset. *)
Fixpoint locate_loop (nm : names) (t : tape) (n : nat) (inp out tag : bstr) : nat * bstr * bstr * bstr :=
  match t with
  | [] => (n, inp, out, tag)
  | (i, k) :: r =>
      match n_tag nm k with
      | Some g => locate_loop nm r n inp out (start_tag g)
      | None =>
          let out := if n_printable nm k then out ++ n_string nm k else out in
          if n_printable nm i then locate_loop nm r (S n) (inp ++ n_string nm i) out tag
          else locate_loop nm r n inp out tag
      end
  end.
(** locatefy, :1543-1608. *)
Definition locatefy (nm : names) (offset : nat) (tw : tape * Z) : location :=
  let '(n, inp, out, tag) := locate_loop nm (fst tw) offset [] [] [] in
  Loc offset (n - offset) inp out tag (snd tw).

(** std::sort with Location::operator<, pmatch.h:357; the order of equal weights is not
    determined by the standard and is kept here. *)
Fixpoint insert_location (l : location) (ls : list location) : list location :=
  match ls with
  | [] => [l]
  | m :: r => if (l_weight m <=? l_weight l)%Z then m :: insert_location l r else l :: ls
  end.
Definition sort_locations (ls : list location) : list location := fold_left (fun acc l => insert_location l acc) ls [].

(** * The text *)
(** not_possible_first_symbol, pmatch.h:239-246. *)
Definition not_possible_first_symbol (first : list bool) (x : nat) : bool :=
  match first with [] => false | _ => negb (nth x first false) end.
Definition is_empty {A} (l : list A) : bool := match l with [] => true | _ => false end.
(** candidate_found, pmatch.h:297-304. *)
Definition candidate_found (locate_mode : bool) (s : state) : bool :=
  if locate_mode then negb (is_empty (b_locations (s_best s))) else negb (is_empty (b_result (s_best s))).

(** The variables of process, :1208-1338, besides the state of the search: result, locations,
    printable_input_pos and nonmatching_locations. *)
Record progress := Progress { p_result : tape; p_locations : list (list location); p_printable : nat; p_nonmatching : tape }.
(** The lines :1267-1287 and :1322-1337. *)
Definition flush (nm : names) (p : progress) : progress :=
  match p_nonmatching p with
  | [] => p
  | _ =>
      let l := locatefy nm (p_printable p - length (p_nonmatching p)) (p_nonmatching p, 0%Z) in
      Progress (p_result p) (p_locations p ++ [[Loc (l_start l) (l_length l) (l_input l) (B "@_NONMATCHING_@") (l_tag l) (l_weight l)]])
        (p_printable p) []
  end.
(** The lines :1242-1249 and :1312-1319: the symbol is copied. *)
Definition pass_over (nm : names) (locate_mode : bool) (x : nat) (p : progress) : progress :=
  let result := p_result p ++ [(x, x)] in
  if locate_mode && n_printable nm x then Progress result (p_locations p) (S (p_printable p)) (p_nonmatching p ++ [(x, x)])
  else Progress result (p_locations p) (p_printable p) (p_nonmatching p).

Section Process.
  Variable nets : nat -> ptrans.
  Variable al : palpha.
  Variable nm : names.
  Variable first : list bool.
  Variable max_recursion : nat.
  Variable max_weight : option Z.
  Variable locate_mode : bool.
  Variable input : list nat.

  (** The loop of process, :1236-1321. *)
  Fixpoint process_loop (fuel : nat) (pos : nat) (p : progress) (s : state) : res (progress * state) :=
    match nth_error input pos with
    | None => Ok (p, s)
    | Some x =>
        match fuel with
        | O => Diverge
        | S fuel =>
            let b := s_best s in
            if not_possible_first_symbol first x then
              process_loop fuel (S pos) (pass_over nm locate_mode x p) (set_best (Best [] (b_pos b) (b_weight b) (b_locations b)) s)
            else
              let s := set_tape [] (set_best (Best [] (b_pos b) (b_weight b) []) s) in
              rbind (match_at nets al input max_weight locate_mode max_recursion pos s) (fun s =>
              let b := s_best s in
              if candidate_found locate_mode s then
                let p :=
                  if locate_mode then
                    let p := flush nm p in
                    Progress (p_result p)
                      (p_locations p ++ [sort_locations (map (locatefy nm (p_printable p)) (b_locations b))])
                      (p_printable p + (b_pos b - pos)) (p_nonmatching p)
                  else Progress (p_result p ++ b_result b) (p_locations p) (p_printable p) (p_nonmatching p) in
                if b_pos b =? pos then process_loop fuel (S (b_pos b)) (pass_over nm locate_mode x p) s
                else process_loop fuel (b_pos b) p s
              else process_loop fuel (S pos) (pass_over nm locate_mode x p) s)
        end
    end.
  (** process, :1208-1338. *)
  Definition process (s : state) : res (progress * state) :=
    let b := s_best s in
    let s := set_best (Best (b_result b) 0 (b_weight b) (b_locations b)) (set_depth 0 (set_weight 0%Z s)) in
    rmap (fun '(p, s) => (if locate_mode then flush nm p else p, s))
      (process_loop (length input) 0 (Progress [] [] 0 []) s).
End Process.

(** match and locate, :1342-1378. *)
Definition match_text nets al nm opts first max_recursion max_weight input (s : state) : res (bstr * state) :=
  rmap (fun '(p, s) => (stringify nm opts false [] [] (p_result p), s))
    (process nets al nm first max_recursion max_weight false input s).
Definition locate_text nets al nm first max_recursion max_weight input (s : state) : res (list (list location) * state) :=
  rmap (fun '(p, s) => (p_locations p, s))
    (process nets al nm first max_recursion max_weight true input s).

(** The container as it is made (constructors, :523-870, and of PmatchTransducer,
    :1645-1735): empty stacks, one set of variables for each network, no flag set.  best_weight
    is not initialised. *)
Definition new_container (best_weight : Z) : state :=
  State 0%Z 0 [] (fun _ => [Locals env0 false]) env0 [] (Best [] 0 best_weight []).
