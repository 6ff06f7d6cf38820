(** Model of the tools that copy a transducer state by state: tools/src/hfst-reweight.cc,
    hfst-kill-paths.cc and hfst-preprocess-for-optimized-lookup-format.cc.
    Simplifications: weights are integers; the conversions between the back end and basic
    transducers keep the transducers as they are; the removal of epsilons before a transducer is
    written (hfst-reweight.cc:496, hfst-kill-paths.cc:261) is left out; symbols have no zero
    bytes (the tool compares them with strcmp); names and messages are left out. *)
From Verif Require Import Base BT_Model RW_Spec.

(** * The copying loop *)
(** replication, rebuilt, state_count. *)
Record copying := Copying { c_rep : graph; c_known : list (nat * nat); c_count : nat }.
Section Rebuild.
  Variable g : graph.                 (* original *)
  Variable f : arc -> option Z.       (* the weight of the copy, None = not copied *)
  Variable ff : Z -> Z.               (* the final weight of the copy *)
  (** hfst-reweight.cc:371-382 and :387-399: a state seen for the first time.  The final weight of
      a final state is read with get_final_weight, which does not throw for existing states. *)
  Definition ensure (s : nat) (c : copying) : copying :=
    match mget Nat.compare s (c_known c) with
    | Some _ => c
    | None =>
        let r := add_state_n (c_rep c) (c_count c) in
        let r := match finw g s with Some w => set_final_weight r (c_count c) (ff w) | None => r end in
        Copying r (mset Nat.compare s (c_count c) (c_known c)) (S (c_count c))
    end.
  (** rebuilt[s] of a known state. *)
  Definition rebuilt (c : copying) (s : nat) : nat := match mget Nat.compare s (c_known c) with Some k => k | None => 0 end.
  (** hfst-reweight.cc:383-406, hfst-kill-paths.cc:172-198. *)
  Definition copy_arc (s : nat) (c : copying) (a : arc) : copying :=
    match f a with
    | None => c
    | Some w =>
        let c := ensure (tgt a) c in
        Copying (add_transition (c_rep c) (rebuilt c s) (Arc (rebuilt c (tgt a)) (isy a) (osy a) w) true) (c_known c) (c_count c)
    end.
  Fixpoint copy_states (s : nat) (ls : list (list arc)) (c : copying) : copying :=
    match ls with
    | [] => c
    | l :: r => copy_states (S s) r (fold_left (copy_arc s) l (ensure s c))
    end.
  (** hfst-reweight.cc:354-411; [initial]: whether the finality of state 0 is copied, :362-366. *)
  Definition rebuild (initial : bool) : graph :=
    let r := if initial then match finw g 0 with Some w => set_final_weight empty_graph 0 (ff w) | None => empty_graph end else empty_graph in
    c_rep (copy_states 0 (sts g) (Copying r [(0, 0)] 1)).
End Rebuild.

(** * hfst-reweight.cc *)
(** w < lower_bound || w > upper_bound; upper_bound is FLT_MAX by default = None. *)
Definition out_of_bounds (q : request) (w : Z) : bool :=
  (w <? q_lower q)%Z || match q_upper q with Some u => (u <? w)%Z | None => false end.
Definition differs (x : bstr) (o : option bstr) : bool := match o with Some s => negb (bstr_eqb x s) | None => false end.
Definition given (o : option bstr) : bool := match o with Some _ => true | None => false end.
(** reweight, :306-352; no symbols for final weights. *)
Definition reweight (q : request) (w : Z) (io : option (bstr * bstr)) : Z :=
  if out_of_bounds q w then w
  else
    let changed := (q_mult q * q_func q w + q_add q)%Z in
    match io with
    | None => if q_arcs_only q then w else changed
    | Some (i, o) =>
        if q_ends_only q then w
        else if given (q_symbol q) && (differs i (q_symbol q) && differs o (q_symbol q)) then w
        else if given (q_input q) && given (q_output q) && differs i (q_input q) && differs o (q_output q) then w
        else if given (q_input q) && differs i (q_input q) then w
        else if given (q_output q) && differs o (q_output q) then w
        else changed
    end.
(** do_reweight, :354-411. *)
Definition do_reweight (q : request) (g : graph) : graph :=
  rebuild g (fun a => Some (reweight q (wt a) (Some (label a)))) (fun w => reweight q w None) true.

(** The options before any are read, :62-71. *)
Definition defaults : request := Request 0 1 (fun w => w) 0 None None None None false false.

(** process_stream with a file of rules, :443-495.  The variables addition, multiplier and symbol
    live in [q]; [num] is hfst_strtoweight, None = exit. *)
Definition TAB : ascii := "009"%char.
Definition NL : ascii := "010"%char.
Fixpoint up_to (c : ascii) (l : bstr) : option (bstr * bstr) :=
  match l with
  | [] => None
  | x :: r => if Ascii.eqb x c then Some ([], r) else option_map (fun '(a, b) => (x :: a, b)) (up_to c r)
  end.
Definition before_newline (l : bstr) : bstr := match up_to NL l with Some (a, _) => a | None => l end.
Section Tsv.
  Variable num : bstr -> option Z.
  Definition with_line (q : request) (line : bstr) : res (option request) :=
    match line with
    | c :: _ =>
        if Ascii.eqb c NL then Ok None
        else if Ascii.eqb c "#" then Ok None
        else
          match up_to TAB line with
          | None => Throw
          | Some (s, rest) =>
              let set a m := Ok (Some (Request a m (q_func q) (q_lower q) (q_upper q) (Some s) (q_input q) (q_output q) (q_ends_only q) (q_arcs_only q))) in
              match before_newline rest with
              | "+"%char :: n => match num n with Some v => set v (q_mult q) | None => Throw end
              | n => match num n with Some v => set (q_add q) v | None => Throw end
              end
          end
    | [] => Throw
    end.
  Fixpoint reweight_lines (q : request) (lines : list bstr) (g : graph) : res graph :=
    match lines with
    | [] => Ok g
    | l :: r =>
        rbind (with_line q l) (fun o =>
        match o with
        | None => reweight_lines q r g
        | Some q' => reweight_lines q' r (do_reweight q' g)
        end)
    end.
  (** :447-448: addition and multiplier are reset for each transducer. *)
  Definition reweight_file (q : request) (lines : list bstr) (g : graph) : res graph :=
    reweight_lines (Request 0 1 (q_func q) (q_lower q) (q_upper q) (q_symbol q) (q_input q) (q_output q) (q_ends_only q) (q_arcs_only q)) lines g.
End Tsv.

(** * hfst-kill-paths.cc *)
(** do_killing, :145-203. *)
Definition do_killing (symbol : bstr) (g : graph) : graph :=
  rebuild g (fun a => if bstr_eqb (isy a) symbol || bstr_eqb (osy a) symbol then None else Some (wt a)) (fun w => w) true.
(** process_stream with a file of symbols, :229-260. *)
Fixpoint kill_lines (lines : list bstr) (g : graph) : graph :=
  match lines with
  | [] => g
  | l :: r =>
      if match l with c :: _ => Ascii.eqb c NL || Ascii.eqb c "#" | [] => false end then kill_lines r g
      else kill_lines r (do_killing (before_newline l) g)
  end.

(** * hfst-preprocess-for-optimized-lookup-format.cc *)
(** :141-186. *)
Definition preprocess (g : graph) : graph := rebuild g (fun a => Some (wt a)) (fun w => w) false.
