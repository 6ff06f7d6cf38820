(** Model of tools/src/hfst-expand-equivalences.cc (line numbers refer to it), with the operations
    of HfstTransducer as in PU_Model.v and Co_Model.v.
    Simplifications: the XML file of option -a is left out, and so is what strings of bytes mean
    as symbols; the file has no zero bytes; the closure of the back end is given by its meaning
    (EE_Spec.starred). *)
From Verif Require Import Base BT_Model Harm_Model Co_Spec Co_Model PU_Spec PU_Model BT_Spec EE_Spec.

(** HfstTransducer(isymbol, osymbol, type). *)
Definition pair_fst (i o : bstr) : graph := Graph [[Arc 1 i o 0]; []] [(1, 0%Z)] (sadd bcmp o (sadd bcmp i (initialize_alphabet []))).
Definition identity_fst : graph := pair_fst IDN IDN.
(** add_extension, :224-231, for each pair. *)
Fixpoint add_extensions (e : graph) (exts : list (bstr * bstr)) : res graph -> Prop :=
  match exts with
  | [] => fun r => r = Ok e
  | (from, to) :: l => andthen (disjunct e (pair_fst from to)) (fun e' => add_extensions e' l)
  end.
(** The extensions, :240-241 and extensions->minimize().repeat_star().minimize(), :386. *)
Definition extensions (exts : list (bstr * bstr)) : res graph -> Prop :=
  andthen (add_extensions identity_fst exts) (fun e => andthen (optimize e) (fun e => andthen (gives (starred e)) optimize)).
(** invert. *)
Definition invert (g : graph) : graph := with_sts g (map (map (fun a => Arc (tgt a) (osy a) (isy a) (wt a))) (sts g)).
(** compose, whose result has transitions to its own states only. *)
Definition compose_fst (g1 g2 : graph) (r : res graph) : Prop :=
  compose g1 g2 r /\ match r with Ok h => structure_ok h | _ => True end.
Inductive fsa_level := first_level | second_level | both_levels.
(** :387-404. *)
Definition apply_extensions (level : fsa_level) (e trans : graph) : res graph -> Prop :=
  match level with
  | both_levels => andthen (compose_fst trans e) (compose_fst (invert e))
  | first_level => compose_fst (invert e) trans
  | second_level => compose_fst trans e
  end.
Definition expand (level : fsa_level) (exts : list (bstr * bstr)) (trans : graph) : res graph -> Prop :=
  andthen (extensions exts) (fun e => apply_extensions level e trans).

(** * The file of option -T, :248-318 *)
Definition TAB : ascii := "009"%char.
Definition NL : ascii := "010"%char.
(** getline until the end: the lines with their newlines. *)
Fixpoint lines_of (s cur : bstr) : list bstr :=
  match s with
  | [] => match cur with [] => [] | _ => [rev cur] end
  | c :: r => if Ascii.eqb c NL then rev (c :: cur) :: lines_of r [] else lines_of r (c :: cur)
  end.
(** strstr(l, TAB): what is before the first tab and what is after it. *)
Fixpoint at_tab (l : bstr) : option (bstr * bstr) :=
  match l with
  | [] => None
  | c :: r => if Ascii.eqb c TAB then Some ([], r) else match at_tab r with Some (x, y) => Some (c :: x, y) | None => None end
  end.
(** Up to the newline or the end, :303-306. *)
Fixpoint to_end (l : bstr) : bstr :=
  match l with [] => [] | c :: r => if Ascii.eqb c NL then [] else c :: to_end r end.
(** The fields after the first, :281-317; [n] bounds the number of steps. *)
Fixpoint fields (n : nat) (from l : bstr) : res (list (bstr * bstr)) :=
  match at_tab l with
  | Some ([], _) => Throw
  | Some (to, r) => match n with 0 => Diverge | S n => rmap (cons (from, to)) (fields n from r) end
  | None => match to_end l with [] => Throw | to => Ok [(from, to)] end
  end.
(** One line, :256-317. *)
Definition read_line (l : bstr) : res (list (bstr * bstr)) :=
  let first := match l with [] => "000"%char | c :: _ => c end in
  if Ascii.eqb first NL then Ok []
  else match at_tab l with
       | None => if Ascii.eqb first "#"%char then Ok [] else Throw
       | Some ([], _) => Throw
       | Some (from, r) => fields (length r) from r
       end.
Fixpoint read_lines (ls : list bstr) : res (list (bstr * bstr)) :=
  match ls with
  | [] => Ok []
  | l :: r => rbind (read_line l) (fun x => rmap (app x) (read_lines r))
  end.
Definition read_tsv (s : bstr) : res (list (bstr * bstr)) := read_lines (lines_of s []).

(** * process_stream, :234-408 *)
(** Options -f and -t, or what is left of the file of option -T. *)
Inductive source := given_pair (from to : bstr) | rest_of_file (s : bstr).
Definition read_source (src : source) : res (list (bstr * bstr)) * source :=
  match src with
  | given_pair from to => (Ok [(from, to)], src)
  | rest_of_file s => (read_tsv s, rest_of_file [])
  end.
(** The transducers read and what is written; an error ends the program. *)
Inductive process (level : fsa_level) : source -> list graph -> list (res graph) -> Prop :=
| pr_end src : process level src [] []
| pr_one src t ts exts r rs : fst (read_source src) = Ok exts -> expand level exts t r ->
    process level (snd (read_source src)) ts rs -> process level src (t :: ts) (r :: rs)
| pr_error src t ts : fst (read_source src) = Throw -> process level src (t :: ts) [Throw].
