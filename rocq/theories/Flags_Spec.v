(** The flag-diacritic calculus, stated independently of the code. *)
From Verif Require Import Base.

(** Value of a feature. *)
Inductive fval := Unset | Pos (v : bstr) | Neg (v : bstr).

(** Operations.  R and D may lack a value. *)
Inductive flag :=
| FP (f v : bstr)              (* positive set *)
| FN (f v : bstr)              (* negative set *)
| FR (f : bstr) (v : option bstr)   (* require *)
| FD (f : bstr) (v : option bstr)   (* disallow *)
| FC (f : bstr)                (* clear *)
| FU (f v : bstr).             (* unify *)

Definition no_dot (f : bstr) : Prop := ~ In "."%char f.

(** Written forms. *)
Definition form1 (o : string) (f : bstr) : bstr := B "@" ++ B o ++ B "." ++ f ++ B "@".
Definition form2 (o : string) (f v : bstr) : bstr :=
  B "@" ++ B o ++ B "." ++ f ++ B "." ++ v ++ B "@".

(** [denotes s x]: the string [s] is a written form of the operation [x].
    C ignores a value if one is written. *)
Inductive denotes : bstr -> flag -> Prop :=
| den_P f v : no_dot f -> denotes (form2 "P" f v) (FP f v)
| den_N f v : no_dot f -> denotes (form2 "N" f v) (FN f v)
| den_U f v : no_dot f -> denotes (form2 "U" f v) (FU f v)
| den_R f : no_dot f -> f <> [] -> denotes (form1 "R" f) (FR f None)
| den_D f : no_dot f -> f <> [] -> denotes (form1 "D" f) (FD f None)
| den_C f : no_dot f -> f <> [] -> denotes (form1 "C" f) (FC f)
| den_Rv f v : no_dot f -> denotes (form2 "R" f v) (FR f (Some v))
| den_Dv f v : no_dot f -> denotes (form2 "D" f v) (FD f (Some v))
| den_Cv f v : no_dot f -> denotes (form2 "C" f v) (FC f).

(** The operation carries no empty value ("@P.F.@" and the like). *)
Definition nonempty_value (x : flag) : Prop :=
  match x with
  | FP _ v | FN _ v | FU _ v => v <> []
  | FR _ (Some v) | FD _ (Some v) => v <> []
  | _ => True
  end.

Definition fenv := bstr -> fval.
Definition env0 : fenv := fun _ => Unset.
Definition env_set (e : fenv) (f : bstr) (x : fval) : fenv :=
  fun g => if bstr_eqb g f then x else e g.

(** One step: is the operation allowed, and the environment after it
    (unchanged when it is not allowed). *)
Definition step (x : flag) (e : fenv) : fenv * bool :=
  match x with
  | FP f v => (env_set e f (Pos v), true)
  | FN f v => (env_set e f (Neg v), true)
  | FC f => (env_set e f Unset, true)
  | FR f None => (e, match e f with Unset => false | _ => true end)
  | FR f (Some v) => (e, match e f with Pos u => bstr_eqb u v | _ => false end)
  | FD f None => (e, match e f with Unset => true | _ => false end)
  | FD f (Some v) => (e, match e f with Pos u => negb (bstr_eqb u v) | _ => true end)
  | FU f v =>
      match e f with
      | Unset => (env_set e f (Pos v), true)
      | Pos u => if bstr_eqb u v then (env_set e f (Pos v), true) else (e, false)
      | Neg u => if bstr_eqb u v then (e, false) else (env_set e f (Pos v), true)
      end
  end.

(** Results of a sequence; [None] is a symbol that is not a flag. *)
Fixpoint results (xs : list (option flag)) (e : fenv) : list bool :=
  match xs with
  | [] => []
  | None :: r => true :: results r e
  | Some x :: r => let '(e', b) := step x e in b :: results r e'
  end.

(** A sequence is accepted when every operation is allowed. *)
Definition accepted (xs : list (option flag)) : bool := forallb (fun b => b) (results xs env0).

(** The string [s] read as a symbol: a flag or an ordinary symbol. *)
Definition reads (s : bstr) (x : option flag) : Prop :=
  match x with
  | Some y => denotes s y
  | None => forall y, ~ denotes s y
  end.

(** Last definition of symbol number [k] in a list of definitions. *)
Fixpoint last_def (defs : list (nat * bstr)) (k : nat) : option bstr :=
  match defs with
  | [] => None
  | (k', s) :: r =>
      match last_def r k with
      | Some s' => Some s'
      | None => if Nat.eqb k k' then Some s else None
      end
  end.

(** Meaning of symbol number [k] after the definitions [defs]. *)
Definition symbol_meaning (defs : list (nat * bstr)) (k : nat) (x : option flag) : Prop :=
  match last_def defs k, x with
  | None, None => True
  | Some s, Some y => denotes s y
  | _, _ => False
  end.
