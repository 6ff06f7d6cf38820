(** Model of the tools that read archives: hfst-head, hfst-tail, and the loop over two archives of
    hfst-concatenate, hfst-disjunct, hfst-conjunct, hfst-subtract, hfst-shuffle, hfst-priority-disjunct,
    hfst-compose and hfst-compare (tools/src).

    Simplifications: an archive is the list of its transducers, of any type [A] (streams of transducers
    are the matter of HST_Model); messages, names and formulas are left out; the operation on two
    transducers is a parameter, which does not change its second operand (that is so without -F). *)
From Verif Require Import Base.

Section Archives.
  Context {A : Type}.

  (** hfst-head.cc:129-142, the loop with transducer_n. *)
  Fixpoint head_loop (instream : list A) (transducer_n head_count : Z) : list A :=
    match instream with
    | [] => []
    | trans :: r => if (transducer_n <? head_count)%Z then trans :: head_loop r (transducer_n + 1) head_count else []
    end.
  (** :160-166. *)
  Fixpoint pop_backs (i : nat) (q : list A) : list A :=
    match i with 0 => q | S j => pop_backs j (match q with [] => [] | _ => removelast q end) end.
  (** hfst-head.cc, process_stream, :127-181. *)
  Definition hfst_head (head_count : Z) (instream : list A) : list A :=
    if (head_count >? 0)%Z then head_loop instream 0 head_count
    else if (head_count <? 0)%Z then pop_backs (Z.to_nat (- head_count)) instream
    else [].

  (** hfst-tail.cc:141-150: the queue last_n. *)
  Fixpoint tail_queue (instream last_n : list A) (tail_count : Z) : list A :=
    match instream with
    | [] => last_n
    | trans :: r =>
        let q := last_n ++ [trans] in
        tail_queue r (if (Z.of_nat (length q) >? tail_count)%Z then tl q else q) tail_count
    end.
  (** :170-180. *)
  Fixpoint tail_skip (instream : list A) (transducer_n tail_count : Z) : list A :=
    match instream with
    | [] => []
    | trans :: r =>
        let n := (transducer_n + 1)%Z in
        if (n >=? - tail_count)%Z then trans :: tail_skip r n tail_count else tail_skip r n tail_count
    end.
  (** process_stream, hfst-tail.cc:134-186. *)
  Definition hfst_tail (tail_count : Z) (instream : list A) : list A :=
    if (tail_count >? 0)%Z then tail_queue instream [] tail_count
    else if (tail_count <? 0)%Z then tail_skip instream 0 tail_count
    else [].
  (** The argument of -n, hfst-tail.cc:113-122: [plus]: it begins with a plus sign. *)
  Definition tail_option (plus : bool) (k : Z) : Z := if plus then (- k)%Z else k.
  (** hfst-tail.cc:56. *)
  Definition tail_default : Z := (-1)%Z.

  Definition is_good (s : list A) : bool := match s with [] => false | _ => true end.

  (** The loop of hfst-concatenate.cc:188-272; so in hfst-disjunct.cc:165-229, hfst-conjunct.cc:184-271,
      hfst-subtract.cc:186-280, hfst-shuffle.cc:170-251, hfst-priority-disjunct.cc:183-253 and
      hfst-compare.cc:144-241.  [n2]: the transducers read from the second stream, [second]: the one in
      use.  The result: what is put out, and what is left of the streams.  Without a transducer: Throw. *)
  Context {C : Type}.
  Variable op : A -> A -> C.
  Fixpoint pair_loop (firststream secondstream : list A) (second : option A) (n2 : nat) : res (list C * list A * list A) :=
    match firststream with
    | [] => Throw
    | first :: firststream' =>
        let '(second', secondstream', n2') := match secondstream with [] => (second, [], n2) | y :: r => (Some y, r, S n2) end in
        match second' with
        | None => Throw
        | Some y =>
            let continueReading := is_good firststream' && (is_good secondstream' || (n2' =? 1)) in
            let second'' := if (continueReading && is_good secondstream') || negb continueReading then None else second' in
            if continueReading then rmap (fun '(o, a, b) => (op first y :: o, a, b)) (pair_loop firststream' secondstream' second'' n2')
            else Ok ([op first y], firststream', secondstream')
        end
    end.
  (** The function around it, hfst-concatenate.cc:121-297: the transducers put out, and whether the exit
      code is 0. *)
  Definition binary_tool (firststream secondstream : list A) : res (list C * bool) :=
    if is_good firststream && is_good secondstream
    then rmap (fun '(o, a, b) => (o, negb (is_good a) && negb (is_good b))) (pair_loop firststream secondstream None 0)
    else Ok ([], negb (is_good firststream) && negb (is_good secondstream)).
End Archives.

(** hfst-compare.cc:134-268: [eq]: compare; whether the exit code is 0. *)
Definition hfst_compare {A} (eq : A -> A -> bool) (firststream secondstream : list A) : res bool :=
  rmap (fun '(o, ok) => ok && forallb id o) (binary_tool eq firststream secondstream).

Section Compose.
  Context {A : Type}.
  Variable op : A -> A -> A.
  (** The loop of hfst-compose.cc:240-377; the loop goes on while one of the streams is good, so [fuel] is
      the number of their transducers.  The first operand is changed in place. *)
  Fixpoint compose_loop (fuel : nat) (firststream secondstream : list A) (first second : option A) (n1 n2 : nat) : res (list A * list A * list A) :=
    match fuel with
    | 0 => Diverge
    | S k =>
        let '(first, firststream, n1) := match firststream with [] => (first, [], n1) | x :: r => (Some x, r, S n1) end in
        let '(second, secondstream, n2) := match secondstream with [] => (second, [], n2) | y :: r => (Some y, r, S n2) end in
        match first, second with
        | Some x, Some y =>
            let x := op x y in
            let continueReading := (is_good firststream && is_good secondstream) || (is_good firststream && (n2 =? 1)) || ((n1 =? 1) && is_good secondstream) in
            if continueReading
            then rmap (fun '(o, a, b) => (x :: o, a, b))
                   (compose_loop k firststream secondstream (if is_good firststream then None else Some x) (if is_good secondstream then None else Some y) n1 n2)
            else Ok ([x], firststream, secondstream)
        | _, _ => Throw
        end
    end.
  (** compose_streams, hfst-compose.cc:177-405. *)
  Definition hfst_compose (firststream secondstream : list A) : res (list A * bool) :=
    if is_good firststream && is_good secondstream
    then rmap (fun '(o, a, b) => (o, negb (is_good a) && negb (is_good b)))
           (compose_loop (length firststream + length secondstream) firststream secondstream None None 0 0)
    else Ok ([], negb (is_good firststream) && negb (is_good secondstream)).
End Compose.
