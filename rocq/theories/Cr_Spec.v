(** Specification vocabulary for the cross product. *)
From Verif Require Import Base Flags_Model BT_Model BT_Spec Harm_Spec Co_Spec PU_Spec.

(** A transducer accepts a string if it relates it to itself. *)
Definition word (g : graph) (x : list bstr) (w : Z) : Prop := related g x x w.
(** Recognizers: in every accepted sequence each symbol is paired with itself. *)
Definition recognizer (g : graph) : Prop := forall l w p, pair_string g l w -> In p l -> fst p = snd p.

(** What two more operations of the back end must do, where labels are compared literally:
    concatenation, and the comparison of two transducers. *)
Definition concatenated (g1 g2 m : graph) : Prop :=
  labels_from [g1; g2] m /\ alpha m = alpha g1 /\
  (forall l w, label_string m l w <->
     exists l1 w1 l2 w2, label_string g1 l1 w1 /\ label_string g2 l2 w2 /\ l = l1 ++ l2 /\ w = (w1 + w2)%Z).
Definition as_light (g1 g2 : graph) : Prop :=
  forall l w, label_string g2 l w -> exists w', label_string g1 l w' /\ (w' <= w)%Z.
Definition equivalent (g1 g2 : graph) : Prop := as_light g1 g2 /\ as_light g2 g1.
