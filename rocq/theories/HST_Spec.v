(** What the stream header properties say. *)
From Coq Require Import Sorted.
From Verif Require Import Base OrdMap OLF_Model OLF_Spec HST_Model.

(** A property map as std::map holds it: keys in increasing order, so at most one value per
    key; no NUL bytes (the format cannot store them). *)
Definition props_ok (props : list (bstr * bstr)) : Prop :=
  StronglySorted (klt bcmp) (map fst props)
  /\ Forall (fun p => nul_free (fst p) /\ nul_free (snd p)) props.

(** Property names a user can set: the two others are written by the library itself. *)
Definition user_key (k : bstr) : Prop := k <> B "type" /\ k <> B "version".

(** The value of [k] in the last of a sequence of property maps that has one, or the empty
    string, which stands for no value. *)
Definition latest (k : bstr) (hist : list (list (bstr * bstr))) : bstr :=
  fold_left (fun d p => match mget bcmp k p with Some v => v | None => d end) hist [].

(** A transducer that can be saved in a stream of type [t]. *)
Definition savable (t : ftype) (x : list (bstr * bstr) * transducer) : Prop :=
  props_ok (fst x) /\ consistent (snd x) /\ canonical_tables (snd x).

(** Plain ASCII text is valid UTF-8. *)
Definition utf8_ok (valid : bstr -> bool) : Prop :=
  forall s, Forall (fun c => (N_of_ascii c < 128)%N) s -> valid s = true.
