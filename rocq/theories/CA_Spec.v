(** Specification vocabulary for hfst-check-alpha and hfst-dump-alphabets. *)
From Verif Require Import Base BT_Model SU_Spec.
From Coq Require Import Sorted.

(** In byte order, and so without repetitions. *)
Definition in_byte_order (l : list bstr) : Prop := StronglySorted (fun x y => bcmp x y = Lt) l.
(** The symbols [x] with [P] but not [Q]. *)
Definition lists_difference (l : list bstr) (P Q : bstr -> Prop) : Prop := in_byte_order l /\ forall x, In x l <-> P x /\ ~ Q x.
Definition in_alphabet (g : graph) (x : bstr) : Prop := In x (alpha g).
(** The same symbols on the transitions and in the alphabets. *)
Definition same_symbols (g h : graph) : Prop :=
  (forall x, occurs g x <-> occurs h x) /\ (forall x, in_alphabet g x <-> in_alphabet h x).
(** A symbol that looks like a tag: at least three bytes, the first one +, space or @. *)
Definition tag_like (x : bstr) : Prop :=
  exists c d e r, x = c :: d :: e :: r /\ (c = "+"%char \/ c = " "%char \/ c = "@"%char).

(** The three formats: the line for a symbol and the text before and after the lines. *)
Inductive format := TSV | VISLCG3_LIST | VISLCG3_TAGS.
Definition in_lines (ls : list bstr) : bstr := concat (map (fun l => l ++ ["010"%char]) ls).
Definition line_for (f : format) (x : bstr) : bstr :=
  in_lines [match f with TSV => x | VISLCG3_LIST => concat [B "LIST "; x; B " = "; x; B " ;"] | VISLCG3_TAGS => "009"%char :: x end].
Definition text_before (f : format) : bstr :=
  in_lines match f with
    | TSV => []
    | VISLCG3_LIST => [B "## automatically generated VISL CG 3 file from HFST automaton's alphabet data:"; B "## (some statistics here TODO)"]
    | VISLCG3_TAGS => [B "## automatically generated VISL CG 3 file from HFST automaton's alphabet data:"; B "## (some statistics here TODO)"; B "STRICT-TAGS +="]
    end.
Definition text_after (f : format) : bstr := in_lines match f with VISLCG3_TAGS => ["009"%char :: B ";"] | _ => [] end.
