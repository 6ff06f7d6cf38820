(** Formulaic definitions, independently of the tools. *)
From Verif Require Import Base.

(** A part without a definition is written as a full stop. *)
Definition part (definition shown : bstr) : Prop := definition <> [] /\ shown = definition \/ definition = [] /\ shown = B ".".
(** A formula longer than 1024 bytes is not kept. *)
Definition kept (full formula : bstr) : Prop := length full <= 1024 /\ formula = full \/ 1024 < length full /\ formula = B "TRUNC".
