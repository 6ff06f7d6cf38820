(** Specification vocabulary for hfst-expand-equivalences. *)
From Verif Require Import Base Flags_Model BT_Model BT_Spec Harm_Spec Co_Spec PU_Spec.

(** Each symbol is a variant of itself, and the second of two given symbols is one of the first. *)
Definition variant (exts : list (bstr * bstr)) (a b : bstr) : Prop := a = b /\ ordinary a \/ In (a, b) exts.
(** A symbol that can be given: not empty and not of the form @_..._@. *)
Definition usable (x : bstr) : Prop := x <> [] /\ ~ internal_symbol x.
Definition all_usable (exts : list (bstr * bstr)) : Prop := Forall (fun p => usable (fst p) /\ usable (snd p)) exts.

(** What the closure of the back end must do, where labels are compared literally: any number of
    strings of [g] one after another. *)
Definition sum (ws : list Z) : Z := fold_right Z.add 0%Z ws.
Definition starred (g m : graph) : Prop :=
  labels_from [g] m /\ alpha m = alpha g /\
  forall l w, label_string m l w <->
    exists parts, Forall (fun p => label_string g (fst p) (snd p)) parts /\ l = concat (map fst parts) /\ w = sum (map snd parts).

(** The lines of a file: an empty line and a comment (a line that begins with a number sign and
    has no tab) say nothing; in any other line the fields between the tabs are not empty and there
    are at least two of them, and the first is extended by each of the others. *)
Definition plain (x : bstr) : Prop := ~ In "009"%char x /\ ~ In "010"%char x.
Definition tabbed (fs : list bstr) : bstr := flat_map (fun f => "009"%char :: f) fs.
Inductive line_says : bstr -> list (bstr * bstr) -> Prop :=
| ls_empty : line_says [] []
| ls_comment x : plain x -> line_says (B "#" ++ x) []
| ls_fields from tos : plain from -> from <> [] -> tos <> [] -> Forall (fun t => plain t /\ t <> []) tos ->
    line_says (from ++ tabbed tos) (map (fun t => (from, t)) tos).
(** A file: lines with their newlines, the last of which may be missing. *)
Inductive file_says : bstr -> list (bstr * bstr) -> Prop :=
| fs_end : file_says [] []
| fs_last x l : x <> [] -> ~ In "010"%char x -> line_says x l -> file_says x l
| fs_line x l s l' : ~ In "010"%char x -> line_says x l -> file_says s l' -> file_says (x ++ "010"%char :: s) (l ++ l').
