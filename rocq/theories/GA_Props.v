(** Generation with hfst-proc. *)
From Verif Require Import Base HP_Model HP_Spec GA_Spec GA_Model GA_Proofs.

(** hfst-proc -g, -n and -d: each word between ^ and $ is replaced by its forms; what is outside words is
    left as it is (see part_text in GA_Spec).  Partial: words with an unknown character before a plus
    sign are read out of bounds (C156_plus_refuted); unknown words in which a less-than sign is escaped
    are refused or cut (C156_escaped_refuted); in the text after a mark nothing is escaped
    (C156_marked_refuted). *)
Theorem C156_generation_partial g mode forms text ps os : null_flush g = false ->
  parts g (IS text false) ps -> Forall2 (part_text g (negb (is_clean mode)) (is_all mode) forms) ps os ->
  exists n, forall f, n <= f -> generate_text g mode forms f text = Ok (concat os).
Proof. intros NF P T. exact (generate_parts g mode forms NF text ps os P T). Qed.
Print Assumptions C156_generation_partial.

(** ** A small lexicon. *)
Definition gnames : list bstr := [B "@0@"; B "a"; B "b"; B " "; B "<n>"; B "<v>"; B "+"; B "."].
Definition gabc : alphabet := Alphabet gnames [false; true; true; false; false; false; false; false] (fun _ => false) 3 (add_symbols gnames).
Definition ggc : config := Config gabc false false.
Definition ta : token := TSym 1 false. Definition tb' : token := TSym 2 false. Definition tn : token := TSym 4 false. Definition tv : token := TSym 5 false.
(** ab as a noun has two forms, b as a verb one. *)
Definition gforms (w : list token) : list bstr :=
  match w with
  | [TSym 1 _; TSym 2 _; TSym 4 _] => [B "abs"; B "abes"]
  | [TSym 2 _; TSym 5 _] => [B "bed"]
  | _ => []
  end.
Definition gtext : bstr := B "^ab<n>$ ^a\$<n>+b<v>$[x]^*qa<n>$.^ab<n># q$".
Definition gparts : list part := [Word [ta; tb'; tn]; Outside (TSym 3 false); Word [ta; TChar (B "$"); tn; TSym 6 false; tb'; tv]; Outside (TBlank (B "[x]"));
  Marked "*"%char [] (B "qa<n>"); Outside (TSym 7 false); Marked "#"%char [ta; tb'; tn] (B " q")].
Definition gout : list bstr := [B "abs/abes"; B " "; B "#a\$bed"; B "[x]"; B "*qa"; B "."; B "abs/abes q"].
Ltac iw := split; [discriminate|]; split; [discriminate|]; intros m (H1 & H2); vm_compute in H1; cbn in H2; repeat (destruct H2 as [H2|H2]; [subst m; discriminate H1|]); exact H2.
Ltac rs := repeat (eapply some_token; [reflexivity|discriminate|]); apply some_none.
Ltac simp := intros c Hc; cbn in Hc; repeat (destruct Hc as [Hc|Hc]; [subst c; repeat split; discriminate|]); destruct Hc.
Lemma gtext_parts : parts ggc (IS gtext false) gparts.
Proof.
  unfold gtext, gparts.
  eapply p_word; [reflexivity|rs|repeat (constructor; [iw|]); constructor|reflexivity|].
  eapply p_outside; [reflexivity|discriminate|discriminate|].
  eapply p_word; [reflexivity|rs|repeat (constructor; [iw|]); constructor|reflexivity|].
  eapply p_outside; [reflexivity|discriminate|discriminate|].
  eapply p_marked with (t := TChar (B "*")) (x := B "qa<n>"); [reflexivity|rs|constructor|reflexivity|discriminate|discriminate|split; [reflexivity|left; reflexivity]|reflexivity|simp|].
  eapply p_outside; [reflexivity|discriminate|discriminate|].
  eapply p_marked with (t := TChar (B "#")) (x := B " q"); [reflexivity|rs|repeat (constructor; [iw|]); constructor|reflexivity|discriminate|discriminate|split; [reflexivity|right; right; left; reflexivity]|reflexivity|simp|].
  eapply p_end. reflexivity.
Qed.
Example C156_witness : null_flush ggc = false /\ parts ggc (IS gtext false) gparts /\ Forall2 (part_text ggc (negb (is_clean gm_unknown)) (is_all gm_unknown) gforms) gparts gout /\
  generate_text ggc gm_unknown gforms 60 gtext = Ok (B "abs/abes #a\$bed[x]*qa.abs/abes q") /\ generate_text ggc gm_clean gforms 60 gtext = Ok (B "abs/abes a\$bed[x]qa.abs/abes q") /\
  generate_text ggc gm_all gforms 60 gtext = Ok (B "abs/abes #a\$\<n\>bed[x]*qa.abs/abes q").
Proof.
  split; [reflexivity|]. split; [exact gtext_parts|]. split; [|vm_compute; repeat split].
  unfold gparts, gout.
  constructor; [apply t_word; apply (wt_whole ggc true false gforms [ta; tb'; tn]); discriminate|].
  constructor; [apply (t_outside ggc _ _ gforms (TSym 3 false))|].
  constructor.
  { apply t_word. apply (wt_pieces ggc true false gforms _ [[ta; TChar (B "$"); tn]; [tb'; tv]] [B "#a\$"; B "bed"]); [reflexivity| | |].
    - intros u a b v E P. destruct u as [|? [|? [|? [|? [|? [|? u]]]]]]; cbn [app] in E; injection E; intros; subst; try discriminate. destruct u; discriminate.
    - apply (d_cut ggc [ta; TChar (B "$")] tn (TSym 6 false) [tb'; tv] [[tb'; tv]]).
      + intros u a b v E _ P. destruct u as [|? [|? [|? u]]]; cbn [app] in E; injection E; intros; subst; try discriminate P; try discriminate; destruct u; discriminate.
      + exists 4. split; reflexivity.
      + reflexivity.
      + intros (k & K & I). injection K as <-. discriminate I.
      + apply d_last; [discriminate|]. intros u a b v E _ P. destruct u as [|? [|? u]]; cbn [app] in E; injection E; intros; subst; try discriminate P; try discriminate; destruct u; discriminate.
    - constructor; [|constructor; [apply (pc_known ggc true false gforms [tb'; tv]); discriminate|constructor]].
      apply (pc_unknown ggc true false gforms [ta; TChar (B "$"); tn] (B "a$")); [reflexivity|]. unfold shown_text.
      apply (ut_char "a"%char (B "$<n>") (B "$")); [discriminate|]. apply (ut_char "$"%char (B "<n>") []); [discriminate|]. apply (ut_tag (B "n") [] []); [|constructor].
      intros [K|[]]. discriminate K. }
  constructor; [apply (t_outside ggc _ _ gforms (TBlank (B "[x]")))|].
  constructor; [apply (t_unanalysed ggc true false gforms [] (B "qa<n>") (B "qa")); split; [intros [K|[K|[]]]; discriminate K|right; exists (B "n>"); reflexivity]|].
  constructor; [apply (t_outside ggc _ _ gforms (TSym 7 false))|].
  constructor; [|constructor]. apply (t_invariant ggc true false gforms [ta; tb'; tn] (B "abs/abes") (B " q")). apply (wt_whole ggc true false gforms [ta; tb'; tn]). discriminate.
Qed.

(** A character the transducer does not have before a plus sign: the symbol table is read out of bounds. *)
Example C156_plus_refuted : generate_text ggc gm_unknown gforms 60 (B "^q+b<v>$") = Ub.
Proof. vm_compute. reflexivity. Qed.
(** In unknown words an escaped less-than sign is taken for the beginning of a tag: the text is refused or
    cut. *)
Example C156_escaped_refuted : generate_text ggc gm_unknown gforms 60 (B "^a\<b$") = Throw /\ generate_text ggc gm_unknown gforms 60 (B "^a\<b<n>$") = Ok (B "#a").
Proof. vm_compute. split; reflexivity. Qed.
(** In the text after a mark what is escaped already is escaped again. *)
Example C156_marked_refuted : generate_text ggc gm_unknown gforms 60 (B "^*a\$b$") = Ok (B "*a\\\$b").
Proof. vm_compute. reflexivity. Qed.
(** A mark is taken for one anywhere in a word; what comes before it is lost. *)
Example C156_mark_refuted : generate_text ggc gm_unknown gforms 60 (B "^ab*b<n>$") = Ok (B "*b").
Proof. vm_compute. reflexivity. Qed.
(** A text that ends within a word, and a reserved character outside words, are refused. *)
Example C156_errors : generate_text ggc gm_unknown gforms 60 (B "^ab<n>") = Throw /\ generate_text ggc gm_unknown gforms 60 (B "ab$") = Throw.
Proof. vm_compute. split; reflexivity. Qed.
