(** Proofs about generation with hfst-proc. *)
From Verif Require Import Base HP_Model HP_Spec GA_Spec GA_Model.

(** ** Taking tags away. *)
Lemma find_char_none c s : find_char c s = None <-> ~ In c s.
Proof.
  induction s as [|d s IH]; cbn [find_char In]; [tauto|]. destruct (Ascii.eqb_spec d c) as [->|N].
  - split; [discriminate|]. intros H. destruct H. left. reflexivity.
  - destruct (find_char c s) as [(u, v)|]; [split; [discriminate|]; intros H; assert (W : ~ In c s) by tauto; apply IH in W; discriminate W|].
    split; [|reflexivity]. intros _ [H|H]; [exact (N H)|]. exact (proj1 IH eq_refl H).
Qed.
Lemma find_char_first c u v : ~ In c u -> find_char c (u ++ c :: v) = Some (u, v).
Proof.
  induction u as [|d u IH]; intros N; cbn [find_char app]; [rewrite Ascii.eqb_refl; reflexivity|].
  destruct (Ascii.eqb_spec d c) as [->|_]; [destruct N; left; reflexivity|]. rewrite IH; [reflexivity|]. intros H. apply N. right. exact H.
Qed.
Lemma strip_untagged s s' : untagged s s' -> forall u fuel, ~ In "<"%char u -> length s < fuel -> strip_tags fuel (u ++ s) = Ok (u ++ s').
Proof.
  induction 1 as [|c s s' N H IH|t s s' N H IH]; intros u fuel U L.
  - destruct fuel as [|f]; [lia|]. cbn [strip_tags]. rewrite !app_nil_r. rewrite (proj2 (find_char_none _ _) U). reflexivity.
  - change (c :: s) with ([c] ++ s). change (c :: s') with ([c] ++ s'). rewrite !app_assoc. apply IH; [|cbn in L; lia].
    intros W. apply in_app_or in W. destruct W as [W|[W|[]]]; [exact (U W)|exact (N W)].
  - destruct fuel as [|f]; [lia|]. cbn [strip_tags]. rewrite find_char_first by exact U. rewrite find_char_first by exact N. apply IH; [exact U|].
    cbn [length] in L. rewrite app_length in L. cbn in L. lia.
Qed.

Section Generation.
  Variable g : config.
  Variable mode : gmode.
  Variable generate : list token -> list bstr.
  Let marks := negb (is_clean mode).
  Let tags := is_all mode.
  Let word := generate_word g mode generate.
  Let ptext := part_text g marks tags generate.

  Lemma bare_raw w : flat_map (bare g) w = flat_map (raw_string g) w.
  Proof. reflexivity. Qed.
  Lemma lookup_known p b : generate p <> [] -> lookup g mode generate p b = Ok (Some (listed (generate p))).
  Proof. unfold lookup. destruct (generate p) as [|f r]; [intros N; destruct (N eq_refl)|reflexivity]. Qed.
  Lemma lookup_unknown p : generate p = [] -> lookup g mode generate p false = Ok None.
  Proof. unfold lookup. intros ->. reflexivity. Qed.
  Lemma lookup_piece p o : piece g marks tags generate p o -> lookup g mode generate p true = Ok (Some o).
  Proof.
    intros [q N|q s E T]; [apply lookup_known; exact N|]. unfold lookup. rewrite E. cbv zeta. unfold shown_text in T. unfold tags in T.
    replace (shown_mark marks (B "#")) with (if is_clean mode then [] else B "#") by (unfold shown_mark, marks; destruct (is_clean mode); reflexivity).
    destruct (is_all mode).
    - rewrite T. reflexivity.
    - change (flat_map (raw_string g) q) with (flat_map (bare g) q). rewrite (strip_untagged _ _ T [] _ (fun x => x)) by lia. reflexivity.
  Qed.
  Definition opt (p : option token) : list token := match p with Some a => [a] | None => [] end.
  Lemma split_run p prev part rest : plus_after_symbols g (opt prev ++ p ++ rest) -> (forall u a b v, opt prev ++ p = u ++ a :: b :: v -> tag g a -> ~ plus g b) ->
    split_from g (p ++ rest) prev part = split_from g rest (fold_left (fun _ t => Some t) p prev) (part ++ p).
  Proof.
    revert prev part. induction p as [|t p IH]; intros prev part S W; cbn [app fold_left]; [rewrite app_nil_r; reflexivity|].
    assert (R : split_from g (p ++ rest) (Some t) (part ++ [t]) = split_from g rest (fold_left (fun _ t => Some t) p (Some t)) (part ++ t :: p)).
    { rewrite IH.
      - rewrite <- app_assoc. reflexivity.
      - intros u a b v E. cbn [opt app] in E. apply (S (opt prev ++ u) a b v). cbn [app]. rewrite E, <- app_assoc. reflexivity.
      - intros u a b v E. cbn [opt app] in E. apply (W (opt prev ++ u) a b v). rewrite E, <- app_assoc. reflexivity. }
    cbn [split_from]. cbv zeta. destruct (bstr_eqb (token_to_string g t) (B "+")) eqn:E; [|exact R].
    apply bstr_eqb_eq in E. destruct prev as [a|]; [|exact R].
    pose proof (S [] a t (p ++ rest) eq_refl E) as N. destruct (to_symbol (alph g) a) as [k|] eqn:K; [|destruct (N eq_refl)].
    destruct (is_tag (alph g) k) eqn:T; [|exact R]. exfalso. apply (W [] a t p eq_refl); [exists k; auto|exact E].
  Qed.
  Lemma fold_last {A} (p : list A) a o : fold_left (fun _ t => Some t) (p ++ [a]) o = Some a.
  Proof. rewrite fold_left_app. reflexivity. Qed.
  Lemma split_divided w ps : divided g w ps -> forall prev, plus_after_symbols g (opt prev ++ w) -> (forall a, prev = Some a -> ~ tag g a) -> split_from g w prev [] = Ok ps.
  Proof.
    assert (Q : forall p prev, whole g p -> (forall a, prev = Some a -> ~ tag g a) -> forall u a b v, opt prev ++ p = u ++ a :: b :: v -> tag g a -> ~ plus g b).
    { intros p prev W T u a b v E. destruct prev as [c|]; [|exact (W u a b v E)]. cbn [opt app] in E. destruct u as [|d u]; cbn [app] in E.
      - injection E as -> _. intros X. destruct (T a eq_refl X).
      - injection E as -> E. exact (W u a b v E). }
    induction 1 as [|p N W|p a b r ps W Ta Pb Tb D IH]; intros prev S T.
    - reflexivity.
    - rewrite <- (app_nil_r p) at 1. rewrite split_run; [|rewrite app_nil_r; exact S|apply Q; assumption]. cbn [split_from app]. destruct p; [destruct (N eq_refl)|reflexivity].
    - replace (p ++ a :: b :: r) with ((p ++ [a]) ++ b :: r) by (rewrite <- app_assoc; reflexivity).
      rewrite split_run; [|rewrite <- app_assoc; exact S|apply Q; assumption]. rewrite fold_last. cbn [app split_from]. cbv zeta.
      pose proof Pb as Pb'. unfold plus in Pb'. rewrite (proj2 (bstr_eqb_eq _ _) Pb'). destruct Ta as (k & K & I). rewrite K, I. rewrite (IH (Some b)).
      + reflexivity.
      + intros u c d v E. apply (S (opt prev ++ p ++ a :: u) c d v). cbn [opt app] in E. rewrite E, <- !app_assoc. reflexivity.
      + intros c E. injection E as <-. exact Tb.
  Qed.
  Lemma lookups_pieces ps os : Forall2 (piece g marks tags generate) ps os -> lookups g mode generate ps = Ok (concat os).
  Proof.
    induction 1 as [|p o ps os H F IH]; cbn [lookups concat]; [reflexivity|]. rewrite (lookup_piece p o H). cbn [rbind]. rewrite IH. reflexivity.
  Qed.
  Lemma word_done w o : word_text g marks tags generate w o -> word w = Ok o.
  Proof.
    unfold word, generate_word. intros [N|ps os E S D F].
    - rewrite (lookup_known w false N). reflexivity.
    - rewrite (lookup_unknown w E). cbn [rbind]. unfold split. rewrite (split_divided w ps D None S); [|discriminate]. cbn [rbind]. exact (lookups_pieces ps os F).
  Qed.

  (** ** The stream. *)
  Hypothesis NF : null_flush g = false.
  Definition at_stream (x : io) (is : istream) (o : bstr) : Prop := input x = is /\ b_empty (tb x) = true /\ out x = o.
  Lemma get_next x is o t is' : at_stream x is o -> read_token g is = Ok (t, [], is') -> exists x', get_token g x = Ok (t, x') /\ at_stream x' is' o.
  Proof.
    intros (I & E & O) R. unfold get_token. rewrite E, I, R. cbn [rbind]. eexists. split; [reflexivity|]. split; [reflexivity|]. split; [|cbn [out]; rewrite app_nil_r; exact O].
    cbn [tb]. destruct t; try exact E; unfold b_empty, b_add; cbn; apply Nat.eqb_refl.
  Qed.
  Lemma in_word_plain t : in_word g t -> is_reserved "$"%char t = false /\ bstr_eqb (token_to_string g t) (B "*") || bstr_eqb (token_to_string g t) (B "@") || bstr_eqb (token_to_string g t) (B "#") = false.
  Proof.
    intros (_ & D & M). split.
    - destruct t; try reflexivity. cbn [is_reserved]. destruct (Ascii.eqb_spec c "$") as [->|_]; [destruct (D eq_refl)|reflexivity].
    - destruct (bstr_eqb (token_to_string g t) (B "*")) eqn:E1; [apply bstr_eqb_eq in E1; destruct (M "*"%char); split; [exact E1|left; reflexivity]|].
      destruct (bstr_eqb (token_to_string g t) (B "@")) eqn:E2; [apply bstr_eqb_eq in E2; destruct (M "@"%char); split; [exact E2|right; left; reflexivity]|].
      destruct (bstr_eqb (token_to_string g t) (B "#")) eqn:E3; [apply bstr_eqb_eq in E3; destruct (M "#"%char); split; [exact E3|right; right; left; reflexivity]|reflexivity].
  Qed.
  Lemma read_form_some is w is' : reads_some g is w is' -> Forall (in_word g) w -> forall x o, at_stream x is o ->
    exists x', (forall form n, read_form g (length w + n) x form = read_form g n x' (form ++ w)) /\ at_stream x' is' o.
  Proof.
    induction 1 as [is|is t is1 w is' R N S IH]; intros F x o A; cbn [length Nat.add].
    - exists x. split; [intros; rewrite app_nil_r; reflexivity|exact A].
    - inversion F as [|t' w' F1 F2]; subst. destruct (get_next x is o t is1 A R) as (x1 & G & A1).
      destruct (IH F2 x1 o A1) as (x' & E1 & E2). exists x'. split; [|exact E2]. intros form n. cbn [read_form]. rewrite G. cbn [rbind]. cbv zeta.
      destruct (in_word_plain t F1) as (P1 & P2). rewrite P1, P2. specialize (E1 (form ++ [t]) n). rewrite <- app_assoc in E1. cbn [app] in E1.
      destruct t; try exact E1. destruct (N eq_refl).
  Qed.
  Lemma read_form_word is1 w is2 is3 x o : reads_some g is1 w is2 -> Forall (in_word g) w -> read_token g is2 = Ok (TRes "$"%char, [], is3) -> at_stream x is1 o ->
    exists x', (forall f, length w < f -> read_form g f x [] = Ok (w, None, x')) /\ at_stream x' is3 o.
  Proof.
    intros S F R A. destruct (read_form_some is1 w is2 S F x o A) as (x2 & E & A2). destruct (get_next x2 is2 o _ _ A2 R) as (x3 & G & A3).
    exists x3. split; [|exact A3]. intros f L. replace f with (length w + Datatypes.S (f - length w - 1)) by lia. rewrite E. cbn [read_form app]. rewrite G. reflexivity.
  Qed.
  Lemma read_form_marked is1 w is2 is3 t m x o : reads_some g is1 w is2 -> Forall (in_word g) w -> read_token g is2 = Ok (t, [], is3) -> ~ dollar t -> mark g t m -> at_stream x is1 o ->
    exists x', (forall f, length w < f -> read_form g f x [] = Ok (w, Some m, x')) /\ at_stream x' is3 o.
  Proof.
    intros S F R D (M1 & M2) A. destruct (read_form_some is1 w is2 S F x o A) as (x2 & E & A2). destruct (get_next x2 is2 o _ _ A2 R) as (x3 & G & A3).
    exists x3. split; [|exact A3]. intros f L. replace f with (length w + Datatypes.S (f - length w - 1)) by lia. rewrite E. cbn [read_form app]. rewrite G. cbn [rbind]. cbv zeta.
    replace (is_reserved "$"%char t) with false.
    - rewrite M1. destruct M2 as [<-|[<-|[<-|[]]]]; reflexivity.
    - destruct t; try reflexivity. cbn [is_reserved]. destruct (Ascii.eqb_spec c "$") as [->|_]; [destruct (D eq_refl)|reflexivity].
  Qed.
  Lemma delimited_loop_simple s r fuel : simple s -> length s < fuel -> delimited_loop fuel g "$"%char (s ++ "$"%char :: r) = Ok (s ++ ["$"%char], [], Some "$"%char, r).
  Proof.
    revert fuel. induction s as [|c s IH]; intros fuel S L; (destruct fuel as [|f]; [lia|]); cbn [app delimited_loop].
    - cbn. unfold flushed. rewrite NF. reflexivity.
    - destruct (S c (or_introl eq_refl)) as (H1 & H2 & H3).
      destruct (Ascii.eqb_spec c "\") as [Q|_]; [destruct (H2 Q)|]. destruct (Ascii.eqb_spec c "$") as [Q|_]; [destruct (H1 Q)|].
      rewrite IH; [|intros d Hd; apply S; right; exact Hd|cbn in L; lia]. cbn [rbind]. unfold flushed. rewrite NF. reflexivity.
  Qed.
  Lemma read_simple s r : simple s -> read_delimited g "$"%char (s ++ "$"%char :: r) = Ok (s ++ ["$"%char], [], r).
  Proof.
    intros S. destruct s as [|c s]; cbn [app read_delimited].
    - cbn. unfold flushed. rewrite NF. reflexivity.
    - destruct (S c (or_introl eq_refl)) as (H1 & H2 & H3).
      destruct (Ascii.eqb_spec c "\") as [Q|_]; [destruct (H2 Q)|]. cbn [rbind]. cbv zeta.
      destruct (Ascii.eqb_spec c "$") as [Q|_]; [destruct (H1 Q)|]. destruct (Ascii.eqb_spec c "[") as [Q|_]; [destruct (H3 Q)|]. cbn [andb].
      rewrite (delimited_loop_simple s r); [|intros d Hd; apply S; right; exact Hd|rewrite app_length; lia]. cbn [rbind]. unfold flushed. rewrite NF. reflexivity.
  Qed.
  Lemma delimited_at x s r o : at_stream x (IS (s ++ "$"%char :: r) false) o -> simple s -> exists x', delimited g x = Ok (s ++ ["$"%char], x') /\ at_stream x' (IS r false) o.
  Proof.
    intros (I & E & O) S. unfold delimited. rewrite I. cbn [bytes bad]. rewrite (read_simple s r S). cbn [rmap]. eexists. split; [reflexivity|].
    split; [reflexivity|]. split; [exact E|]. cbn [out]. rewrite app_nil_r. exact O.
  Qed.
  Lemma put_at x is o s : at_stream x is o -> at_stream (put s x) is (o ++ s).
  Proof. intros (I & E & O). unfold put. split; [exact I|]. split; [exact E|]. cbn [out]. rewrite O. reflexivity. Qed.
  Lemma until_found s c r : ~ In "<"%char s -> find_char "<"%char ((s ++ "<"%char :: r) ++ [c]) = Some (s, r ++ [c]).
  Proof. intros N. rewrite <- app_assoc. cbn [app]. apply find_char_first. exact N. Qed.
  Lemma until_cut x s : until_tags x s -> match find_char "<"%char (x ++ ["$"%char]) with Some (u, _) => u | None => removelast (x ++ ["$"%char]) end = s.
  Proof.
    intros (N & [->|(r & ->)]).
    - rewrite (proj2 (find_char_none "<" (s ++ ["$"%char]))); [apply removelast_last|]. intros W. apply in_app_or in W. destruct W as [W|[W|[]]]; [exact (N W)|discriminate W].
    - rewrite until_found by exact N. reflexivity.
  Qed.
  Lemma generation_parts is ps : parts g is ps -> forall os, Forall2 ptext ps os -> forall x o, at_stream x is o ->
    exists n, forall f, n <= f -> generation g mode generate f x = Ok (o ++ concat os).
  Proof.
    induction 1 as [is is' R|is t is' ps R N NR P IH|is is1 w is2 is3 ps R S F R2 P IH|is is1 w is2 t is3 m y r ps R S F R2 N D M E3 Y P IH]; intros os T x o A.
    - inversion T; subst. exists 1. intros f L. destruct f as [|f]; [lia|]. cbn [generation concat]. destruct (get_next x is o _ _ A R) as (x1 & G & (_ & _ & O)). rewrite G. cbn [rbind]. rewrite app_nil_r, O. reflexivity.
    - inversion T as [|p b ps' os' T1 T2]; subst. destruct (get_next x is o _ _ A R) as (x1 & G & A1). inversion T1; subst.
      destruct (IH os' T2 _ _ (put_at x1 is' o (token_to_string g t) A1)) as (n & H). exists (S n). intros f L. destruct f as [|f]; [lia|]. cbn [generation concat]. rewrite G. cbn [rbind].
      rewrite app_assoc. destruct t; try (apply H; lia); [destruct (N eq_refl)|destruct (NR c eq_refl)].
    - inversion T as [|p b ps' os' T1 T2]; subst. inversion T1; subst. destruct (get_next x is o _ _ A R) as (x1 & G & A1).
      destruct (read_form_word is1 w is2 is3 x1 o S F R2 A1) as (x3 & RF & A3).
      match goal with W : word_text _ _ _ _ w b |- _ => pose proof (word_done w b W) as WD end.
      destruct (IH os' T2 _ _ (put_at x3 is3 o b A3)) as (n & Hn). exists (Datatypes.S (n + Datatypes.S (length w))). intros f L. destruct f as [|f]; [lia|]. cbn [generation concat]. rewrite G. cbn [rbind].
      cbn [Ascii.eqb Bool.eqb]. rewrite RF by lia. cbn [rbind]. unfold put_word. cbv zeta. unfold word in WD. rewrite WD. cbn [rbind]. rewrite app_assoc. apply Hn. lia.
    - inversion T as [|p b ps' os' T1 T2]; subst. destruct (get_next x is o _ _ A R) as (x1 & G & A1).
      destruct (read_form_marked is1 w is2 _ t m x1 o S F R2 D M A1) as (x3 & RF & A3).
      assert (PW : exists x4, put_word g mode generate w (Some m) x3 = Ok x4 /\ at_stream x4 (IS r false) (o ++ b)).
      { unfold put_word. cbv zeta. inversion T1; subst; cbn [Ascii.eqb Bool.eqb andb orb].
        - assert (A4 : at_stream (if is_clean mode then x3 else put (escape g ["*"%char]) x3) (IS (y ++ "$"%char :: r) false) (o ++ shown_mark marks (B "*"))).
          { unfold shown_mark, marks. destruct (is_clean mode); cbn [negb]; [rewrite app_nil_r; exact A3|]. replace (B "*") with (escape g ["*"%char]); [apply put_at; exact A3|]. unfold escape. cbn [flat_map app]. unfold escaped_char. destruct (raw g); reflexivity. }
          destruct (delimited_at _ y r _ A4 Y) as (x5 & E5 & A5). rewrite E5. cbn [rmap]. eexists. split; [reflexivity|]. rewrite app_assoc.
          match goal with U : until_tags y ?s |- _ => rewrite (until_cut y s U) end. apply put_at. exact A5.
        - assert (A4 : at_stream (if is_clean mode then x3 else put (escape g ["@"%char]) x3) (IS (y ++ "$"%char :: r) false) (o ++ shown_mark marks (escape g (B "@")))).
          { unfold shown_mark, marks. destruct (is_clean mode); cbn [negb]; [rewrite app_nil_r; exact A3|]. apply put_at. exact A3. }
          destruct (delimited_at _ y r _ A4 Y) as (x5 & E5 & A5). rewrite E5. cbn [rmap]. eexists. split; [reflexivity|]. rewrite app_assoc.
          match goal with U : if tags then _ else _ |- _ => unfold tags in U; destruct (is_all mode); cbn [negb]; [rewrite U, removelast_last|rewrite (until_cut y _ U)] end; apply put_at; exact A5.
        - match goal with W : word_text _ _ _ _ w ?o1 |- _ => pose proof (word_done w o1 W) as WD; unfold word in WD; rewrite WD; cbn [rbind];
            destruct (delimited_at _ y r _ (put_at x3 _ o o1 A3) Y) as (x5 & E5 & A5) end.
          rewrite E5. cbn [rmap]. eexists. split; [reflexivity|]. rewrite removelast_last, app_assoc. apply put_at. exact A5. }
      destruct PW as (x4 & PW & A4). destruct (IH os' T2 _ _ A4) as (n & Hn). exists (Datatypes.S (n + Datatypes.S (length w))). intros f L. destruct f as [|f]; [lia|]. cbn [generation concat]. rewrite G. cbn [rbind].
      cbn [Ascii.eqb Bool.eqb]. rewrite RF by lia. cbn [rbind]. rewrite PW. cbn [rbind]. rewrite app_assoc. apply Hn. lia.
  Qed.
  Lemma generate_parts text ps os : parts g (IS text false) ps -> Forall2 ptext ps os -> exists n, forall f, n <= f -> generate_text g mode generate f text = Ok (concat os).
  Proof. intros P T. exact (generation_parts _ ps P os T (new_io text) [] (conj eq_refl (conj eq_refl eq_refl))). Qed.
End Generation.
