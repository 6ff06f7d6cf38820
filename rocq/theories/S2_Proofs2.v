(** Proofs about strings and pair strings with spaces. *)
From Verif Require Import Base OrdMap Tok_Model Tok_Spec Tok_Proofs Str_Spec S2_Spec S2_Model S2_Proofs.

(** ** Removing backslashes *)
Definition other (b : ascii) : bool := negb (Ascii.eqb b BACKSLASH_CHAR).
Lemma replace_backslashes s : forall fuel, length s <= fuel -> replace_while fuel BACKSLASH [] s = Ok (filter other s).
Proof.
  assert (K : forall s, replace_first BACKSLASH [] s = None /\ filter other s = s \/ exists s', replace_first BACKSLASH [] s = Some s' /\ length s' < length s /\ filter other s' = filter other s).
  { clear s. induction s as [|c s IH]; [left; split; reflexivity|]. cbn [replace_first starts]. change BACKSLASH with [BACKSLASH_CHAR] in *. cbn [starts]. rewrite andb_true_r. destruct (Ascii.eqb_spec BACKSLASH_CHAR c) as [<-|N].
    - right. exists s. split; [reflexivity|]. split; [cbn; lia|reflexivity].
    - assert (Ec : other c = true) by (unfold other; destruct (Ascii.eqb_spec c BACKSLASH_CHAR); [congruence|reflexivity]). destruct IH as [(-> & E)|(s' & -> & L & E)].
      + left. split; [reflexivity|]. cbn [filter]. rewrite Ec, E. reflexivity.
      + right. exists (c :: s'). split; [reflexivity|]. split; [cbn; lia|]. cbn [filter]. rewrite Ec, E. reflexivity. }
  intros fuel. revert s. induction fuel as [|fuel IH]; intros s L; destruct (K s) as [(E & Ef)|(s' & E & L' & Ef)]; cbn [replace_while]; rewrite E.
  - rewrite Ef. reflexivity.
  - lia.
  - rewrite Ef. reflexivity.
  - rewrite IH by lia. rewrite Ef. reflexivity.
Qed.

Section Spaces.
  Variables (gr : bstr -> nat) (valid : bstr -> bool) (one : bstr -> Prop) (ms : list bstr) (eps : bstr).
  Hypothesis I : icu gr valid one.
  Hypothesis O : orderly one ms eps.
  Hypothesis NS : forall w, In w (words ms eps) -> ~ In " "%char w.
  Notation ok := (ok_unit one).

  Lemma escaped_cases c : one c -> c <> backslash -> (escaped c = BACKSLASH ++ c /\ (c = COL \/ c = SPACE)) \/ (escaped c = c /\ c <> COL /\ c <> SPACE).
  Proof.
    intros Oc Nb. unfold escaped. destruct (bstr_eqb c colon) eqn:E1; [apply bstr_eqb_eq in E1; left; auto|]. destruct (bstr_eqb c space) eqn:E2; [apply bstr_eqb_eq in E2; left; auto|]. right. split; [reflexivity|]. split; intros ->; discriminate.
  Qed.
  Lemma no_byte c b : one c -> match b with Ascii _ _ _ _ _ _ _ b7 => b7 = false end -> c <> [b] -> ~ In b c.
  Proof. intros Oc A N K. apply N. exact (utf8_char_ascii c b (proj1 (i_char _ _ _ I c Oc)) K A). Qed.
  Lemma last_before c : one c -> c <> BACKSLASH -> forall before, hd_error (rev c ++ before) <> Some BACKSLASH_CHAR.
  Proof.
    intros Oc N before K. pose proof (utf8_char_nonempty c (proj1 (i_char _ _ _ I c Oc))) as Ne. apply (no_byte c BACKSLASH_CHAR Oc eq_refl N). destruct (rev c) as [|b q] eqn:E; [apply (f_equal (@rev ascii)) in E; rewrite rev_involutive in E; destruct (Ne E)|].
    cbn in K. injection K as ->. apply in_rev. rewrite E. left. reflexivity.
  Qed.
  Lemma bad_cols_app a : forall b before, ~ In COL_CHAR a -> bad_cols before (a ++ b) = bad_cols (rev a ++ before) b.
  Proof.
    induction a as [|x a IH]; intros b before N; [reflexivity|]. cbn [app bad_cols rev]. rewrite IH by (intros K; apply N; right; exact K). rewrite <- app_assoc. cbn [app]. destruct (Ascii.eqb_spec x COL_CHAR) as [->|_]; [destruct N; left; reflexivity|reflexivity].
  Qed.
  Lemma bad_cols_escaped cs : Forall one cs -> ~ In backslash cs -> forall before, hd_error before <> Some BACKSLASH_CHAR -> bad_cols before (concat (map escaped cs)) = false.
  Proof.
    induction 1 as [|c cs Oc F IH]; intros NB before Hb; [reflexivity|]. cbn [map concat]. assert (Nc : c <> backslash) by (intros ->; apply NB; left; reflexivity). assert (NB' : ~ In backslash cs) by (intros K; apply NB; right; exact K).
    destruct (escaped_cases c Oc Nc) as [(-> & Hc)|(-> & N1 & N2)].
    - destruct Hc as [->| ->].
      + cbn [app BACKSLASH COL B list_ascii_of_string bad_cols]. change (Ascii.eqb "\" COL_CHAR) with false. change (Ascii.eqb ":" COL_CHAR) with true. change (Ascii.eqb "\" BACKSLASH_CHAR) with true. cbn [andb orb negb].
        rewrite (IH NB' _) by discriminate. destruct before as [|b before]; [reflexivity|]. destruct (Ascii.eqb_spec b BACKSLASH_CHAR) as [->|_]; [destruct (Hb eq_refl)|reflexivity].
      + rewrite <- app_assoc, bad_cols_app by (intros [K|[]]; discriminate K). rewrite bad_cols_app by (intros [K|[]]; discriminate K). apply IH; [exact NB'|discriminate].
    - rewrite bad_cols_app by (apply (no_byte c COL_CHAR Oc eq_refl N1)). apply IH; [exact NB'|]. apply last_before; assumption.
  Qed.
  Lemma not_occurs_double cs : Forall one cs -> ~ In backslash cs -> ~ occurs (BACKSLASH ++ BACKSLASH) (concat (map escaped cs)).
  Proof.
    intros F NB. assert (K : forall s, ~ occurs (BACKSLASH ++ BACKSLASH) s <-> forall a b, s <> a ++ BACKSLASH_CHAR :: BACKSLASH_CHAR :: b) by (intros s; split; [intros N a b E; apply N; exists a, b; exact E|intros N (a & b & E); exact (N a b E)]).
    assert (A : forall a s : bstr, ~ In BACKSLASH_CHAR a -> ~ occurs (BACKSLASH ++ BACKSLASH) s -> ~ occurs (BACKSLASH ++ BACKSLASH) (a ++ s)).
    { intros a s Na Ns. induction a as [|x a IH]; [exact Ns|]. intros (p & q & E). destruct p as [|y p]; [injection E as -> _; apply Na; left; reflexivity|]. injection E as _ E. apply IH; [intros H; apply Na; right; exact H|]. exists p, q. exact E. }
    induction F as [|c cs Oc F IH]; cbn [map concat]; [intros (a & b & E); destruct a; discriminate E|]. assert (Nc : c <> backslash) by (intros ->; apply NB; left; reflexivity). assert (NB' : ~ In backslash cs) by (intros H; apply NB; right; exact H). specialize (IH NB').
    destruct (escaped_cases c Oc Nc) as [(-> & Hc)|(-> & N1 & N2)].
    - assert (Ac : ~ In BACKSLASH_CHAR c) by (apply no_byte; [exact Oc|reflexivity|exact Nc]). pose proof (A c _ Ac IH) as B1. rewrite <- app_assoc. intros (p & q & E). destruct p as [|y p].
      + destruct Hc as [->| ->]; discriminate E.
      + injection E as _ E. apply B1. exists p, q. exact E.
    - apply A; [apply no_byte; [exact Oc|reflexivity|exact Nc]|exact IH].
  Qed.
  Lemma filter_escaped cs : Forall one cs -> ~ In backslash cs -> filter other (concat (map escaped cs)) = concat cs.
  Proof.
    assert (A : forall a : bstr, ~ In BACKSLASH_CHAR a -> filter other a = a). { induction a as [|x a IH]; intros Na; [reflexivity|]. cbn [filter]. unfold other at 1. destruct (Ascii.eqb_spec x BACKSLASH_CHAR) as [->|_]; [destruct Na; left; reflexivity|]. cbn [negb]. rewrite IH; [reflexivity|]. intros H. apply Na. right. exact H. }
    induction 1 as [|c cs Oc F IH]; intros NB; [reflexivity|]. cbn [map concat]. assert (Nc : c <> backslash) by (intros ->; apply NB; left; reflexivity). assert (NB' : ~ In backslash cs) by (intros H; apply NB; right; exact H).
    assert (Ac : ~ In BACKSLASH_CHAR c) by (apply no_byte; [exact Oc|reflexivity|exact Nc]). rewrite filter_app, (IH NB'). f_equal. destruct (escaped_cases c Oc Nc) as [(-> & Hc)|(-> & _)]; [rewrite filter_app|]; rewrite (A c Ac); reflexivity.
  Qed.
  Lemma unescape_spaced cs : Forall one cs -> ~ In backslash cs -> (forall w, In w [B "@_COLON_@"; B "@_TAB_@"; B "@_SPACE_@"; B "@_BACKSLASH_@"] -> ~ occurs w (concat cs)) ->
    unescape (concat (map escaped cs)) = Ok (concat cs).
  Proof.
    intros F NB NO. unfold unescape. rewrite (bad_cols_escaped cs F NB []) by discriminate. pose proof (not_occurs_double cs F NB) as ND. destruct (bstr_eqb (concat (map escaped cs)) (BACKSLASH ++ BACKSLASH)) eqn:E.
    { apply bstr_eqb_eq in E. destruct ND. exists [], []. exact E. }
    cbv zeta. rewrite (replace_while_none _ (BACKSLASH ++ BACKSLASH)); [cbn [rbind]|discriminate|exact ND]. rewrite replace_backslashes by lia. cbn [rbind]. rewrite (filter_escaped cs F NB).
    rewrite (replace_while_none _ BACKSLASH_ESC); [cbn [rbind]|discriminate|apply NO; do 3 right; left; reflexivity].
    rewrite (replace_while_none _ SPACE_ESCAPE); [cbn [rbind]|discriminate|apply NO; do 2 right; left; reflexivity].
    rewrite (replace_while_none _ TAB_ESCAPE); [cbn [rbind]|discriminate|apply NO; right; left; reflexivity].
    apply replace_while_none; [discriminate|apply NO; left; reflexivity].
  Qed.

  (** ** Symbols as units *)
  Definition unit_of (c : bstr) : unit_ := if bstr_eqb c colon || bstr_eqb c space then UEsc c else UChar c.
  Lemma units_of cs : Forall one cs -> ~ In backslash cs -> Forall ok (map unit_of cs) /\ Forall (fun u => separator u = false) (map unit_of cs) /\ utexts (map unit_of cs) = concat (map escaped cs).
  Proof.
    induction 1 as [|c cs Oc F IH]; intros NB; [repeat split; constructor|]. assert (Nc : c <> backslash) by (intros ->; apply NB; left; reflexivity). destruct IH as (F1 & F2 & E); [intros H; apply NB; right; exact H|]. cbn [map].
    assert (D : ok (unit_of c) /\ separator (unit_of c) = false /\ utext (unit_of c) = escaped c).
    { unfold unit_of, escaped. destruct (bstr_eqb c colon) eqn:E1; [apply bstr_eqb_eq in E1; subst c; split; [left; reflexivity|split; reflexivity]|]. destruct (bstr_eqb c space) eqn:E2; [apply bstr_eqb_eq in E2; subst c; split; [right; left; reflexivity|split; reflexivity]|].
      cbn [orb]. split; [|split; reflexivity]. split; [exact Oc|]. split; [intros ->; discriminate|split; [intros ->; discriminate|exact Nc]]. }
    destruct D as (D1 & D2 & D3). split; [constructor; assumption|]. split; [constructor; assumption|]. unfold utexts in *. cbn [map concat]. rewrite D3, E. reflexivity.
  Qed.
  Definition text_units (t : bstr) (us : list unit_) : Prop := Forall ok us /\ Forall (fun u => separator u = false) us /\ utexts us = t /\ t <> [].
  Lemma spaced_units x t : spaced_symbol one eps x t -> exists us, text_units t us.
  Proof.
    intros [cs N F NB Ne NO| |].
    - exists (map unit_of cs). destruct (units_of cs F NB) as (F1 & F2 & E). split; [exact F1|]. split; [exact F2|]. split; [exact E|]. destruct cs as [|c cs]; [congruence|]. inversion F as [|? ? Oc _]; subst. intros K. cbn [map concat] in K. apply app_eq_nil in K. destruct K as (K & _). unfold escaped in K. destruct (_ || _); [discriminate K|]. exact (utf8_char_nonempty c (proj1 (i_char _ _ _ I c Oc)) K).
    - exists [UEsc BACKSLASH]. split; [constructor; [right; right; left; reflexivity|constructor]|]. split; [constructor; [reflexivity|constructor]|]. split; [reflexivity|discriminate].
    - destruct (o_chars _ _ _ O eps (in_eps ms eps)) as (N & (cs & F & E) & C & Bk). assert (Sp : ~ In " "%char eps) by (apply NS; apply in_eps). exists (map UChar cs). split; [|split; [|split; [|exact N]]].
      + rewrite E in C, Bk, Sp. clear E N NS O. induction F as [|c cs Oc F IH]; [constructor|]. cbn [map concat] in *. rewrite in_app_iff in C, Bk, Sp. constructor; [|apply IH; tauto]. split; [exact Oc|]. split; [intros ->; apply Sp; left; left; reflexivity|]. split; [intros ->; apply C; left; left; reflexivity|intros ->; apply Bk; left; left; reflexivity].
      + clear E F. induction cs; constructor; [reflexivity|assumption].
      + rewrite E. clear E F. unfold utexts. rewrite map_map. cbn [utext]. rewrite map_id. reflexivity.
  Qed.
  Lemma spaced_reads x t : spaced_symbol one eps x t -> reads eps t x.
  Proof.
    destruct (word_marks one ms eps O eps (in_eps ms eps)) as (M1 & M2 & M3). intros [cs N F NB Ne NO| |].
    - pose proof (unescape_spaced cs F NB NO) as Eu. assert (Nx : concat cs <> []) by (destruct cs as [|c cs]; [congruence|]; inversion F as [|? ? Oc _]; subst; intros K; cbn [concat] in K; apply app_eq_nil in K; exact (utf8_char_nonempty c (proj1 (i_char _ _ _ I c Oc)) (proj1 K))).
      apply reads_other; try assumption.
      + intros K. rewrite K in Eu. discriminate Eu.
      + intros K. rewrite K in Eu. change (unescape BACKSLASH) with (@Ok bstr []) in Eu. injection Eu as Eu. destruct (Nx (eq_sym Eu)).
      + intros K. rewrite K in Eu. change (unescape []) with (@Ok bstr []) in Eu. injection Eu as Eu. destruct (Nx (eq_sym Eu)).
      + intros K. rewrite K in Eu. destruct (o_chars _ _ _ O eps (in_eps ms eps)) as (_ & _ & C & Bk). rewrite (unescape_plain eps C Bk (fun w => o_marks _ _ _ O eps w (or_introl eq_refl))) in Eu. injection Eu as Eu. congruence.
    - apply reads_other; try discriminate; [|vm_compute; reflexivity|].
      + intros K. apply (word_not_backslash one ms eps O eps [] (in_eps ms eps)). rewrite app_nil_r, <- K. exists BACKSLASH. reflexivity.
      + intros K. apply M2. symmetry. exact K.
    - constructor; [exact M1|exact M2| |].
      + destruct (o_chars _ _ _ O eps (in_eps ms eps)) as (_ & _ & C & Bk). exists eps. split; [apply (unescape_plain eps C Bk); intros w; exact (o_marks _ _ _ O eps w (or_introl eq_refl))|]. unfold or_epsilon. rewrite bstr_eqb_refl. destruct eps; reflexivity.
      + unfold half. rewrite bstr_eqb_refl. destruct eps; reflexivity.
  Qed.
  Lemma split_text t us : text_units t us -> forall r, split_units [] (us ++ USpace :: r) = t :: split_units [] r /\ split_units [] (us ++ UColon :: r) = t :: COL :: split_units [] r /\ split_units [] us = [t].
  Proof.
    intros (_ & Fs & E & N) r. rewrite !(split_units_app us Fs), E. rewrite <- (app_nil_r us) at 1. rewrite (split_units_app us Fs), E. cbn [app split_units]. destruct t; [congruence|]. auto.
  Qed.
  (** The units of a text that starts at a space or is empty. *)
  Lemma split_end t us vs : text_units t us -> (vs = [] \/ exists r, vs = USpace :: r) -> split_units [] (us ++ vs) = t :: split_units [] vs.
  Proof. intros T [->|(r & ->)]; destruct (split_text t us T []) as (_ & _ & E); [rewrite app_nil_r; exact E|]. exact (proj1 (split_text t us T r)). Qed.
  Lemma end_units vs s : utexts vs = s -> Forall ok vs -> at_end s -> vs = [] \/ exists r, vs = USpace :: r.
  Proof.
    intros E F A. destruct (i_marks _ _ _ I) as (O1 & O2 & O3). destruct vs as [|v vs]; [left; reflexivity|]. right. inversion F as [|? ? Fv _]; subst. unfold utexts in A. cbn [map concat] in A. destruct A as [A|(r & A)].
    - apply app_eq_nil in A. destruct A as (A & _). destruct v as [c|c| |]; cbn [utext ok_unit] in *; try discriminate A. destruct (utf8_char_nonempty c (proj1 (i_char _ _ _ I c (proj1 Fv))) A).
    - assert (K : forall d q, one d -> utext v = d ++ q -> d = SPACE). { intros d q Od Eu. rewrite Eu, <- app_assoc in A. exact (proj1 (utf8_char_prefix d SPACE _ _ (proj1 (i_char _ _ _ I d Od)) (proj1 (i_char _ _ _ I _ O3)) A)). }
      destruct v as [c|c| |]; cbn [utext ok_unit] in *.
      + destruct (proj1 (proj2 Fv)). exact (K c [] (proj1 Fv) (eq_sym (app_nil_r c))).
      + discriminate (K BACKSLASH c O2 eq_refl).
      + exists vs. reflexivity.
      + discriminate (K COL [] O1 eq_refl).
  Qed.
  Lemma utexts_app a b : utexts (a ++ b) = utexts a ++ utexts b.
  Proof. unfold utexts. rewrite map_app, concat_app. reflexivity. Qed.
  Lemma spaced_pairs_units ps s : spaced_pairs one eps ps s -> exists us, Forall ok us /\ utexts us = s /\ make_pairs eps (split_units [] us) = Ok ps /\ forall c l, split_units [] us = c :: l -> c <> COL.
  Proof.
    induction 1 as [|ps s H (us & F & E & M & N)|x t ps s Hx H (us & F & E & M & N) A|x y t u ps s Hx Hy H (us & F & E & M & N) A].
    - exists []. split; [constructor|]. split; [reflexivity|]. split; [reflexivity|discriminate].
    - exists (USpace :: us). split; [constructor; [exact Logic.I|exact F]|]. split; [unfold utexts in *; cbn [map concat]; rewrite E; reflexivity|]. cbn [split_units]. auto.
    - destruct (spaced_units x t Hx) as (vs & T). pose proof (spaced_reads x t Hx) as R. destruct T as (T1 & T2 & T3 & T4). exists (vs ++ us). split; [apply Forall_app; auto|]. split; [rewrite utexts_app, T3, E; reflexivity|].
      rewrite (split_end t vs us (conj T1 (conj T2 (conj T3 T4))) (end_units us s E F A)). split.
      + rewrite (make_single eps t x _ R), M; [reflexivity|]. intros c z l El. exact (N c (z :: l) El).
      + intros c l K. injection K as <- _. exact (rd_col eps t x R).
    - destruct (spaced_units x t Hx) as (vs & T). pose proof (spaced_reads x t Hx) as R. destruct (spaced_units y u Hy) as (ws & U). pose proof (spaced_reads y u Hy) as Q. pose proof T as (T1 & T2 & T3 & T4). pose proof U as (U1 & U2 & U3 & U4).
      exists (vs ++ UColon :: ws ++ us). split; [apply Forall_app; split; [exact T1|constructor; [exact Logic.I|apply Forall_app; auto]]|]. split.
      { rewrite utexts_app, T3. f_equal. unfold utexts. cbn [map concat]. f_equal. rewrite map_app, concat_app. unfold utexts in U3, E. rewrite U3, E. reflexivity. }
      rewrite (proj1 (proj2 (split_text t vs T (ws ++ us)))), (split_end u ws us U (end_units us s E F A)). split.
      + rewrite (make_double eps t x u y _ R Q), M. reflexivity.
      + intros c l K. injection K as <- _. exact (rd_col eps t x R).
  Qed.
  Lemma spaced_pair_string_read ps s : spaced_pairs one eps ps s -> rbind (new_tokenizer gr valid ms eps) (fun t => tokenize_pair_string gr valid eps t s true) = Ok ps.
  Proof.
    intros H. destruct (spaced_pairs_units ps s H) as (us & F & <- & M & _). destruct (split_at_spaces_units gr valid one I ms eps O NS us F) as (t & -> & E). cbn [rbind]. unfold tokenize_pair_string. rewrite E. exact M.
  Qed.
  Lemma spaced_string_units xs s : spaced_string one eps xs s -> exists us, Forall ok us /\ utexts us = s /\ Forall2 (reads eps) (split_units [] us) xs /\
    forall r, split_units [] (us ++ UColon :: r) = split_units [] us ++ COL :: split_units [] r.
  Proof.
    induction 1 as [|xs s H (us & F & E & M & C)|x t xs s Hx H (us & F & E & M & C) A].
    - exists []. split; [constructor|]. split; [reflexivity|]. split; [constructor|reflexivity].
    - exists (USpace :: us). split; [constructor; [exact Logic.I|exact F]|]. split; [unfold utexts in *; cbn [map concat]; rewrite E; reflexivity|]. cbn [split_units app]. auto.
    - destruct (spaced_units x t Hx) as (vs & T). pose proof (spaced_reads x t Hx) as R. pose proof T as (T1 & T2 & T3 & T4). exists (vs ++ us). split; [apply Forall_app; auto|]. split; [rewrite utexts_app, T3, E; reflexivity|].
      pose proof (end_units us s E F A) as Eu. rewrite (split_end t vs us T Eu). split; [constructor; assumption|]. intros r. rewrite <- app_assoc. destruct Eu as [->|(us' & ->)].
      + cbn [app]. rewrite (proj1 (proj2 (split_text t vs T r))). reflexivity.
      + cbn [app]. rewrite (proj1 (split_text t vs T _)). specialize (C r). cbn [app split_units] in *. rewrite C. reflexivity.
  Qed.
  Lemma spaced_string_pair_read xs ys s u : spaced_string one eps xs s -> spaced_string one eps ys u ->
    exists ps, rbind (new_tokenizer gr valid ms eps) (fun t => tokenize_string_pair gr valid eps t (s ++ colon ++ u) true) = Ok ps /\
    map fst ps = xs ++ repeat EPSILON_SYMBOL (length ys - length xs) /\ map snd ps = ys ++ repeat EPSILON_SYMBOL (length xs - length ys).
  Proof.
    intros Hs Hu. destruct (spaced_string_units xs s Hs) as (us & F & <- & M & C). destruct (spaced_string_units ys u Hu) as (vs & G & <- & M' & _).
    assert (Fa : Forall ok (us ++ UColon :: vs)) by (apply Forall_app; split; [exact F|constructor; [exact Logic.I|exact G]]). replace (utexts us ++ colon ++ utexts vs) with (utexts (us ++ UColon :: vs)) by (rewrite utexts_app; reflexivity).
    destruct (split_at_spaces_units gr valid one I ms eps O NS _ Fa) as (t & -> & E). cbn [rbind]. unfold tokenize_string_pair. rewrite E. cbn [rbind]. rewrite C, (at_col_some eps _ xs _ M). apply zip_read; assumption.
  Qed.
  Lemma spaced_string_read xs s : spaced_string one eps xs s -> rbind (new_tokenizer gr valid ms eps) (fun t => tokenize_string_pair gr valid eps t s true) = Ok (map (fun x => (x, x)) xs).
  Proof.
    intros Hs. destruct (spaced_string_units xs s Hs) as (us & F & <- & M & _). destruct (split_at_spaces_units gr valid one I ms eps O NS us F) as (t & -> & E). cbn [rbind]. unfold tokenize_string_pair. rewrite E. cbn [rbind]. rewrite (at_col_none eps _ xs M).
    destruct (zip_read eps _ xs M _ xs M) as (ps & -> & E1 & E2). rewrite Nat.sub_diag in E1, E2. cbn [repeat] in E1, E2. rewrite app_nil_r in E1, E2. f_equal. revert ps E1 E2. clear. induction xs as [|x xs IH]; intros [|[a b] ps] E1 E2; cbn in *; try discriminate; [reflexivity|].
    injection E1 as -> E1. injection E2 as -> E2. rewrite (IH ps E1 E2). reflexivity.
  Qed.
End Spaces.
