(** The longest symbol is taken; reading ends. *)
From Verif Require Import Base HP_Model HP_Spec HP_Proofs HP_Proofs2 HP_Proofs3 HP_Proofs4 HP_Proofs5.
From Coq Require Import Lia NArith.

Lemma trie_longest : forall s t k r, trie_extract t s = Ok (k, r) -> forall y v, s = y ++ v -> trie_get t y <> None ->
  match k with None => False | Some _ => length r <= length v end.
Proof.
  induction s as [|c s IH]; intros t k r E y v Es G.
  { destruct y; [contradiction|discriminate]. }
  cbn [trie_extract] in E. destruct (Ascii.eqb c byte255); [discriminate|].
  destruct y as [|c' y]; [contradiction|]. injection Es as <- Es.
  destruct (aget c (letters t)) as [u|] eqn:Al.
  - destruct (trie_extract u s) as [[k' r']| | |] eqn:Ex; try discriminate. cbn [rbind] in E. pose proof (trie_extract_spec _ _ _ _ Ex) as Sp.
    destruct y as [|d y].
    + cbn [trie_get] in G. simpl in Es. subst v. destruct k' as [k'|].
      * injection E as <- <-. destruct Sp as [(y & -> & _)|(_ & -> & _)]; [rewrite app_length; lia|simpl; lia].
      * subst r'. destruct (aget c (symbols t)); [|congruence]. injection E as <- <-. lia.
    + rewrite trie_get_cons, Al in G. specialize (IH _ _ _ Ex _ _ Es G). destruct k' as [k'|]; [|contradiction]. injection E as <- <-. exact IH.
  - destruct y as [|d y]; [|rewrite trie_get_cons, Al in G; contradiction]. cbn [trie_get] in G. simpl in Es. subst v.
    destruct (aget c (symbols t)); [|congruence]. injection E as <- <-. lia.
Qed.
Lemma add_symbols_snoc names p : add_symbols (names ++ [p]) = add_symbol (add_symbols names) p.
Proof. unfold add_symbols. rewrite fold_left_app. reflexivity. Qed.
Lemma all_in_trie names : (forall y, In y names -> y <> [] -> trie_get (strie (add_symbols names)) y <> None) /\
  (forall c d p, In (c :: d :: p) names -> aget c (ascii_symbols (add_symbols names)) = Some 0).
Proof.
  induction names as [|p names [IH1 IH2]] using rev_ind; [split; intros; contradiction|].
  rewrite add_symbols_snoc. revert IH1 IH2. generalize (add_symbols names). intros z IH1 IH2. split.
  - intros y I N. apply in_app_iff in I. unfold add_symbol. destruct p as [|c p].
    + apply IH1; auto. destruct I as [I|[<-|[]]]; [auto|congruence].
    + cbn [strie]. rewrite trie_get_add by discriminate. destruct (bstr_eqb_spec y (c :: p)) as [->|Ny]; [discriminate|].
      destruct I as [I|[<-|[]]]; [auto|congruence].
  - intros c d q I. apply in_app_iff in I. unfold add_symbol. destruct p as [|c' p].
    + cbn [ascii_symbols]. destruct I as [I|[Q|[]]]; [eauto|discriminate].
    + cbn [ascii_symbols]. destruct I as [I|[Q|[]]].
      * destruct (aget c' (ascii_symbols z)) as [[|n]|] eqn:A; [eauto| |].
        -- cbv iota. rewrite aget_mset. destruct (Ascii.eqb_spec c c') as [->|]; [|eauto]. rewrite (IH2 _ _ _ I) in A. discriminate.
        -- cbv iota. rewrite aget_mset. destruct (Ascii.eqb_spec c c') as [->|]; [|eauto]. rewrite (IH2 _ _ _ I) in A. discriminate.
      * injection Q as -> ->. destruct (aget c (ascii_symbols z)) as [[|n]|] eqn:A; [exact A| |]; cbv iota; rewrite aget_mset, Ascii.eqb_refl; reflexivity.
Qed.
(** No longer symbol starts there; none at all if none is found (and the text does not start with a NUL). *)
Lemma extract_longest names s k r : extract_symbol (add_symbols names) s = Ok (k, r) -> nul_free s -> forall y v, s = y ++ v -> y <> [] -> In y names ->
  match k with None => False | Some _ => length r <= length v end.
Proof.
  destruct (all_in_trie names) as [T A]. intros E Nf y v Es Ny I. destruct s as [|c s]; [discriminate|]. cbn [extract_symbol] in E.
  destruct (Ascii.eqb_spec c NUL) as [->|]. { exfalso. apply Nf. left. reflexivity. }
  destruct (Ascii.eqb c byte255); [discriminate|].
  destruct (aget c (ascii_symbols (add_symbols names))) as [[|q]|] eqn:Ea.
  2:{ injection E as <- <-. destruct y as [|c' [|d y]]; [congruence| |]; injection Es as <- Es; [subst; simpl; lia|]. apply A in I. congruence. }
  all: eapply trie_longest; eauto.
Qed.

(** * Progress *)
Lemma trie_extract_length : forall s t k r, trie_extract t s = Ok (k, r) -> match k with None => r = s | Some _ => s = [] \/ length r < length s end.
Proof.
  intros s t k r E. apply trie_extract_spec in E. destruct k as [k|]; [|exact E]. destruct E as [(y & -> & G)|(_ & -> & _)].
  - right. destruct y; [discriminate|]. rewrite app_length. simpl. lia.
  - destruct s; [auto|right; simpl; lia].
Qed.
Lemma trie_extract_total : forall s t, trie_extract t s <> Diverge.
Proof.
  induction s as [|c s IH]; intros t; cbn [trie_extract]; [discriminate|]. destruct (Ascii.eqb c byte255); [discriminate|].
  destruct (aget c (letters t)) as [u|]; [|destruct (aget c (symbols t)); discriminate].
  specialize (IH u). destruct (trie_extract u s) as [[[k|] r]| | |]; try discriminate; [|congruence]. cbn [rbind]. destruct (aget c (symbols t)); discriminate.
Qed.
Lemma make_token_progress g e s : match make_token g e s with
  | Ok (t, o, is') => (t <> TNone -> length (bytes is') < length s \/ (bytes is' = s /\ bad is' = true)) /\ length (bytes is') <= length s /\ (null_flush g = false -> o = [])
  | Diverge => False | _ => True end.
Proof.
  unfold make_token, extract_symbol. destruct s as [|c s]; [exact I|].
  assert (match read_utf8_char (c :: s) with Ok (ch, is') => (length (bytes is') < length (c :: s) \/ (bytes is' = c :: s /\ bad is' = true)) /\ length (bytes is') <= length (c :: s) | Throw => True | _ => False end) as RU.
  { unfold read_utf8_char. destruct (utf8_length c) as [n|]; [|exact I]. destruct (take_until_nul n (c :: s)) as [x r] eqn:Et.
    destruct (take_until_nul_text _ _ _ _ Et) as (Es & _ & _). cbn [bytes bad]. destruct x as [|b x]; [simpl in Es; subst r; simpl; auto|]. rewrite Es, app_length. simpl. lia. }
  assert (forall k r, match k with None => r = c :: s | Some _ => length r < length (c :: s) end ->
    match match k with
      | Some 0 => Ok (TNone, [], IS r false)
      | Some k => Ok (TSym k e, [], IS r false)
      | None =>
      rbind (read_utf8_char r) (fun '(ch, is) =>
      let o := if null_flush g && match ch with [] => true | _ => false end then [NUL] else [] in
      Ok (if e then TChar (firstn 4 ch)
          else match ch with c :: _ => if escaped_char g c then TRes c else TChar (firstn 4 ch) | [] => TChar [] end, o, is))
      end with
    | Ok (t, o, is') => (t <> TNone -> length (bytes is') < length (c :: s) \/ (bytes is' = c :: s /\ bad is' = true)) /\ length (bytes is') <= length (c :: s) /\ (null_flush g = false -> o = [])
    | Diverge => False | _ => True end) as K.
  { intros [[|k]|] r H; [split; [intros; congruence|]; cbn [bytes]; split; [lia|auto]|split; [left; exact H|]; cbn [bytes]; split; [lia|auto]|]. subst r.
    destruct (read_utf8_char (c :: s)) as [[ch is]| | |]; try contradiction; [|exact I]. cbn [rbind]. destruct RU. split; [auto|]. split; [auto|]. intros Nf. cbv zeta. rewrite Nf. reflexivity. }
  destruct (Ascii.eqb c NUL); [apply (K None); reflexivity|]. destruct (Ascii.eqb c byte255); [exact I|].
  destruct (aget c (ascii_symbols (symb (alph g)))) as [[|q]|].
  2:{ apply (K (Some (S q)) s). simpl. lia. }
  all: pose proof (trie_extract_total (c :: s) (strie (symb (alph g)))) as Td; destruct (trie_extract _ (c :: s)) as [[k r]| | |] eqn:Ex; [|exact I|exact I|congruence].
  all: apply trie_extract_length in Ex; cbn [rbind]; apply (K k r); destruct k; [destruct Ex; [discriminate|auto]|exact Ex].
Qed.
Lemma delimited_loop_total g d : forall f s, length s < f -> match delimited_loop f g d s with
  | Ok (x, o, e, r) => length r <= length s /\ (null_flush g = false -> o = []) | Diverge => False | _ => True end.
Proof.
  induction f as [|f IH]; intros s L; [lia|]. cbn [delimited_loop]. destruct s as [|c s]; [simpl; auto|]. simpl in L.
  assert (null_flush g = false -> flushed g c = []) as Fl by (unfold flushed; intros ->; reflexivity).
  assert (forall esc r, length r <= length s -> match (if Ascii.eqb c d then Ok (c :: esc, flushed g c, Some c, r)
            else rbind (delimited_loop f g d r) (fun '(x, o, e, r') => Ok (c :: esc ++ x, flushed g c ++ o, e, r'))) with
    | Ok (x, o, e, r) => length r <= length (c :: s) /\ (null_flush g = false -> o = []) | Diverge => False | _ => True end) as K.
  { intros esc r Lr. destruct (Ascii.eqb c d); [simpl; split; [lia|auto]|]. specialize (IH r ltac:(lia)).
    destruct (delimited_loop f g d r) as [[[[x o] e] r']| | |]; try exact I; try contradiction. destruct IH as [IH Fo]. cbn [rbind]. split; [simpl; lia|]. intros N. rewrite Fl, Fo by auto. reflexivity. }
  destruct (Ascii.eqb c "\"%char); [|apply K; lia]. destruct s as [|b s]; [exact I|]. cbn [read_escaped]. destruct (escaped_char g b); [|exact I].
  cbn [rbind]. apply K. simpl. lia.
Qed.
Lemma read_delimited_progress g d s : match read_delimited g d s with
  | Ok (x, o, r) => length r < length s /\ (null_flush g = false -> o = []) | Diverge => False | _ => True end.
Proof.
  unfold read_delimited. destruct s as [|c s]; [exact I|].
  assert (match (if Ascii.eqb c "\"%char then rbind (read_escaped g s) (fun '(d, r) => Ok ([d], r)) else Ok ([], s)) with
    | Ok (esc, r) => length r <= length s | Throw => True | _ => False end) as K.
  { destruct (Ascii.eqb c "\"%char); [|lia]. destruct s as [|b s]; [exact I|]. cbn [read_escaped]. destruct (escaped_char g b); [|exact I]. simpl. lia. }
  destruct (if Ascii.eqb c "\"%char then _ else _) as [[esc r]| | |]; try exact I; try contradiction. cbn [rbind].
  assert (null_flush g = false -> flushed g c = []) as Fl by (unfold flushed; intros ->; reflexivity).
  assert (match (if Ascii.eqb c d then Ok ([], [], Some c, r) else delimited_loop (S (length r)) g d r) with
    | Ok (x, o, e, r') => length r' <= length r /\ (null_flush g = false -> o = []) | Diverge => False | _ => True end) as K2.
  { destruct (Ascii.eqb c d); [auto|]. apply delimited_loop_total. lia. }
  destruct (if Ascii.eqb c d then _ else _) as [[[[x o2] e] r']| | |]; try exact I; try contradiction. destruct K2 as [K2 Fo]. cbn [rbind].
  assert (null_flush g = false -> flushed g c ++ o2 = []) as Fa by (intros N; rewrite Fl, Fo by auto; reflexivity).
  destruct (Ascii.eqb c "["%char && _).
  - destruct r' as [|b r']; [exact I|]. destruct (Ascii.eqb b d); [|exact I]. simpl in *. split; [lia|auto].
  - destruct e as [b|]; [|exact I]. destruct (Ascii.eqb b d); [|exact I]. simpl. split; [lia|auto].
Qed.
Lemma read_token_progress g is : match read_token g is with
  | Ok (t, o, is') => (t <> TNone -> length (bytes is') < length (bytes is) \/ (bytes is' = bytes is /\ bad is' = true)) /\ (null_flush g = false -> o = [])
  | Diverge => False | _ => True end.
Proof.
  unfold read_token. destruct (bad is); [exact I|]. destruct is as [s bd]. cbn [bytes]. destruct s as [|c s]; [split; [congruence|auto]|].
  destruct (Ascii.eqb c NUL && null_flush g) eqn:En.
  { apply andb_true_iff in En. destruct En as [_ ->]. split; [left; simpl; lia|discriminate]. }
  destruct (escaped_char g c).
  - destruct (Ascii.eqb c "["%char).
    + pose proof (read_delimited_progress g "]"%char (c :: s)) as K. destruct (read_delimited _ _ _) as [[[x o] r]| | |]; try exact I; try contradiction. destruct K. cbn [rbind bytes]. auto.
    + destruct (Ascii.eqb c "\"%char).
      * pose proof (make_token_progress g true s) as K. destruct (make_token g true s) as [[[t o] is']| | |]; try exact I; try contradiction. destruct K as (_ & K2 & K3). split; auto. intros N. left. simpl. lia.
      * destruct (Ascii.eqb c "<"%char).
        -- pose proof (make_token_progress g false (c :: s)) as K. destruct (make_token g false (c :: s)) as [[[t o] is']| | |] eqn:Em; try exact I; try contradiction. destruct K as (K & K2 & K3). cbn [rbind].
           assert (length (bytes is') < length (c :: s) \/ (bytes is' = c :: s /\ bad is' = true)) as K4.
           { assert (t = TNone \/ t <> TNone) as [->|Nt] by (destruct t; auto; right; discriminate); [|auto]. left.
             unfold make_token in Em. destruct (extract_symbol (symb (alph g)) (c :: s)) as [[k r]| | |] eqn:Ex; try discriminate. cbn [rbind] in Em.
             destruct k as [[|k]|]; try discriminate.
             - injection Em as _ <-. cbn [bytes]. unfold extract_symbol in Ex. destruct (Ascii.eqb c NUL); [discriminate|]. destruct (Ascii.eqb c byte255); [discriminate|].
               destruct (aget c _) as [[|q]|]; [|discriminate|]; apply trie_extract_length in Ex; destruct Ex as [|]; [discriminate|auto|discriminate|auto].
             - destruct (read_utf8_char r) as [[ch is]| | |]; try discriminate. cbn [rbind] in Em. destruct ch as [|b ch]; [discriminate|]. destruct (escaped_char g b); discriminate. }
           destruct t as [|k e| | |]; try (split; auto). destruct (is_tag (alph g) k); split; auto.
        -- split; auto.
  - pose proof (make_token_progress g false (c :: s)) as K. destruct (make_token g false (c :: s)) as [[[t o] is']| | |]; try exact I; try contradiction. destruct K as (K & _ & K3). auto.
Qed.
Lemma reads_ends g is : null_flush g = false ->
  exists ts is', reads_some g is ts is' /\ (read_token g is' = Throw \/ read_token g is' = Ub \/ exists is'', read_token g is' = Ok (TNone, [], is'')).
Proof.
  intros Nf. remember (length (bytes is)) as n eqn:En. revert is En. induction n as [n IH] using lt_wf_ind. intros is En.
  pose proof (read_token_progress g is) as K. destruct (read_token g is) as [[[t o] is1]| | |] eqn:E; [|exists [], is; split; [constructor|auto]..|contradiction].
  destruct K as [K Fo]. specialize (Fo Nf). subst o.
  assert (t = TNone \/ t <> TNone) as [->|Nt] by (destruct t; auto; right; discriminate).
  { exists [], is. split; [constructor|eauto]. }
  destruct (K Nt) as [L|[_ Bd]].
  - destruct (IH (length (bytes is1)) ltac:(lia) is1 eq_refl) as (ts & is' & R & H). exists (t :: ts), is'. split; auto. econstructor; eauto.
  - exists [t], is1. split; [econstructor; eauto; constructor|]. right. left. unfold read_token. rewrite Bd. reflexivity.
Qed.
