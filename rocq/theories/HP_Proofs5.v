(** The text of the tokens is the text they were read from. *)
From Verif Require Import Base HP_Model HP_Spec HP_Proofs HP_Proofs2 HP_Proofs3 HP_Proofs4.
From Coq Require Import Lia NArith.

Lemma ew_inv_plain c l : escaped_well (c :: l) -> c <> "\"%char -> escaped_well l.
Proof. intros H N. inversion H; subst; auto. congruence. Qed.
Lemma ew_inv_escape l : escaped_well ("\"%char :: l) -> exists c r, l = c :: r /\ special c /\ escaped_well r.
Proof. intros H. inversion H as [|? ? N|c r]; subst; [congruence|]. eauto. Qed.
Lemma ew_skip y r : escaped_well (y ++ r) -> ~ In "\"%char y -> escaped_well r.
Proof.
  induction y as [|c y IH]; simpl; auto. intros H N. apply IH; [|tauto]. eapply ew_inv_plain; eauto.
Qed.
Lemma continued_suffix u v : continued (u ++ v) -> continued v.
Proof. intros H x c w ->. apply (H (u ++ x) c w). rewrite app_assoc. reflexivity. Qed.
Definition nul_free (l : bstr) := ~ In (ascii_of_nat 0) l.
Lemma nul_free_suffix u v : nul_free (u ++ v) -> nul_free v.
Proof. intros H I. apply H. apply in_app_iff. auto. Qed.
Lemma plain_suffix u v : plain_text (u ++ v) -> escaped_well v -> plain_text v.
Proof. intros (_ & N & C) E. split; auto. split; [exact (nul_free_suffix _ _ N)|exact (continued_suffix _ _ C)]. Qed.

(** * Blanks *)
Lemma delimited_loop_text g d : d <> "\"%char -> forall f s x o e r, delimited_loop f g d s = Ok (x, o, e, r) ->
  s = x ++ r /\ (escaped_well s -> escaped_well r).
Proof.
  intros Nd. induction f as [|f IH]; intros s x o e r E; [discriminate|]. cbn [delimited_loop] in E.
  destruct s as [|c s]; [injection E as <- <- <- <-; auto|].
  destruct (Ascii.eqb_spec c "\"%char) as [->|Nc].
  - destruct s as [|c s]; [discriminate|]. cbn [read_escaped rbind] in E. destruct (escaped_char g c); [|discriminate]. cbn [rbind] in E.
    destruct (Ascii.eqb_spec "\"%char d) as [<-|]; [congruence|].
    destruct (delimited_loop f g d s) as [[[[x' o'] e'] r']| | |] eqn:Ed; try discriminate. cbn [rbind] in E. injection E as <- <- <- <-.
    destruct (IH _ _ _ _ _ Ed) as [-> Ew]. split; [reflexivity|]. intros H. apply ew_inv_escape in H. destruct H as (c1 & r1 & Eq & _ & H). injection Eq as <- <-. auto.
  - destruct (Ascii.eqb c d).
    + injection E as <- <- <- <-. split; [reflexivity|]. intros H. eapply ew_inv_plain; eauto.
    + destruct (delimited_loop f g d s) as [[[[x' o'] e'] r']| | |] eqn:Ed; try discriminate. cbn [rbind app] in E. injection E as <- <- <- <-.
      destruct (IH _ _ _ _ _ Ed) as [-> Ew]. split; [reflexivity|]. intros H. apply Ew. eapply ew_inv_plain; eauto.
Qed.
Lemma read_delimited_text g d s x o r : d <> "\"%char -> read_delimited g d s = Ok (x, o, r) ->
  s = x ++ r /\ (escaped_well s -> escaped_well r).
Proof.
  intros Nd E. unfold read_delimited in E. destruct s as [|c s]; [discriminate|].
  match type of E with rbind ?c _ = _ => destruct c as [[esc s1]| | |] eqn:E1; try discriminate end.
  assert (c :: s = c :: esc ++ s1 /\ (escaped_well (c :: s) -> escaped_well s1)) as [Es Ew1].
  { destruct (Ascii.eqb_spec c "\"%char) as [->|Nc].
    - destruct s as [|c1 s]; [discriminate|]. cbn [read_escaped rbind] in E1. destruct (escaped_char g c1); [|discriminate]. cbn [rbind] in E1. injection E1 as <- <-.
      split; [reflexivity|]. intros H. apply ew_inv_escape in H. destruct H as (c2 & r1 & Eq & _ & H). injection Eq as <- <-. auto.
    - injection E1 as <- <-. split; [reflexivity|]. intros H. eapply ew_inv_plain; eauto. }
  cbn [rbind] in E.
  match type of E with rbind ?c _ = _ => destruct c as [[[[x2 o2] e2] s2]| | |] eqn:E2; try discriminate end.
  assert (s1 = x2 ++ s2 /\ (escaped_well s1 -> escaped_well s2)) as [Es2 Ew2].
  { destruct (Ascii.eqb c d); [injection E2 as <- <- <- <-; auto|]. eapply delimited_loop_text; eauto. }
  cbn [rbind] in E. rewrite Es. subst s1.
  match type of E with (if ?b then _ else _) = _ => destruct b end.
  - destruct s2 as [|d2 s2]; [discriminate|]. destruct (Ascii.eqb_spec d2 d) as [->|]; [|discriminate]. injection E as <- _ <-.
    split; [cbn [app]; rewrite <- !app_assoc; reflexivity|]. intros H. eapply ew_inv_plain; [|exact Nd]. apply Ew2, Ew1. rewrite Es. exact H.
  - destruct e2 as [d2|]; [|discriminate]. destruct (Ascii.eqb d2 d); [|discriminate]. injection E as <- _ <-.
    split; [cbn [app]; rewrite <- app_assoc; reflexivity|]. intros H. apply Ew2, Ew1. rewrite Es. exact H.
Qed.

(** * Characters *)
Lemma take_until_nul_text n s x r : take_until_nul n s = (x, r) -> s = x ++ r /\ length x <= n /\ (nul_free s -> x = firstn n s).
Proof.
  revert s x r. induction n as [|n IH]; intros s x r E.
  { cbn [take_until_nul] in E. injection E as <- <-. auto. }
  destruct s as [|c s]; cbn [take_until_nul] in E; [injection E as <- <-; simpl; split; auto; split; [lia|auto]|].
  destruct (Ascii.eqb_spec c NUL) as [->|N].
  - injection E as <- <-. split; [reflexivity|]. split; [simpl; lia|]. intros H. exfalso. apply H. left. reflexivity.
  - destruct (take_until_nul n s) as [x' r'] eqn:Et. injection E as <- <-. destruct (IH _ _ _ Et) as (-> & L & Fn).
    split; [reflexivity|]. split; [simpl; lia|]. intros H. simpl. f_equal. apply Fn. intros I. apply H. right. exact I.
Qed.
Lemma utf8_length_following c n : utf8_length c = Some n -> n = S (following c) /\ n <= 4.
Proof.
  unfold utf8_length, following. destruct (N.leb_spec (N_of_ascii c) 127).
  - intros E. injection E as <-. destruct (N.leb_spec 240 (N_of_ascii c)); [lia|]. destruct (N.leb_spec 224 (N_of_ascii c)); [lia|].
    destruct (N.leb_spec 192 (N_of_ascii c)); [lia|]. auto.
  - destruct (240 <=? N_of_ascii c)%N; [intros E; injection E as <-; auto|]. destruct (224 <=? N_of_ascii c)%N; [intros E; injection E as <-; auto|].
    destruct (192 <=? N_of_ascii c)%N; intros E; [injection E as <-; auto|discriminate].
Qed.
Lemma special_small c : special c -> (N_of_ascii c < 128)%N /\ c <> ascii_of_nat 0.
Proof. intros H. unfold special in H. simpl in H. repeat (destruct H as [<-|H]; [split; [reflexivity|discriminate]|]). contradiction. Qed.
Lemma escape_plain g x : raw g = false -> Forall (fun c => ~ special c) x -> escape g x = x.
Proof.
  intros R. induction 1 as [|c x N _ IH]; [reflexivity|]. unfold escape in *. simpl. rewrite IH.
  destruct (escaped_char g c) eqn:E; [|reflexivity]. apply reserved_special in E; auto. tauto.
Qed.
Lemma backslash_special : special "\"%char.
Proof. unfold special. simpl. auto 12. Qed.

(** A token made of the bytes [s]. *)
Lemma make_token_text g names e s t o is' : raw g = false -> has_symbols (alph g) names -> nul_free s -> continued s ->
  make_token g e s = Ok (t, o, is') -> t <> TNone -> (forall c, t <> TRes c) ->
  match s with c :: _ => if e then special c else c <> "\"%char | [] => False end ->
  (if e then ["\"%char] else []) ++ s = token_to_string g t ++ bytes is' /\ bad is' = false /\
  exists y, s = y ++ bytes is' /\ y <> [] /\ (In "\"%char y -> y = ["\"%char]).
Proof.
  intros R (Sy & Pr & Bs) Nf Co E Nn Nr Hc. unfold make_token in E.
  destruct (extract_symbol (symb (alph g)) s) as [[k r]| | |] eqn:Ex; try discriminate. cbn [rbind] in E.
  rewrite Sy in Ex. apply extract_symbol_spec in Ex. destruct k as [[|k]|].
  { injection E as <- _ _. congruence. }
  - injection E as <- <- <-. destruct Ex as [(y & -> & Ny & Y)|(Q & _)]; [|discriminate]. cbn [token_to_string bytes bad].
    rewrite Pr by lia. replace (nth (S k) names []) with y by (symmetry; apply nth_error_nth; exact Ny). rewrite <- app_assoc. split; [reflexivity|]. split; [reflexivity|].
    exists y. split; [reflexivity|]. split; auto. rewrite Forall_forall in Bs. apply Bs. eapply nth_error_In, Ny.
  - subst r. unfold read_utf8_char in E. destruct s as [|c s]; [contradiction|].
    destruct (utf8_length c) as [n|] eqn:Eu; [|discriminate]. apply utf8_length_following in Eu. destruct Eu as [-> L4].
    destruct (take_until_nul (S (following c)) (c :: s)) as [x r] eqn:Et. cbn [rbind] in E.
    destruct (take_until_nul_text _ _ _ _ Et) as (Es & Lx & Fx). specialize (Fx Nf). cbn [firstn] in Fx.
    pose proof (Co [] c s eq_refl) as Fo. rewrite Fx in E, Es, Lx. cbn [app] in E.
    assert (firstn 4 (c :: firstn (following c) s) = c :: firstn (following c) s) as F4 by (apply firstn_all2; lia).
    destruct e.
    + rewrite F4 in E. injection E as <- <- <-. cbn [token_to_string bytes bad]. destruct (special_small _ Hc) as [Sm _].
      assert (following c = 0) as Z by (unfold following; destruct (N.leb_spec 240 (N_of_ascii c)); [lia|]; destruct (N.leb_spec 224 (N_of_ascii c)); [lia|]; destruct (N.leb_spec 192 (N_of_ascii c)); [lia|reflexivity]).
      rewrite Z in *. cbn [firstn] in *. unfold escape. cbn [flat_map]. replace (escaped_char g c) with true by (symmetry; apply reserved_special; auto).
      rewrite Es. split; [reflexivity|]. split; [reflexivity|]. exists [c]. split; [reflexivity|]. split; [discriminate|]. intros [->|[]]. reflexivity.
    + destruct (escaped_char g c) eqn:Ec; [injection E as <- _ _; exfalso; eapply Nr; reflexivity|].
      rewrite F4 in E. injection E as <- <- <-. cbn [token_to_string bytes bad app].
      assert (Forall (fun d => ~ special d) (c :: firstn (following c) s)) as Ns.
      { constructor. - intros Sp. apply (reserved_special g) in Sp; auto. congruence.
        - eapply Forall_impl; [|exact Fo]. intros d Hd Sp. apply special_small in Sp. destruct Sp as [Sp _]. simpl in Hd. apply (N.lt_irrefl (N_of_ascii d)). eapply N.lt_le_trans; eauto. }
      rewrite escape_plain by auto. split; [exact Es|]. split; [reflexivity|]. eexists. split; [exact Es|]. split; [discriminate|].
      intros I. rewrite Forall_forall in Ns. exfalso. apply (Ns _ I), backslash_special.
Qed.

Lemma make_token_none g names e s o is' : has_symbols (alph g) names -> make_token g e s = Ok (TNone, o, is') ->
  (exists y, nth_error names 0 = Some y /\ y <> [] /\ s = y ++ bytes is') \/ (s <> [] /\ exists v, v <> [] /\ In (s ++ v) names).
Proof.
  intros (Sy & _) E. unfold make_token in E.
  destruct (extract_symbol (symb (alph g)) s) as [[k r]| | |] eqn:Ex; try discriminate. cbn [rbind] in E.
  rewrite Sy in Ex. apply extract_symbol_spec in Ex. destruct k as [[|k]|]; [|discriminate|].
  - injection E as _ <-. destruct Ex as [(y & -> & Ny & Y)|(_ & N & v & Nv & I)]; [left|right]; eauto 6.
  - destruct (read_utf8_char r) as [[ch is]| | |]; try discriminate. cbn [rbind] in E. destruct e; [discriminate|]. destruct ch; [discriminate|].
    destruct (escaped_char g a); discriminate.
Qed.

(** * One token *)
Lemma read_token_text g names is t is' : raw g = false -> has_symbols (alph g) names -> plain_text (bytes is) -> bad is = false ->
  read_token g is = Ok (t, [], is') -> t <> TNone -> (forall c, t <> TRes c) ->
  bytes is = token_to_string g t ++ bytes is' /\ bad is' = false /\ plain_text (bytes is').
Proof.
  intros R Hs Pt Nb E Nn Nr. destruct is as [s bd]. cbn [bytes bad] in *. subst bd. unfold read_token in E. cbn [bad bytes] in E.
  destruct s as [|c s]; [injection E as <- _; congruence|].
  destruct Pt as (Ew & Nf & Co).
  destruct (Ascii.eqb c NUL && null_flush g); [discriminate|].
  assert (forall (e : bool) (s1 : bstr), (c :: s = if e then "\"%char :: s1 else s1) -> (e = false -> c <> "\"%char) ->
    make_token g e s1 = Ok (t, [], is') -> c :: s = token_to_string g t ++ bytes is' /\ bad is' = false /\ plain_text (bytes is')) as MT.
  { intros e s1 Es Ne Em.
    assert (match s1 with d :: _ => if e then special d else d <> "\"%char | [] => False end) as Hd.
    { destruct e; [|subst s1; auto]. injection Es as -> ->. apply ew_inv_escape in Ew. destruct Ew as (d & r & -> & Sd & _). exact Sd. }
    assert (nul_free s1 /\ continued s1) as [Nf1 Co1].
    { destruct e; [|subst s1; auto]. rewrite Es in Nf, Co. split; [exact (nul_free_suffix ["\"%char] s1 Nf)|exact (continued_suffix ["\"%char] s1 Co)]. }
    destruct (make_token_text g names e s1 t [] is' R Hs Nf1 Co1 Em Nn Nr Hd) as (T & Bd & y & Ey & Ny & By).
    split; [rewrite Es; destruct e; exact T|]. split; [exact Bd|].
    assert (plain_text ((if e then ["\"%char] else []) ++ y ++ bytes is')) as P.
    { rewrite <- Ey. replace ((if e then ["\"%char] else []) ++ s1) with (c :: s) by (rewrite Es; destruct e; reflexivity). split; auto. }
    apply (plain_suffix ((if e then ["\"%char] else []) ++ y)); [rewrite <- app_assoc; exact P|].
    destruct P as (Ewp & _). destruct e; cbn [app] in Ewp.
    - apply ew_inv_escape in Ewp. destruct Ewp as (d & r & Ed & Sd & Er). destruct y as [|d' y]; [congruence|]. injection Ed as -> Ed.
      destruct (in_dec ascii_dec "\"%char (d :: y)) as [I|I].
      + apply By in I. injection I as -> ->. simpl in Ed. subst r. exact Er.
      + rewrite <- Ed in Er. eapply ew_skip; [exact Er|]. intros I'. apply I. right. exact I'.
    - eapply ew_skip; [exact Ewp|]. intros I. apply By in I. subst y. rewrite Ey in Hd. simpl in Hd. congruence. }
  destruct (escaped_char g c) eqn:Ec.
  - destruct (Ascii.eqb_spec c "["%char) as [->|N1].
    + destruct (read_delimited g "]"%char ("["%char :: s)) as [[[x o] r]| | |] eqn:Ed; try discriminate. cbn [rbind] in E. injection E as <- _ <-.
      cbn [bytes bad token_to_string]. destruct (read_delimited_text g "]"%char _ _ _ _ (fun Q => eq_ind "]"%char (fun c => match c with "]"%char => True | _ => False end) I _ Q) Ed) as [Es Er].
      split; [exact Es|]. split; [reflexivity|]. apply (plain_suffix x); [rewrite <- Es; split; auto|]. apply Er, Ew.
    + destruct (Ascii.eqb_spec c "\"%char) as [->|N2].
      * apply (MT true s); auto. discriminate.
      * destruct (Ascii.eqb c "<"%char).
        -- destruct (make_token g false (c :: s)) as [[[t' o'] r']| | |] eqn:Em; try discriminate. cbn [rbind] in E.
           assert (t' = t /\ o' = [] /\ r' = is') as (-> & -> & ->).
           { destruct t'; try (injection E as <- _ _; exfalso; eapply Nr; reflexivity).
             destruct (is_tag (alph g) s0); injection E as <- <- <-; [auto|]. exfalso; eapply Nr; reflexivity. }
           apply (MT false (c :: s)); auto.
        -- injection E as <- _. exfalso. eapply Nr. reflexivity.
  - apply (MT false (c :: s)); auto. intros _ ->. assert (escaped_char g "\"%char = true); [|congruence]. apply reserved_special; auto. apply backslash_special.
Qed.

(** * All tokens *)
Lemma reads_text g names is ts rest : raw g = false -> has_symbols (alph g) names -> reads g is ts rest ->
  (forall c, ~ In (TRes c) ts) -> plain_text (bytes is) -> bad is = false -> bytes is = tokens_to_string g ts ++ rest /\ plain_text rest.
Proof.
  intros R Hs. induction 1 as [is is' E|is t is' ts rest E N Rd IH]; intros Nr P Nb; [auto|].
  destruct (read_token_text g names is t is' R Hs P Nb E N) as (T & Bd & P').
  { intros c ->. apply (Nr c). left. reflexivity. }
  destruct IH as [Eq Pr]; auto. { intros c I. apply (Nr c). right. exact I. }
  split; auto. rewrite T, Eq. unfold tokens_to_string. cbn [flat_map]. rewrite <- app_assoc. reflexivity.
Qed.
Lemma reads_last g is ts rest : reads g is ts rest -> exists is0 is1, read_token g is0 = Ok (TNone, [], is1) /\ bytes is0 = rest.
Proof. induction 1; eauto. Qed.
(** Nothing is left unread if the text ends with a character that occurs in no longer symbol. *)
Lemma reads_all g names is ts d : raw g = false -> has_symbols (alph g) names ->
  (forall y, In y names -> In d y -> length y <= 1) -> (forall y u v, nth_error names 0 = Some y -> y <> [] -> bytes is <> u ++ y ++ v) ->
  forall rest, reads g is ts rest -> (forall c, ~ In (TRes c) ts) -> plain_text (bytes is) -> bad is = false -> last (bytes is) d = d ->
  rest = [].
Proof.
  intros R Hs Sd N0 rest Rd Nr P Nb La. destruct (reads_text g names _ _ _ R Hs Rd Nr P Nb) as [T Pr].
  destruct (reads_last _ _ _ _ Rd) as (is0 & is1 & E & <-). destruct is0 as [s bd]. cbn [bytes] in *. unfold read_token in E. cbn [bad bytes] in E.
  destruct bd; [discriminate|]. destruct s as [|c s]; [reflexivity|]. exfalso.
  assert (last (c :: s) d = d) as Ls.
  { rewrite T in La. rewrite <- La at 2. symmetry. generalize (tokens_to_string g ts). intros u. induction u as [|b u IH]; [reflexivity|].
    rewrite <- IH. simpl. destruct (u ++ c :: s) eqn:Q; [destruct u; discriminate|]. reflexivity. }
  assert (forall (e : bool) (s1 o : bstr), (c :: s = if e then "\"%char :: s1 else s1) -> make_token g e s1 = Ok (TNone, o, is1) -> False) as MT.
  { intros e s1 o Es Em. destruct (make_token_none g names e s1 _ is1 Hs Em) as [(y & Ny & Y & Ey)|(Ns & v & Nv & I)].
    - apply (N0 y (tokens_to_string g ts ++ (if e then ["\"%char] else [])) (bytes is1) Ny Y). rewrite T, Es, Ey. destruct e; rewrite <- app_assoc; reflexivity.
    - assert (In d s1) as Id.
      { assert (last s1 d = d) as L1 by (rewrite Es in Ls; destruct e; [destruct s1; [congruence|exact Ls]|exact Ls]). rewrite <- L1 at 1.
        destruct (exists_last Ns) as (s2 & b & ->). rewrite last_last. apply in_app_iff. right. left. reflexivity. }
      assert (length (s1 ++ v) <= 1) as Ll by (apply Sd; [exact I|apply in_app_iff; auto]).
      rewrite app_length in Ll. destruct s1; [congruence|]. destruct v; [congruence|]. simpl in Ll. lia. }
  destruct (Ascii.eqb c NUL && null_flush g); [discriminate|].
  destruct (escaped_char g c); [|apply (MT false (c :: s) [] eq_refl E)].
  destruct (Ascii.eqb c "["%char). { destruct (read_delimited g "]"%char (c :: s)) as [[[x o] r]| | |]; discriminate. }
  destruct (Ascii.eqb_spec c "\"%char) as [->|]; [apply (MT true s [] eq_refl E)|].
  destruct (Ascii.eqb c "<"%char); [|discriminate].
  destruct (make_token g false (c :: s)) as [[[t' o'] r']| | |] eqn:Em; try discriminate. cbn [rbind] in E. destruct t'; try discriminate.
  destruct (is_tag (alph g) s0); discriminate.
Qed.
