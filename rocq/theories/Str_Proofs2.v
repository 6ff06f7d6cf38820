(** Proofs about lexc and xre escapes, trimming, alignment and SFST UTF-8. *)
From Coq Require Import Nnat.
From Verif Require Import Base Str_Model Str_Spec Str_Proofs Tok_Spec.

(** * lexc percents *)
Definition lp (c : ascii) : bstr :=
  if Ascii.eqb c "%" then B "%%" else if Ascii.eqb c "<" then B "%<" else if Ascii.eqb c ">" then B "%>" else [c].
Definition lp1 (c : ascii) : bstr :=
  if Ascii.eqb c "%" then B "@PERCENT@" else if Ascii.eqb c "<" then B "%<" else if Ascii.eqb c ">" then B "%>" else [c].
Definition lp2 (c : ascii) : bstr := if Ascii.eqb c "%" then B "@PERCENT@" else [c].

Lemma addPercents_eq s : addPercents s = Ok (flat_map lp s).
Proof.
  unfold addPercents. cbn [replaces]. change (B "%") with ["%"%char]. change (B "<") with ["<"%char]. change (B ">") with [">"%char].
  rewrite replace_all_one. cbn [rbind]. rewrite replace_all_one. cbn [rbind]. rewrite replace_all_one. cbn [rbind]. f_equal.
  unfold sub1. induction s as [|c s IH]; [reflexivity|]. cbn [flat_map]. rewrite !flat_map_app, IH. f_equal.
  unfold lp. destruct (Ascii.eqb_spec c "%") as [->|N]; [reflexivity|]. simpl.
  destruct (Ascii.eqb_spec c "<") as [->|N2]; [reflexivity|]. simpl.
  destruct (Ascii.eqb_spec c ">") as [->|N3]; reflexivity.
Qed.

Lemma strip_add_percents s : ~ In "@"%char s -> rbind (addPercents s) stripPercents = Ok s.
Proof.
  intros Hat. rewrite addPercents_eq. cbn [rbind]. unfold stripPercents. cbn [replaces].
  assert (E1 : replaced (B "%%") (B "@PERCENT@") (flat_map lp s) (flat_map lp1 s)).
  { clear Hat. induction s as [|c s IH]; [constructor|]. simpl. unfold lp at 1, lp1 at 1.
    destruct (Ascii.eqb_spec c "%") as [->|N]; [exact (rp_hit (B "%%") (B "@PERCENT@") _ _ IH)|].
    destruct (Ascii.eqb_spec c "<") as [->|N2].
    { simpl. apply rp_miss; [intros t K; discriminate K|]. apply rp_miss; [intros t K; discriminate K|exact IH]. }
    destruct (Ascii.eqb_spec c ">") as [->|N3].
    { simpl. apply rp_miss; [intros t K; discriminate K|]. apply rp_miss; [intros t K; discriminate K|exact IH]. }
    simpl. apply rp_miss; [|exact IH]. intros t K. injection K as K _. congruence. }
  rewrite (fun Hn => replace_all_eq _ _ _ _ Hn E1) by discriminate. cbn [rbind].
  change (B "%") with ["%"%char]. rewrite replace_all_one. cbn [rbind].
  assert (E2 : sub1 "%" (B "") (flat_map lp1 s) = flat_map lp2 s).
  { clear. unfold sub1. induction s as [|c s IH]; [reflexivity|]. cbn [flat_map]. rewrite flat_map_app, IH. f_equal.
    unfold lp1, lp2. destruct (Ascii.eqb_spec c "%") as [->|N]; [reflexivity|].
    destruct (Ascii.eqb_spec c "<") as [->|N2]; [reflexivity|]. destruct (Ascii.eqb_spec c ">") as [->|N3]; [reflexivity|].
    simpl. destruct (Ascii.eqb_spec c "%"); [congruence|reflexivity]. }
  rewrite E2.
  assert (E3 : replaced (B "@PERCENT@") ["%"%char] (flat_map lp2 s) s).
  { clear -Hat. induction s as [|c s IH]; [constructor|]. simpl. unfold lp2 at 1.
    assert (IH' := IH (fun K => Hat (or_intror K))).
    destruct (Ascii.eqb_spec c "%") as [->|N]; [exact (rp_hit (B "@PERCENT@") ["%"%char] _ _ IH')|].
    simpl. apply rp_miss; [|exact IH']. intros t K. injection K as K _. apply Hat. left. congruence. }
  rewrite (fun Hn => replace_all_eq _ _ _ _ Hn E3) by discriminate. reflexivity.
Qed.

(** * strip_percents *)
Lemma put_ok cap out x : length out + length x <= cap -> put cap out x = Ok (out ++ x).
Proof. intros H. unfold put. apply Nat.leb_le in H. rewrite H. reflexivity. Qed.

Lemma strip_loop_spec (z : bool) cap : forall s out : bstr,
  (length out + (if z then 3 * length s else length s + 4 * (length s / 2)) + 1 <= cap ->
    exists t, lexc_unescaped z s t /\ strip_loop z cap s out false false = Ok (option_map (app out) t)) /\
  (length out + (if z then 3 * length s + 3 else 6 * ((length s + 1) / 2) + (length s + 1) mod 2) + 1 <= cap ->
    exists t, lexc_unescaped z ("%"%char :: s) t /\ strip_loop z cap s out true false = Ok (option_map (app out) t)) /\
  (forall o1 g, out = o1 ++ "@"%char :: g -> ~ In "@"%char g ->
    length out + (if z then 3 * length s else length s + 4 * (length s / 2)) + 1 <= cap ->
    exists t, lexc_unescaped z ("@"%char :: g ++ s) t /\
      strip_loop z cap s out false true = Ok (option_map (app o1) t)).
Proof.
  induction s as [s IH] using (well_founded_induction (well_founded_ltof (list ascii) (@length ascii))). intros out.
  destruct s as [|c s].
  { split; [|split].
    - intros H. exists (Some []). split; [constructor|]. simpl. rewrite put_ok by (simpl; destruct z; simpl in H; lia).
      simpl. rewrite app_nil_r. reflexivity.
    - intros H. exists None. split; [apply lu_stray|]. simpl. rewrite put_ok by (simpl; destruct z; simpl in H; lia). reflexivity.
    - intros o1 g -> Hg H. exists (Some ("@"%char :: g)). rewrite app_nil_r. split; [apply lu_open; exact Hg|].
      simpl. rewrite put_ok by (simpl; destruct z; simpl in H; lia). reflexivity. }
  assert (Hlt : ltof (list ascii) (@length ascii) s (c :: s)) by (unfold ltof; simpl; lia).
  specialize (IH s Hlt).
  assert (D1 : length (c :: s) + 4 * (length (c :: s) / 2) >= 1 + (length s + 4 * (length s / 2))).
  { simpl length. assert (length s / 2 <= S (length s) / 2) by (apply Nat.div_le_mono; lia). lia. }
  assert (D2 : length (c :: s) + 4 * (length (c :: s) / 2) = 6 * ((length s + 1) / 2) + (length s + 1) mod 2).
  { simpl length. replace (S (length s)) with (length s + 1) by lia.
    pose proof (Nat.div_mod_eq (length s + 1) 2). lia. }
  assert (D3 : 6 * ((length (c :: s) + 1) / 2) + (length (c :: s) + 1) mod 2 = 6 + (length s + 4 * (length s / 2))).
  { simpl length. replace (S (length s) + 1) with (length s + 1 * 2) by lia.
    rewrite Nat.div_add, Nat.mod_add by lia. pose proof (Nat.div_mod_eq (length s) 2). lia. }
  split; [|split].
  - intros H. cbn [strip_loop].
    destruct (Ascii.eqb_spec c "%") as [->|N1].
    { destruct (IH out) as (_ & I2 & _). destruct I2 as (t & T & E).
      { destruct z; [simpl length in *; lia|]. rewrite <- D2. exact H. }
      exists t. auto. }
    destruct (Ascii.eqb_spec c "@") as [->|N2].
    { rewrite put_ok by (destruct z; simpl length in *; lia). cbn [rbind].
      destruct (IH (out ++ ["@"%char])) as (_ & _ & I3). destruct (I3 out [] eq_refl (fun K => K)) as (t & T & E).
      { rewrite app_length. simpl length in *. destruct z; [lia|]. lia. }
      exists t. auto. }
    destruct (z && Ascii.eqb c "0") eqn:E3.
    { apply andb_true_iff in E3. destruct E3 as [-> E3]. apply Ascii.eqb_eq in E3. subst c.
      rewrite put_ok by (simpl length in *; lia). cbn [rbind].
      destruct (IH (out ++ B "@0@")) as (I1 & _). destruct I1 as (t & T & E).
      { rewrite app_length. simpl length in *. lia. }
      exists (option_map (app (B "@0@")) t). split; [apply lu_bare_zero; auto|]. rewrite E.
      destruct t; simpl; [rewrite <- app_assoc; reflexivity|reflexivity]. }
    rewrite put_ok by (destruct z; simpl length in *; lia). cbn [rbind].
    destruct (IH (out ++ [c])) as (I1 & _). destruct I1 as (t & T & E).
    { rewrite app_length. simpl length. destruct z; simpl length in *; lia. }
    exists (option_map (cons c) t). split.
    + apply lu_char; auto. intros -> ->. discriminate.
    + rewrite E. destruct t; simpl; [rewrite <- app_assoc; reflexivity|reflexivity].
  - intros H. cbn [strip_loop]. destruct (Ascii.eqb_spec c "0") as [->|N1]; cbn [negb].
    + rewrite put_ok by (simpl length in *; destruct z; lia). cbn [rbind].
      destruct (IH (out ++ B "@ZERO@")) as (I1 & _). destruct I1 as (t & T & E).
      { rewrite app_length. simpl length in *. destruct z; lia. }
      exists (option_map (app (B "@ZERO@")) t). split; [exact (lu_zero z s t T)|]. rewrite E.
      destruct t; simpl; [rewrite <- app_assoc; reflexivity|reflexivity].
    + rewrite put_ok by (simpl length in *; destruct z; lia). cbn [rbind].
      destruct (IH (out ++ [c])) as (I1 & _). destruct I1 as (t & T & E).
      { rewrite app_length. simpl length in *. destruct z; lia. }
      exists (option_map (cons c) t). split; [apply lu_escape; auto|]. rewrite E.
      destruct t; simpl; [rewrite <- app_assoc; reflexivity|reflexivity].
  - intros o1 g -> Hg H. cbn [strip_loop].
    rewrite put_ok by (simpl length in *; destruct z; lia). cbn [rbind].
    destruct (Ascii.eqb_spec c "@") as [->|N]; cbn [negb].
    + destruct (IH ((o1 ++ "@"%char :: g) ++ ["@"%char])) as (I1 & _). destruct I1 as (t & T & E).
      { rewrite app_length. simpl length in *. destruct z; lia. }
      exists (option_map (app ("@"%char :: g ++ ["@"%char])) t). split; [apply lu_group; auto|].
      rewrite E. destruct t; simpl; [|reflexivity]. rewrite <- !app_assoc. simpl. rewrite <- ?app_assoc. reflexivity.
    + destruct (IH ((o1 ++ "@"%char :: g) ++ [c])) as (_ & _ & I3).
      destruct (I3 o1 (g ++ [c])) as (t & T & E).
      * rewrite <- app_assoc. reflexivity.
      * rewrite in_app_iff. simpl. intuition congruence.
      * rewrite app_length. simpl length in *. destruct z; lia.
      * rewrite <- app_assoc in T. exists t. auto.
Qed.

Lemma strip_percents_spec z s : exists t, lexc_unescaped z s t /\ lexc_strip_percents z s = Ok t.
Proof.
  destruct (strip_loop_spec z (strip_percents_capacity z s) s []) as (H & _). destruct H as (t & T & E).
  - unfold strip_percents_capacity. simpl length. destruct z; [lia|].
    pose proof (Nat.div_mod_eq (length s) 2). pose proof (Nat.mod_upper_bound (length s) 2). lia.
  - exists t. split; [exact T|]. unfold lexc_strip_percents. rewrite E. destruct t; reflexivity.
Qed.

(** * strstrip *)
Lemma isspace_white c : isspace c = true <-> white c.
Proof.
  split.
  - destruct c as [[] [] [] [] [] [] [] []]; intros H; vm_compute in H; try discriminate; vm_compute; tauto.
  - unfold white. simpl. intros H. decompose [or] H; subst; try reflexivity. contradiction.
Qed.

Lemma skip_space_spec s : exists a, s = a ++ skip_space s /\ Forall white a /\
  (forall c r, skip_space s = c :: r -> ~ white c).
Proof.
  induction s as [|c s IH]; simpl; [exists []; repeat split; [constructor|discriminate]|].
  destruct (isspace c) eqn:E.
  - destruct IH as (a & H1 & H2 & H3). exists (c :: a). split; [simpl; congruence|]. split; [|exact H3].
    constructor; [apply isspace_white; exact E|exact H2].
  - exists []. split; [reflexivity|]. split; [constructor|]. intros c' r K. injection K as <- <-.
    intros W. apply isspace_white in W. congruence.
Qed.

Lemma c_string_app t r : ~ In "000"%char t -> c_string (t ++ "000"%char :: r) = t.
Proof.
  induction t as [|c t IH]; intros H; [reflexivity|]. cbn [app c_string].
  destruct (Ascii.eqb_spec c "000") as [->|N]; [exfalso; apply H; left; reflexivity|].
  f_equal. apply IH. intros K. apply H. right; exact K.
Qed.

Lemma upd_app {A} (x : A) l y r : upd (length l) x (l ++ y :: r) = l ++ x :: r.
Proof. induction l as [|z l IH]; simpl; [reflexivity|]. rewrite IH. reflexivity. Qed.

Lemma trim_end_spec t : ~ In "000"%char t -> (exists c, In c t /\ ~ white c) -> forall rest,
  exists u b, t = u ++ b /\ Forall white b /\ (forall c r, u = r ++ [c] -> ~ white c) /\ u <> [] /\
    rmap c_string (trim_end (length t) (t ++ "000"%char :: rest)) = Ok u.
Proof.
  induction t as [|c t IH] using rev_ind; intros Hn Hex rest; [destruct Hex as (c & [] & _)|].
  rewrite app_length. replace (length t + length [c]) with (S (length t)) by (simpl; lia). cbn [trim_end].
  rewrite <- app_assoc. cbn [app]. rewrite nth_error_app2 by lia. rewrite Nat.sub_diag. cbn [nth_error].
  destruct (isspace c) eqn:E.
  - rewrite upd_app. apply isspace_white in E.
    destruct (IH (fun K => Hn (in_or_app _ _ _ (or_introl K)))) with (rest := "000"%char :: rest) as (u & b & -> & H2 & H3 & H4 & H5).
    { destruct Hex as (x & Hx & Nx). apply in_app_iff in Hx. destruct Hx as [Hx|[->|[]]]; [eauto|contradiction]. }
    exists u, (b ++ [c]). split; [rewrite app_assoc; reflexivity|]. split; [apply Forall_app; auto|]. auto.
  - exists (t ++ [c]), []. rewrite app_nil_r. split; [reflexivity|]. split; [constructor|]. split.
    + intros c' r K. apply app_inj_tail in K. destruct K as [_ <-]. intros W. apply isspace_white in W. congruence.
    + split; [intros K; apply app_eq_nil in K; destruct K; discriminate|]. cbn [rmap]. f_equal.
      replace (t ++ c :: "000"%char :: rest) with ((t ++ [c]) ++ "000"%char :: rest) by (rewrite <- app_assoc; reflexivity).
      apply c_string_app. exact Hn.
Qed.

Lemma strstrip_trims s : ~ In "000"%char s -> s = [] \/ (exists c, In c s /\ ~ white c) ->
  exists t, strstrip s = Ok t /\ trimmed s t.
Proof.
  intros Hn [->|Hex].
  - exists []. split; [reflexivity|]. exists [], []. repeat split; try constructor; intros; try discriminate.
    destruct r; discriminate.
  - destruct (skip_space_spec s) as (a & H1 & H2 & H3). set (t := skip_space s) in *.
    destruct (trim_end_spec t) with (rest := @nil ascii) as (u & b & H4 & H5 & H6 & H7 & H8).
    + intros K. apply Hn. rewrite H1. apply in_or_app. right; exact K.
    + destruct Hex as (x & Hx & Nx). rewrite H1 in Hx. apply in_app_iff in Hx. destruct Hx as [Hx|Hx]; [|eauto].
      rewrite Forall_forall in H2. destruct (Nx (H2 x Hx)).
    + exists u. split.
      * unfold strstrip. destruct s as [|c0 s0]; [destruct Hex as (? & [] & _)|]. fold t. exact H8.
      * exists a, b. split; [rewrite H1, H4; reflexivity|]. split; [exact H2|]. split; [exact H5|].
        split; [|exact H6]. intros c r ->. apply (H3 c (r ++ b)). exact H4.
Qed.

Lemma trim_end_ub t : Forall white t -> forall r, trim_end (length t) (t ++ r) = Ub.
Proof.
  induction t as [|c t IH] using rev_ind; intros H r; [reflexivity|].
  rewrite app_length. replace (length t + length [c]) with (S (length t)) by (simpl; lia). cbn [trim_end].
  rewrite <- app_assoc. cbn [app]. rewrite nth_error_app2 by lia. rewrite Nat.sub_diag. cbn [nth_error].
  apply Forall_app in H. destruct H as [H1 H2]. inversion H2 as [|? ? Hc _]; subst.
  apply isspace_white in Hc. rewrite Hc, upd_app. apply IH. exact H1.
Qed.

Lemma strstrip_ub s : s <> [] -> Forall white s -> strstrip s = Ub.
Proof.
  intros Hne H. unfold strstrip. destruct s as [|c s]; [congruence|].
  destruct (skip_space_spec (c :: s)) as (a & H1 & _ & H3).
  assert (E : skip_space (c :: s) = []).
  { destruct (skip_space (c :: s)) as [|x t]; [reflexivity|]. exfalso. apply (H3 x t eq_refl).
    rewrite Forall_forall in H. apply H. rewrite H1. apply in_elt. }
  rewrite E. reflexivity.
Qed.

(** * strdup_nonconst_part *)
Lemma strdup_part p m q : strdup_nonconst_part (p ++ m ++ q) p q false = Ok m.
Proof.
  unfold strdup_nonconst_part. rewrite !app_length.
  destruct (Nat.ltb_spec (length p + (length m + length q)) (length p + length q)); [lia|].
  rewrite is_prefix_app. cbn [negb].
  replace (length p + (length m + length q) - length p - length q) with (length m) by lia.
  replace (skipn (length p + length m) (p ++ m ++ q)) with q.
  2:{ rewrite <- app_length, app_assoc, skipn_app, skipn_all, Nat.sub_diag. reflexivity. }
  replace (is_prefix q q) with true.
  2:{ symmetry. apply is_prefix_spec. exists []. rewrite app_nil_r. reflexivity. }
  cbn [negb]. rewrite skipn_app, skipn_all, Nat.sub_diag. simpl skipn. cbn [app].
  rewrite firstn_app, firstn_all, Nat.sub_diag. simpl. rewrite app_nil_r. reflexivity.
Qed.

Lemma strdup_strip p m q : strdup_nonconst_part (p ++ m ++ q) p q true = strstrip m.
Proof.
  pose proof (strdup_part p m q) as H. unfold strdup_nonconst_part in *.
  destruct (_ <? _); [discriminate|]. destruct (negb _); [discriminate|]. destruct (negb _); [discriminate|].
  injection H as ->. reflexivity.
Qed.

Lemma strdup_only t p q z m : strdup_nonconst_part t p q z = Ok m -> exists x, t = p ++ x ++ q.
Proof.
  unfold strdup_nonconst_part. destruct (Nat.ltb_spec (length t) (length p + length q)) as [|Hl]; [discriminate|].
  destruct (is_prefix p t) eqn:E; [|discriminate]. cbn [negb]. apply is_prefix_spec in E. destruct E as [r ->].
  rewrite app_length in *. replace (length p + length r - length p - length q) with (length r - length q) by lia.
  rewrite skipn_app. rewrite (skipn_all2 p) by lia. cbn [app].
  replace (length p + (length r - length q) - length p) with (length r - length q) by lia.
  destruct (is_prefix q (skipn (length r - length q) r)) eqn:E2; [|discriminate]. intros _.
  apply is_prefix_spec in E2. destruct E2 as [u E2].
  assert (u = []).
  { apply (f_equal (@length ascii)) in E2. rewrite skipn_length, app_length in E2.
    apply length_zero_iff_nil. lia. }
  subst u. rewrite app_nil_r in E2. exists (firstn (length r - length q) r). rewrite <- E2 at 2.
  rewrite firstn_skipn. reflexivity.
Qed.

(** * Name codes *)
Lemma decode_encode start s : 4 <= length start + length s + 2 ->
  decode_name start (start ++ s ++ JOINER_END) = Ok s.
Proof.
  intros H. unfold decode_name. rewrite !app_length. change (length JOINER_END) with 2.
  destruct (Nat.ltb_spec (length start + (length s + 2)) 4); [lia|].
  destruct (Nat.ltb_spec (length start + (length s + 2)) (length start)); [lia|].
  destruct (Nat.ltb_spec (length start + (length s + 2)) (length start + 2)); [lia|].
  replace (length start + (length s + 2) - (length start + 2)) with (length s) by lia.
  rewrite skipn_app, skipn_all, Nat.sub_diag. simpl skipn. cbn [app].
  rewrite firstn_app, firstn_all, Nat.sub_diag. simpl. rewrite app_nil_r. reflexivity.
Qed.

(** * Positions *)
Lemma count_newlines_occ s : count_newlines s = count_occ ascii_dec s "010"%char.
Proof.
  induction s as [|c s IH]; [reflexivity|]. simpl. rewrite IH. unfold newline.
  destruct (ascii_dec c "010") as [->|N]; [reflexivity|]. destruct (Ascii.eqb_spec c "010"); [contradiction|reflexivity].
Qed.

Lemma positions_line ts : last_line (positions_after ts) = line_after (concat ts).
Proof.
  unfold positions_after, line_after. change 1 with (last_line token_reset_positions). generalize token_reset_positions.
  induction ts as [|t ts IH]; intros l; simpl; [lia|]. rewrite IH. unfold token_update_positions. cbn [last_line].
  rewrite count_newlines_occ, count_occ_app. lia.
Qed.
Lemma positions_first_line ts t : first_line (positions_after (ts ++ [t])) = line_after (concat ts).
Proof.
  rewrite <- positions_line. unfold positions_after. rewrite fold_left_app. reflexivity.
Qed.

(** * xre *)
Lemma xre_needs_not_percent : xre_needs_percent "%" = false.
Proof. reflexivity. Qed.

Lemma xre_strip_add s : ~ In "%"%char s -> xre_strip_percents (xre_add_percents s) = s.
Proof.
  induction s as [|c s IH]; intros H; [reflexivity|]. simpl.
  assert (IH' := IH (fun K => H (or_intror K))). assert (N : c <> "%"%char) by (intros ->; apply H; left; reflexivity).
  destruct (xre_needs_percent c); cbn [app xre_strip_percents].
  - change (Ascii.eqb "%" "%") with true. cbv iota. f_equal. exact IH'.
  - destruct (Ascii.eqb_spec c "%"); [contradiction|]. f_equal. exact IH'.
Qed.

Lemma xre_add_length s : length (xre_add_percents s) <= 2 * length s.
Proof. induction s as [|c s IH]; simpl; [lia|]. rewrite app_length. destruct (xre_needs_percent c); simpl; lia. Qed.


Lemma strip_curly_end y : strip_curly_loop (y ++ B "}") false = y.
Proof.
  induction y as [|c y IH]; [reflexivity|]. cbn [app strip_curly_loop].
  rewrite andb_false_r. cbn [orb].
  assert (E : match y ++ B "}" with [] => true | _ :: _ => false end = false) by (destruct y; reflexivity).
  rewrite E, andb_false_r. rewrite IH. reflexivity.
Qed.

Lemma strip_curly_braces x : x <> [] -> strip_curly (B "{" ++ x ++ B "}") = x.
Proof.
  intros H. unfold strip_curly. destruct x as [|c x]; [congruence|]. cbn [B list_ascii_of_string app strip_curly_loop].
  change (Ascii.eqb "{" "{" && true) with true. cbn [orb]. f_equal. exact (strip_curly_end x).
Qed.

Lemma strip_curly_plain_tail y : (forall r, y <> r ++ B "}") -> strip_curly_loop y false = y.
Proof.
  induction y as [|c y IH]; intros H; [reflexivity|]. cbn [strip_curly_loop]. rewrite andb_false_r. cbn [orb].
  destruct (Ascii.eqb_spec c "}") as [->|N]; cbn [andb].
  - destruct y as [|d y]; [exfalso; apply (H []); reflexivity|]. cbn [andb]. f_equal. apply IH.
    intros r E. apply (H ("}"%char :: r)). rewrite E. reflexivity.
  - f_equal. apply IH. intros r E. apply (H (c :: r)). rewrite E. reflexivity.
Qed.

Lemma strip_curly_plain s : (forall r, s <> "{"%char :: r) -> (forall r, s <> r ++ B "}") -> strip_curly s = s.
Proof.
  intros H1 H2. unfold strip_curly. destruct s as [|c s]; [reflexivity|]. cbn [strip_curly_loop].
  destruct (Ascii.eqb_spec c "{") as [->|N]; [exfalso; exact (H1 s eq_refl)|]. cbn [andb orb].
  destruct (Ascii.eqb_spec c "}") as [->|N2]; cbn [andb].
  - destruct s as [|d y]; [exfalso; apply (H2 []); reflexivity|]. cbn [andb]. f_equal. apply strip_curly_plain_tail.
    intros r E. apply (H2 ("}"%char :: r)). rewrite E. reflexivity.
  - f_equal. apply strip_curly_plain_tail. intros r E. apply (H2 (c :: r)). rewrite E. reflexivity.
Qed.

Lemma angle_roundtrip x :
  escape_enclosing_angle_brackets (B "<" ++ x ++ B ">") = B "@_<" ++ x ++ B ">_@" /\ angle_bracket_substitution (B "@_<" ++ x ++ B ">_@") = Some (B "<" ++ x ++ B ">").
Proof.
  split.
  - unfold escape_enclosing_angle_brackets.
    assert (E : last ("<"%char :: x ++ B ">") "<"%char = ">"%char).
    { change ("<"%char :: x ++ B ">") with (("<"%char :: x) ++ [">"%char]). apply last_last. }
    change (B "<" ++ x ++ B ">") with ("<"%char :: x ++ B ">").
    change (Ascii.eqb "<" "<") with true. cbn [negb]. rewrite E. change (Ascii.eqb ">" ">") with true. cbn [negb].
    simpl. rewrite <- app_assoc. reflexivity.
  - unfold angle_bracket_substitution.
    assert (L : length (B "@_<" ++ x ++ B ">_@") = length x + 6) by (rewrite !app_length; simpl; lia).
    rewrite L. destruct (Nat.ltb_spec (length x + 6) 6); [lia|].
    replace (firstn 3 (B "@_<" ++ x ++ B ">_@")) with (B "@_<") by reflexivity.
    replace (length x + 6 - 3) with (length (B "@_<" ++ x)) by (rewrite app_length; simpl; lia).
    rewrite (app_assoc (B "@_<") x (B ">_@")), skipn_app, skipn_all, Nat.sub_diag. rewrite !bstr_eqb_refl.
    cbn [andb]. f_equal. replace (length x + 6 - 4) with (S (length x + 1)) by lia. simpl. f_equal.
    replace (x ++ [">"%char; "_"%char; "@"%char]) with ((x ++ [">"%char]) ++ ["_"%char; "@"%char]) by (rewrite <- app_assoc; reflexivity).
    replace (length x + 1) with (length (x ++ [">"%char])) by (rewrite app_length; reflexivity).
    rewrite firstn_app, firstn_all, Nat.sub_diag. simpl. apply app_nil_r.
Qed.

Lemma angle_only s : (forall x, s <> B "<" ++ x ++ B ">") -> escape_enclosing_angle_brackets s = s.
Proof.
  intros H. unfold escape_enclosing_angle_brackets. destruct s as [|c s]; [reflexivity|].
  destruct (Ascii.eqb_spec c "<") as [->|N]; [|reflexivity]. cbn [negb].
  destruct s as [|d s]; [reflexivity|].
  destruct (exists_last (l := d :: s)) as (y & z & E); [discriminate|]. rewrite E in *.
  change ("<"%char :: y ++ [z]) with (("<"%char :: y) ++ [z]). rewrite last_last.
  destruct (Ascii.eqb_spec z ">") as [->|]; [|reflexivity]. exfalso. apply (H y). reflexivity.
Qed.

(** * parse_quoted *)
Lemma parse_quoted_plain strtol s : ~ In bsl s -> ~ In newline s -> ~ In "013"%char s -> parse_quoted strtol s = Ok s.
Proof.
  unfold parse_quoted. induction s as [|c s IH]; intros H1 H2 H3; [reflexivity|]. cbn [length parse_quoted_loop].
  simpl in H1, H2, H3.
  destruct (Ascii.eqb_spec c newline) as [->|]; [tauto|]. destruct (Ascii.eqb_spec c "013") as [->|]; [tauto|].
  destruct (Ascii.eqb_spec c bsl) as [->|]; [tauto|]. cbn [orb negb]. rewrite IH by tauto. reflexivity.
Qed.

Lemma parse_quoted_len strtol : forall f s r, parse_quoted_loop strtol f s = Ok r -> length r <= length s.
Proof.
  induction f as [|f IH]; intros s r H.
  - destruct s; simpl in H; [injection H as <-; simpl; lia|discriminate].
  - destruct s as [|c s]; simpl in H; [injection H as <-; simpl; lia|].
    destruct (_ || _); [discriminate|].
    assert (Hm : forall x t k, rmap (cons x) (parse_quoted_loop strtol f t) = Ok r -> length t + 1 <= k -> length r <= k).
    { intros x t k E Hk. destruct (parse_quoted_loop strtol f t) as [r'| | |] eqn:E2; try discriminate.
      injection E as <-. apply IH in E2. simpl. lia. }
    destruct (negb _); [eapply Hm; [exact H|simpl; lia]|].
    destruct s as [|d s]; [injection H as <-; simpl; lia|].
    destruct (is_octal d).
    { destruct (_ <? 5); [discriminate|]. apply IH in H. pose proof (skipn_length 5 (c :: d :: s)) as K. simpl skipn in *. simpl length in *.
      rewrite K in H. lia. }
    repeat match type of H with
    | (if Ascii.eqb d "u" then _ else _) = _ => destruct (Ascii.eqb d "u")
    | (if Ascii.eqb d "x" then _ else _) = _ => destruct (Ascii.eqb d "x")
    | (if Ascii.eqb d ?x then _ else _) = _ => destruct (Ascii.eqb d x); [eapply Hm; [exact H|simpl; lia]|]
    end.
    + destruct (_ <? 6) eqn:E6; [discriminate|]. apply Nat.ltb_ge in E6. simpl in E6.
      eapply Hm; [exact H|]. pose proof (skipn_length 4 s) as K. simpl skipn in *. simpl length in *. rewrite K. lia.
    + destruct (strtol s) as [v k]. eapply Hm; [exact H|]. rewrite skipn_length. simpl. lia.
    + eapply Hm; [exact H|simpl; lia].
Qed.

(** * Alignment *)
Section MedProofs.
  Variables s1 s2 : list bstr.
  Notation D i j := (fst (cell s1 s2 i j)).
  Notation sub i j := (D i j + (if bstr_eqb (nth i s1 []) (nth j s2 []) then 0 else 100)).

  Lemma cell_SS i j : cell s1 s2 (S i) (S j) =
    (let s := sub i j in let ins := D (S i) j + 1 in let del := D i (S j) + 1 in
     if (s <=? ins) && (s <=? del) then (s, SUBSTITUTE)
     else if (del <=? s) && (del <=? ins) then (del, DELETE) else (ins, INSERT)).
  Proof. reflexivity. Qed.
  Lemma cell_0 j : cell s1 s2 0 j = (j, match j with 0 => START | _ => INSERT end).
  Proof. reflexivity. Qed.
  Lemma cell_S0 i : cell s1 s2 (S i) 0 = (S i, DELETE).
  Proof. reflexivity. Qed.

  Lemma cell_min i j : D (S i) (S j) <= sub i j /\ D (S i) (S j) <= D (S i) j + 1 /\ D (S i) (S j) <= D i (S j) + 1.
  Proof.
    rewrite cell_SS. cbv zeta.
    destruct (Nat.leb_spec (sub i j) (D (S i) j + 1)); destruct (Nat.leb_spec (sub i j) (D i (S j) + 1)); cbn [andb fst];
      try lia;
      destruct (Nat.leb_spec (D i (S j) + 1) (sub i j)); destruct (Nat.leb_spec (D i (S j) + 1) (D (S i) j + 1)); cbn [andb fst]; lia.
  Qed.
  Lemma cell_del i j : D (S i) j <= D i j + 1.
  Proof. destruct j as [|j]; [|apply cell_min]. destruct i; simpl; lia. Qed.
  Lemma cell_ins i j : D i (S j) <= D i j + 1.
  Proof. destruct i as [|i]; [simpl; lia|apply cell_min]. Qed.

  Lemma keep_app {A} (a b : list (option A)) : keep (a ++ b) = keep a ++ keep b.
  Proof. induction a as [|[x|] a IH]; simpl; [reflexivity| |exact IH]. rewrite IH. reflexivity. Qed.
  Lemma cost_snoc al e : cost (al ++ [e]) = cost al + edit_cost e.
  Proof. unfold cost. rewrite map_app, list_sum_app. simpl. lia. Qed.

  Lemma firstn_snoc_inv {A} (l a : list A) x i d : i <= length l -> firstn i l = a ++ [x] ->
    exists i', i = S i' /\ a = firstn i' l /\ x = nth i' l d.
  Proof.
    intros Hi E. destruct i as [|i']; [simpl in E; destruct a; discriminate|]. exists i'. split; [reflexivity|].
    assert (E2 : firstn (S i') l = firstn i' l ++ [nth i' l d]).
    { clear E a x. revert i' Hi. induction l as [|y l IH]; intros i' Hi; [simpl in Hi; lia|].
      destruct i' as [|i']; [destruct l; reflexivity|]. cbn [firstn app nth]. rewrite <- IH by (simpl in Hi; lia). reflexivity. }
    rewrite E2 in E. apply app_inj_tail in E. destruct E; auto.
  Qed.
  Lemma firstn_S {A} (l : list A) i d : S i <= length l -> firstn (S i) l = firstn i l ++ [nth i l d].
  Proof.
    revert i. induction l as [|y l IH]; intros i Hi; [simpl in Hi; lia|].
    destruct i as [|i]; [destruct l; reflexivity|]. cbn [firstn app nth]. rewrite <- IH by (simpl in Hi; lia). reflexivity.
  Qed.

  Lemma cell_optimal al : forall i j, i <= length s1 -> j <= length s2 ->
    aligns (firstn i s1) (firstn j s2) al -> D i j <= cost al.
  Proof.
    induction al as [|e al IH] using rev_ind; intros i j Hi Hj (Hok & H1 & H2).
    - simpl in H1, H2. apply (f_equal (@length bstr)) in H1, H2. rewrite firstn_length in H1, H2. simpl in *.
      replace i with 0 by lia. replace j with 0 by lia. simpl. lia.
    - rewrite map_app, keep_app in H1, H2. apply Forall_app in Hok. destruct Hok as [Hok He].
      inversion He as [|? ? He' _]; subst. rewrite cost_snoc.
      destruct e as [[x|] [y|]]; cbn [map fst snd keep] in H1, H2; try rewrite app_nil_r in H1; try rewrite app_nil_r in H2.
      + symmetry in H1, H2.
        destruct (firstn_snoc_inv s1 _ _ i [] Hi H1) as (i' & -> & A1 & ->).
        destruct (firstn_snoc_inv s2 _ _ j [] Hj H2) as (j' & -> & A2 & ->).
        specialize (IH i' j' ltac:(lia) ltac:(lia) (conj Hok (conj A1 A2))).
        pose proof (cell_min i' j') as [K _]. cbn [edit_cost]. lia.
      + symmetry in H1.
        destruct (firstn_snoc_inv s1 _ _ i [] Hi H1) as (i' & -> & A1 & ->).
        specialize (IH i' j ltac:(lia) ltac:(lia) (conj Hok (conj A1 H2))).
        pose proof (cell_del i' j) as K. cbn [edit_cost]. lia.
      + symmetry in H2.
        destruct (firstn_snoc_inv s2 _ _ j [] Hj H2) as (j' & -> & A2 & ->).
        specialize (IH i j' ltac:(lia) ltac:(lia) (conj Hok (conj H1 A2))).
        pose proof (cell_ins i j') as K. cbn [edit_cost]. lia.
      + exfalso. apply He'. reflexivity.
  Qed.

  Definition shown (e : edit) : bstr * bstr :=
    (match fst e with Some x => x | None => EPSILON_ end, match snd e with Some y => y | None => EPSILON_ end).
  Definition pairs_equal (e : edit) : Prop := match e with (Some x, Some y) => x = y | _ => True end.

  Lemma backtrace_spec : forall f x y, x + y <= f -> x <= length s1 -> y <= length s2 ->
    exists al, backtrace s1 s2 f x y = Ok (map shown al) /\ aligns (firstn x s1) (firstn y s2) al /\     cost al = D x y /\ Forall pairs_equal al.
  Proof.
    assert (Hadd : forall al e a b, aligns a b al -> edit_ok e ->
       aligns (a ++ keep [fst e]) (b ++ keep [snd e]) (al ++ [e])).
    { intros al e a b (H1 & H2 & H3) He. split; [apply Forall_app; auto|]. rewrite !map_app, !keep_app. cbn [map]. rewrite <- H2, <- H3. auto. }
    induction f as [|f IH]; intros x y Hf Hx Hy.
    - assert (x = 0) as -> by lia. assert (y = 0) as -> by lia. exists []. repeat split; constructor.
    - cbn [backtrace]. destruct ((x =? 0) && (y =? 0)) eqn:E0.
      { apply andb_true_iff in E0. destruct E0 as [E1 E2]. apply Nat.eqb_eq in E1, E2. subst. exists []. repeat split; constructor. }
      destruct x as [|x'].
      { destruct y as [|y']; [discriminate|]. cbn [cell snd].
        destruct (IH 0 y' ltac:(lia) ltac:(lia) ltac:(lia)) as (al & -> & A & C & P). cbn [rmap].
        exists (al ++ [(None, Some (nth y' s2 []))]). rewrite map_app. split; [reflexivity|].
        split; [rewrite (firstn_S s2 y' []) by lia; rewrite <- (app_nil_r (firstn 0 s1)); apply (Hadd al (None, Some (nth y' s2 []))); [exact A|discriminate]|].
        split; [rewrite cost_snoc, C; simpl; lia|]. apply Forall_app. split; [exact P|]. repeat constructor. }
      destruct y as [|y'].
      { cbn [cell snd].
        destruct (IH x' 0 ltac:(lia) ltac:(lia) ltac:(lia)) as (al & -> & A & C & P). cbn [rmap].
        exists (al ++ [(Some (nth x' s1 []), None)]). rewrite map_app. split; [reflexivity|].
        split; [rewrite (firstn_S s1 x' []) by lia; rewrite <- (app_nil_r (firstn 0 s2)); apply (Hadd al (Some (nth x' s1 []), None)); [exact A|discriminate]|].
        split; [rewrite cost_snoc, C; destruct x'; simpl; lia|]. apply Forall_app. split; [exact P|]. repeat constructor. }
      rewrite cell_SS. cbv zeta.
      destruct ((sub x' y' <=? D (S x') y' + 1) && (sub x' y' <=? D x' (S y') + 1)) eqn:C1; cbn [snd fst].
      { destruct (IH x' y' ltac:(lia) ltac:(lia) ltac:(lia)) as (al & -> & A & C & P). cbn [rmap].
        assert (Heq : nth x' s1 [] = nth y' s2 []).
        { apply andb_true_iff in C1. destruct C1 as [C1 _]. apply Nat.leb_le in C1.
          pose proof (cell_del x' y'). destruct (bstr_eqb_spec (nth x' s1 []) (nth y' s2 [])); [assumption|lia]. }
        exists (al ++ [(Some (nth x' s1 []), Some (nth y' s2 []))]). rewrite map_app. split; [reflexivity|].
        split; [rewrite (firstn_S s1 x' []), (firstn_S s2 y' []) by lia; apply (Hadd al (Some (nth x' s1 []), Some (nth y' s2 []))); [exact A|discriminate]|].
        split; [rewrite cost_snoc, C; reflexivity|]. apply Forall_app. split; [exact P|]. repeat constructor. exact Heq. }
      destruct ((D x' (S y') + 1 <=? sub x' y') && (D x' (S y') + 1 <=? D (S x') y' + 1)) eqn:C2; cbn [snd fst].
      { destruct (IH x' (S y') ltac:(lia) ltac:(lia) ltac:(lia)) as (al & -> & A & C & P). cbn [rmap].
        exists (al ++ [(Some (nth x' s1 []), None)]). rewrite map_app. split; [reflexivity|].
        split; [rewrite (firstn_S s1 x' []) by lia; rewrite <- (app_nil_r (firstn (S y') s2)); apply (Hadd al (Some (nth x' s1 []), None)); [exact A|discriminate]|].
        split; [rewrite cost_snoc, C; reflexivity|]. apply Forall_app. split; [exact P|]. repeat constructor. }
      destruct (IH (S x') y' ltac:(lia) ltac:(lia) ltac:(lia)) as (al & -> & A & C & P). cbn [rmap].
      exists (al ++ [(None, Some (nth y' s2 []))]). rewrite map_app. split; [reflexivity|].
      split; [rewrite (firstn_S s2 y' []) by lia; rewrite <- (app_nil_r (firstn (S x') s1)); apply (Hadd al (None, Some (nth y' s2 []))); [exact A|discriminate]|].
      split; [rewrite cost_snoc, C; reflexivity|]. apply Forall_app. split; [exact P|]. repeat constructor.
  Qed.

  Lemma med_spec : exists al, find_med_alingment s1 s2 = Ok (map fst (map shown al), map snd (map shown al)) /\   aligns s1 s2 al /\ (forall al', aligns s1 s2 al' -> cost al <= cost al') /\ Forall pairs_equal al.
  Proof.
    unfold find_med_alingment.
    destruct (backtrace_spec (length s1 + length s2) (length s1) (length s2)) as (al & -> & A & C & P); try lia.
    rewrite !firstn_all in A. exists al. split; [reflexivity|]. split; [exact A|]. split; [|exact P].
    intros al' A'. rewrite C. apply cell_optimal; try lia. rewrite !firstn_all. exact A'.
  Qed.
End MedProofs.

Lemma keep_shown {A} (l : list (option bstr)) (f : A) e : ~ In e (keep l) ->
  filter (fun x => negb (bstr_eqb x e)) (map (fun o => match o with Some x => x | None => e end) l) = keep l.
Proof.
  induction l as [|[x|] l IH]; intros H; simpl; [reflexivity| |].
  - destruct (bstr_eqb_spec x e) as [->|N]; [exfalso; apply H; left; reflexivity|]. cbn [negb]. f_equal. apply IH.
    intros K. apply H. right; exact K.
  - rewrite bstr_eqb_refl. cbn [negb]. apply IH. exact H.
Qed.

(** * UTF-8 *)
Open Scope N_scope.
Lemma lor_add a b k : a < 2 ^ k -> N.lor a (b * 2 ^ k) = b * 2 ^ k + a.
Proof.
  intros H.
  assert (Hd : N.land a (b * 2 ^ k) = 0).
  { apply N.bits_inj. intros i. rewrite N.land_spec, N.bits_0.
    destruct (N.lt_ge_cases i k).
    + rewrite N.mul_pow2_bits_low by assumption. apply andb_false_r.
    + destruct (N.eq_dec a 0) as [->|Ha]; [rewrite N.bits_0; reflexivity|].
      rewrite (N.bits_above_log2 a i); [reflexivity|].
      apply N.log2_lt_pow2; [lia|]. eapply N.lt_le_trans; [exact H|]. apply N.pow_le_mono_r; lia. }
  rewrite N.add_comm, (N.add_nocarry_lxor _ _ Hd). symmetry. apply N.lxor_lor. exact Hd.
Qed.

Lemma cont_enc a : a < 64 -> N.lor a 128 = 128 + a.
Proof. intros H. apply (lor_add a 2 6). exact H. Qed.
Lemma lor_shift r a : a < 64 -> N.lor (N.shiftl r 6) a = r * 64 + a.
Proof. intros H. rewrite N.lor_comm, N.shiftl_mul_pow2. apply (lor_add a r 6). exact H. Qed.
Lemma land63 n : N.land n 63 = n mod 64.
Proof. change 63 with (N.ones 6). rewrite N.land_ones. reflexivity. Qed.

Lemma emb n : n < 256 -> N_of_ascii (ascii_of_N n) = n.
Proof. apply N_ascii_embedding. Qed.

Lemma cont_step k r a s b : a < 64 ->
  continuation (S k) r (b :: ascii_of_N (128 + a) :: s) = continuation k (r * 64 + a) (ascii_of_N (128 + a) :: s).
Proof.
  intros Ha. cbn [continuation tl byte_at]. rewrite emb by lia.
  destruct (N.ltb_spec (128 + a) 192); [|lia]. destruct (N.leb_spec 128 (128 + a)); [|lia]. cbn [andb].
  rewrite land63. replace ((128 + a) mod 64) with a.
  - rewrite lor_shift by exact Ha. reflexivity.
  - symmetry. rewrite N.add_comm. change 128 with (2 * 64). rewrite N.mod_add by lia. apply N.mod_small. exact Ha.
Qed.

Lemma cont_shape a : a < 64 -> cont_byte (ascii_of_N (128 + a)).
Proof.
  intros Ha. assert (In a (map N.of_nat (seq 0 64))) as Hin.
  { apply in_map_iff. exists (N.to_nat a). split; [apply Nnat.N2Nat.id|]. apply in_seq. lia. }
  clear Ha. revert a Hin. apply Forall_forall. cbn [seq map]. repeat (constructor; [do 6 eexists; reflexivity|]). constructor.
Qed.

Lemma lead_shape2 a : a < 32 -> exists b0 b1 b2 b3 b4, ascii_of_N (192 + a) = Ascii b0 b1 b2 b3 b4 false true true.
Proof.
  intros Ha. assert (In a (map N.of_nat (seq 0 32))) as Hin.
  { apply in_map_iff. exists (N.to_nat a). split; [apply Nnat.N2Nat.id|]. apply in_seq. lia. }
  clear Ha. revert a Hin. apply Forall_forall. cbn [seq map]. repeat (constructor; [do 5 eexists; reflexivity|]). constructor.
Qed.
Lemma lead_shape3 a : a < 16 -> exists b0 b1 b2 b3, ascii_of_N (224 + a) = Ascii b0 b1 b2 b3 false true true true.
Proof.
  intros Ha. assert (In a (map N.of_nat (seq 0 16))) as Hin.
  { apply in_map_iff. exists (N.to_nat a). split; [apply Nnat.N2Nat.id|]. apply in_seq. lia. }
  clear Ha. revert a Hin. apply Forall_forall. cbn [seq map]. repeat (constructor; [do 4 eexists; reflexivity|]). constructor.
Qed.
Lemma lead_shape4 a : a < 8 -> exists b0 b1 b2, ascii_of_N (240 + a) = Ascii b0 b1 b2 false true true true true.
Proof.
  intros Ha. assert (In a (map N.of_nat (seq 0 8))) as Hin.
  { apply in_map_iff. exists (N.to_nat a). split; [apply Nnat.N2Nat.id|]. apply in_seq. lia. }
  clear Ha. revert a Hin. apply Forall_forall. cbn [seq map]. repeat (constructor; [do 3 eexists; reflexivity|]). constructor.
Qed.
Lemma lead_shape1 a : a < 128 -> exists b0 b1 b2 b3 b4 b5 b6, ascii_of_N a = Ascii b0 b1 b2 b3 b4 b5 b6 false.
Proof.
  intros Ha. assert (In a (map N.of_nat (seq 0 128))) as Hin.
  { apply in_map_iff. exists (N.to_nat a). split; [apply Nnat.N2Nat.id|]. apply in_seq. lia. }
  clear Ha. revert a Hin. apply Forall_forall. cbn [seq map]. repeat (constructor; [do 7 eexists; reflexivity|]). constructor.
Qed.

Lemma lead_mod m a q : a < m -> m <> 0 -> (q * m + a) mod m = a.
Proof. intros H Hm. rewrite N.add_comm, N.mod_add by exact Hm. apply N.mod_small. exact H. Qed.

Lemma int2utf8_spec n : n < 2097152 ->
  exists e, int2utf8 n = Some e /\ utf8_char e /\ forall rest, utf8toint (e ++ rest) = (n, rest).
Proof.
  intros Hn. unfold int2utf8.
  assert (M : n mod 64 < 64) by (apply N.mod_lt; lia).
  assert (M2 : (n / 64) mod 64 < 64) by (apply N.mod_lt; lia).
  assert (M3 : (n / 4096) mod 64 < 64) by (apply N.mod_lt; lia).
  assert (S6 : N.shiftr n 6 = n / 64) by (rewrite N.shiftr_div_pow2; reflexivity).
  assert (S12 : N.shiftr n 12 = n / 4096) by (rewrite N.shiftr_div_pow2; reflexivity).
  assert (S18 : N.shiftr n 18 = n / 262144) by (rewrite N.shiftr_div_pow2; reflexivity).
  assert (Q : n / 4096 = n / 64 / 64) by (rewrite N.div_div by lia; reflexivity).
  assert (Q2 : n / 262144 = n / 64 / 64 / 64) by (rewrite !N.div_div by lia; reflexivity).
  pose proof (N.div_mod n 64 ltac:(lia)) as E1.
  pose proof (N.div_mod (n / 64) 64 ltac:(lia)) as E2.
  pose proof (N.div_mod (n / 64 / 64) 64 ltac:(lia)) as E3.
  destruct (N.ltb_spec n 128) as [H1|H1].
  { eexists. split; [reflexivity|]. split.
    - destruct (lead_shape1 n H1) as (b0 & b1 & b2 & b3 & b4 & b5 & b6 & ->). constructor.
    - intros rest. unfold utf8toint. cbn [app byte_at]. rewrite emb by lia.
      destruct (N.leb_spec 240 n); [lia|]. destruct (N.leb_spec 224 n); [lia|]. destruct (N.leb_spec 192 n); [lia|].
      destruct (N.ltb_spec n 128); [|lia]. reflexivity. }
  destruct (N.ltb_spec n 2048) as [H2|H2].
  { rewrite S6, land63. assert (L : n / 64 < 32) by (apply N.div_lt_upper_bound; lia).
    rewrite (lor_add (n / 64) 6 5 L : N.lor (n / 64) 192 = 192 + n / 64), cont_enc by exact M.
    eexists. split; [reflexivity|]. split.
    - destruct (lead_shape2 _ L) as (b0 & b1 & b2 & b3 & b4 & ->). constructor. apply cont_shape; exact M.
    - intros rest. unfold utf8toint. cbn [app byte_at]. rewrite emb by lia.
      destruct (N.leb_spec 240 (192 + n / 64)); [lia|]. destruct (N.leb_spec 224 (192 + n / 64)); [lia|].
      destruct (N.leb_spec 192 (192 + n / 64)); [|lia].
      rewrite cont_step by exact M. cbn [continuation tl]. f_equal.
      change 31 with (N.ones 5). rewrite N.land_ones. change (2 ^ 5) with 32.
      change 192 with (6 * 32). rewrite lead_mod by lia. lia. }
  destruct (N.ltb_spec n 65536) as [H3|H3].
  { rewrite S6, S12, !land63. assert (L : n / 4096 < 16) by (apply N.div_lt_upper_bound; lia).
    rewrite (lor_add (n / 4096) 14 4 L : N.lor (n / 4096) 224 = 224 + n / 4096), !cont_enc by assumption.
    eexists. split; [reflexivity|]. split.
    - destruct (lead_shape3 _ L) as (b0 & b1 & b2 & b3 & ->). constructor; apply cont_shape; assumption.
    - intros rest. unfold utf8toint. cbn [app byte_at]. rewrite emb by lia.
      destruct (N.leb_spec 240 (224 + n / 4096)); [lia|]. destruct (N.leb_spec 224 (224 + n / 4096)); [|lia].
      rewrite cont_step by exact M2. rewrite cont_step by exact M. cbn [continuation tl]. f_equal.
      change 15 with (N.ones 4). rewrite N.land_ones. change (2 ^ 4) with 16.
      change 224 with (14 * 16). rewrite lead_mod by lia. rewrite Q in *. lia. }
  destruct (N.ltb_spec n 2097152) as [H4|H4]; [|lia].
  { rewrite S6, S12, S18, !land63. assert (L : n / 262144 < 8) by (apply N.div_lt_upper_bound; lia).
    rewrite (lor_add (n / 262144) 30 3 L : N.lor (n / 262144) 240 = 240 + n / 262144), !cont_enc by assumption.
    eexists. split; [reflexivity|]. split.
    - destruct (lead_shape4 _ L) as (b0 & b1 & b2 & ->). constructor; apply cont_shape; assumption.
    - intros rest. unfold utf8toint. cbn [app byte_at]. rewrite emb by lia.
      destruct (N.leb_spec 240 (240 + n / 262144)); [|lia].
      rewrite cont_step by exact M3. rewrite cont_step by exact M2. rewrite cont_step by exact M. cbn [continuation tl]. f_equal.
      change 7 with (N.ones 3). rewrite N.land_ones. change (2 ^ 3) with 8.
      change 240 with (30 * 8). rewrite lead_mod by lia. rewrite Q, Q2 in *. lia. }
Qed.

Lemma int2utf8_large n : 2097152 <= n -> int2utf8 n = None.
Proof.
  intros H. unfold int2utf8. destruct (N.ltb_spec n 128); [lia|]. destruct (N.ltb_spec n 2048); [lia|].
  destruct (N.ltb_spec n 65536); [lia|]. destruct (N.ltb_spec n 2097152); [lia|reflexivity].
Qed.
Close Scope N_scope.

(** Deciding [occurs] on concrete strings. *)
Fixpoint occursb (n s : bstr) : bool := is_prefix n s || match s with [] => false | _ :: r => occursb n r end.
Lemma occursb_false n s : occursb n s = false -> ~ occurs n s.
Proof.
  induction s as [|c s IH]; simpl; intros H (a & b & E); apply orb_false_iff in H; destruct H as [H1 H2].
  - assert (K : is_prefix n [] = true).
    { destruct a as [|x a]; [|discriminate]. apply is_prefix_spec. exists b. exact E. }
    congruence.
  - destruct a as [|x a].
    + assert (K : is_prefix n (c :: s) = true) by (apply is_prefix_spec; exists b; exact E). congruence.
    + injection E as -> E. apply (IH H2). exists a, b. exact E.
Qed.

(** * Escapes in quoted literals *)
Lemma escaped_byte d : item_byte (Escaped d) =
  (if Ascii.eqb d "a" then "007" else if Ascii.eqb d "b" then "008" else if Ascii.eqb d "f" then "012"
   else if Ascii.eqb d "n" then "010" else if Ascii.eqb d "r" then "013" else if Ascii.eqb d "t" then "009"
   else if Ascii.eqb d "v" then "011" else d)%char.
Proof. destruct d as [[] [] [] [] [] [] [] []]; reflexivity. Qed.
Lemma not_octal d : ~ In d (B "01234567ux") -> is_octal d = false /\ Ascii.eqb d "u" = false /\ Ascii.eqb d "x" = false.
Proof.
  intros H. split; [|split].
  - unfold is_octal. apply not_true_iff_false. intros E. apply existsb_exists in E. destruct E as (x & Hx & E).
    apply Ascii.eqb_eq in E. subst x. apply H. simpl in Hx |- *. tauto.
  - destruct (Ascii.eqb_spec d "u"); [subst; exfalso; apply H; simpl; tauto|reflexivity].
  - destruct (Ascii.eqb_spec d "x"); [subst; exfalso; apply H; simpl; tauto|reflexivity].
Qed.
Lemma parse_quoted_fuel strtol items : Forall item_ok items -> forall f, length (flat_map item_text items) <= f ->
  parse_quoted_loop strtol f (flat_map item_text items) = Ok (map item_byte items).
Proof.
  induction 1 as [|i items Hi _ IH]; intros f Hf; [destruct f; reflexivity|].
  cbn [flat_map] in *. rewrite app_length in Hf. destruct i as [c|d].
  - cbn [item_text app map length] in *. destruct f as [|f]; [lia|]. cbn [parse_quoted_loop].
    assert (H : Ascii.eqb c newline = false /\ Ascii.eqb c "013" = false /\ Ascii.eqb c bsl = false).
    { unfold item_ok in Hi. simpl in Hi. unfold newline, bsl.
      repeat split; apply Ascii.eqb_neq; intros ->; tauto. }
    destruct H as (-> & -> & ->). cbn [orb negb]. rewrite IH by lia. reflexivity.
  - cbn [item_text app map length B list_ascii_of_string] in *. destruct f as [|f]; [lia|]. cbn [parse_quoted_loop].
    change (Ascii.eqb "\" newline) with false. change (Ascii.eqb "\" "013") with false. change (Ascii.eqb "\" bsl) with true.
    cbn [orb negb]. apply not_octal in Hi. destruct Hi as (-> & -> & ->). rewrite IH by lia.
    rewrite escaped_byte. cbn [rmap].
    destruct (Ascii.eqb d "a"); [reflexivity|]. destruct (Ascii.eqb d "b"); [reflexivity|].
    destruct (Ascii.eqb d "f"); [reflexivity|]. destruct (Ascii.eqb d "n"); [reflexivity|].
    destruct (Ascii.eqb d "r"); [reflexivity|]. destruct (Ascii.eqb d "t"); [reflexivity|].
    destruct (Ascii.eqb d "v"); reflexivity.
Qed.

(** * Harmonization vectors *)
Lemma harmv_ok ss : forall t t' ns, num_ok t -> get_harmonization_vector t ss = Ok (t', ns) ->
  num_ok t' /\ Forall2 (fun s n => s = [] /\ n = 0 \/ s <> [] /\ nth_error (n2s t') n = Some s) ss ns /\
  exists ext, n2s t' = n2s t ++ ext.
Proof.
  induction ss as [|s ss IH]; intros t t' ns Ht H; simpl in H.
  - injection H as <- <-. split; [exact Ht|]. split; [constructor|]. exists []. rewrite app_nil_r. reflexivity.
  - destruct s as [|c s].
    + cbn [rbind] in H. destruct (get_harmonization_vector t ss) as [[t2 ns2]| | |] eqn:E2; try discriminate.
      cbn [rbind] in H. injection H as <- <-. destruct (IH t t2 ns2 Ht E2) as (H1 & H2 & H3).
      split; [exact H1|]. split; [constructor; [left; auto|exact H2]|exact H3].
    + destruct (get_number t (c :: s)) as [[t1 n]| | |] eqn:E; try discriminate. cbn [rbind] in H.
      destruct (get_harmonization_vector t1 ss) as [[t2 ns2]| | |] eqn:E2; try discriminate.
      cbn [rbind] in H. injection H as <- <-.
      destruct (get_number_ok t _ t1 n Ht E) as (H1 & H2 & e1 & H3 & _).
      destruct (IH t1 t2 ns2 H1 E2) as (H5 & H6 & e2 & H7).
      split; [exact H5|]. split.
      * constructor; [|exact H6]. right. split; [discriminate|]. rewrite H7, nth_error_app1; [exact H2|].
        apply nth_error_Some. congruence.
      * exists (e1 ++ e2). rewrite H7, H3, app_assoc. reflexivity.
Qed.

(** * replace_zero *)
Lemma find_at_spec n h : forall p, match find_at n h p with
  | Some q => p <= q /\ exists a b, h = a ++ n ++ b /\ length a = q - p /\ (forall a' b', h = a' ++ n ++ b' -> length a <= length a')
  | None => ~ occurs n h
  end.
Proof.
  induction h as [|c h IH]; intros p; simpl; destruct (is_prefix n _) eqn:E.
  - apply is_prefix_spec in E. destruct E as [b E]. split; [lia|]. exists [], b. split; [exact E|].
    split; [simpl; lia|]. intros; simpl; lia.
  - intros (a & b & K). destruct a; [|discriminate]. assert (X : is_prefix n [] = true) by (apply is_prefix_spec; exists b; exact K).
    congruence.
  - apply is_prefix_spec in E. destruct E as [b E]. split; [lia|]. exists [], b. split; [exact E|].
    split; [simpl; lia|]. intros; simpl; lia.
  - specialize (IH (S p)). destruct (find_at n h (S p)) as [q|].
    + destruct IH as (Hq & a & b & -> & Hl & Hm). split; [lia|]. exists (c :: a), b. split; [reflexivity|].
      split; [simpl; lia|]. intros a' b' K. destruct a' as [|x a'].
      * assert (X : is_prefix n (c :: a ++ n ++ b) = true) by (apply is_prefix_spec; exists b'; exact K). congruence.
      * injection K as _ K. simpl. apply Hm in K. lia.
    + intros (a & b & K). destruct a as [|x a].
      * assert (X : is_prefix n (c :: h) = true) by (apply is_prefix_spec; exists b; exact K). congruence.
      * injection K as _ K. apply IH. exists a, b. exact K.
Qed.
Lemma replace_zero_first a b : (forall a' b', a ++ B "@ZERO@" ++ b = a' ++ B "@ZERO@" ++ b' -> length a <= length a') ->
  replace_zero (a ++ B "@ZERO@" ++ b) = a ++ B "0" ++ b.
Proof.
  intros H. unfold replace_zero, find_pos. cbn [Nat.ltb Nat.leb skipn].
  pose proof (find_at_spec (B "@ZERO@") (a ++ B "@ZERO@" ++ b) 0) as K.
  replace (length (a ++ B "@ZERO@" ++ b) <? 0) with false by (symmetry; apply Nat.ltb_ge; lia).
  destruct (find_at _ _ 0) as [q|]; [|exfalso; apply K; exists a, b; reflexivity].
  destruct K as (_ & a0 & b0 & E & Hl & Hm). pose proof (H _ _ E). pose proof (Hm a b eq_refl).
  assert (Q : q = length a) by lia. subst q. unfold splice.
  rewrite firstn_app, firstn_all, Nat.sub_diag. cbn [firstn]. rewrite app_nil_r. f_equal. f_equal.
  rewrite skipn_app, skipn_all2 by lia. replace (length a + _ - length a) with (length (B "@ZERO@")) by lia.
  cbn [app]. rewrite skipn_app, skipn_all, Nat.sub_diag. reflexivity.
Qed.
Lemma replace_zero_none s : ~ occurs (B "@ZERO@") s -> replace_zero s = s.
Proof.
  intros H. unfold replace_zero, find_pos. replace (length s <? 0) with false by (symmetry; apply Nat.ltb_ge; lia).
  cbn [skipn]. pose proof (find_at_spec (B "@ZERO@") s 0) as K. destruct (find_at _ _ 0) as [q|]; [|reflexivity].
  destruct K as (_ & a & b & E & _). exfalso. apply H. exists a, b. exact E.
Qed.
