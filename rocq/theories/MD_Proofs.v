From Verif Require Import Base HST_Model MD_Spec MD_Model.
From Coq Require Import NArith Lia.

Lemma character_length c : character c = true -> 1 <= length c <= 4.
Proof.
  unfold character. intros H. destruct c as [|a [|x [|y [|z [|w r]]]]]; cbn in *; try lia; discriminate H.
Qed.
Lemma well_formed_nil : well_formed [].
Proof. exists []. split; constructor. Qed.
Lemma well_formed_app x y : well_formed x -> well_formed y -> well_formed (x ++ y).
Proof.
  intros (cs & F & ->) (ds & G & ->). exists (cs ++ ds). split; [apply Forall_app; auto|]. rewrite concat_app. reflexivity.
Qed.
Lemma well_formed_one c : character c = true -> well_formed c.
Proof. intros H. exists [c]. split; [constructor; [exact H|constructor]|]. cbn. rewrite app_nil_r. reflexivity. Qed.

Lemma utf8_sound n : forall s, utf8_from n s = true -> well_formed s.
Proof.
  induction n as [|n IH]; intros s H; destruct s as [|a s]; try apply well_formed_nil; [discriminate H|].
  cbn [utf8_from] in H. apply existsb_exists in H. destruct H as (k & _ & R). destruct (character (firstn k (a :: s))) eqn:C; [|discriminate R].
  rewrite <- (firstn_skipn k (a :: s)). apply well_formed_app; [apply well_formed_one, C|apply IH, R].
Qed.
Lemma utf8_complete n : forall cs, Forall (fun c => character c = true) cs -> length (concat cs) <= n -> utf8_from n (concat cs) = true.
Proof.
  induction n as [|n IH]; intros cs F L.
  - destruct (concat cs) as [|a s] eqn:E; [reflexivity|cbn in L; lia].
  - destruct F as [|c cs C F]; [reflexivity|]. pose proof (character_length c C) as [L1 L2].
    cbn [concat] in *. rewrite app_length in L. destruct c as [|a c]; [cbn in L1; lia|].
    cbn [app utf8_from]. apply existsb_exists. exists (length (a :: c)). split.
    + destruct c as [|x [|y [|z [|w r]]]]; cbn in *; auto; lia.
    + change (a :: c ++ concat cs) with ((a :: c) ++ concat cs). rewrite firstn_app, firstn_all, Nat.sub_diag, firstn_O, app_nil_r, C.
      rewrite skipn_app, skipn_all, Nat.sub_diag. cbn [skipn app]. apply IH; [exact F|cbn in L; lia].
Qed.
(** The check accepts just the well-formed texts. *)
Lemma check_utf8_spec s : check_utf8 s = true <-> well_formed s.
Proof.
  split; [apply utf8_sound|]. intros (cs & F & ->). apply utf8_complete; [exact F|reflexivity].
Qed.

(** * ASCII around a text *)
Definition ascii_byte (a : ascii) : Prop := (N_of_ascii a <= 127)%N.
Lemma ascii_character a : ascii_byte a -> character [a] = true.
Proof.
  intros H. unfold ascii_byte in H. unfold character, within. cbn [map]. apply andb_true_intro. split; apply N.leb_le; [apply N.le_0_l|exact H].
Qed.
Lemma ascii_text s : Forall ascii_byte s -> well_formed s.
Proof.
  induction 1 as [|a s A F IH]; [apply well_formed_nil|]. change (a :: s) with ([a] ++ s). apply well_formed_app; [|exact IH]. apply well_formed_one, ascii_character, A.
Qed.
Ltac bytes H := repeat match type of H with
  | _ => progress (rewrite ?andb_true_iff, ?orb_true_iff, ?N.leb_le, ?N.eqb_eq in H)
  end.
Lemma lead_ascii a c : character (a :: c) = true -> ascii_byte a -> c = [].
Proof.
  unfold character, within, tail_byte, within, ascii_byte. intros H A. destruct c as [|x [|y [|z [|w r]]]]; cbn [map] in H; [reflexivity|..|discriminate H]; exfalso; bytes H; lia.
Qed.
Lemma final_ascii a c : character (c ++ [a]) = true -> ascii_byte a -> c = [].
Proof.
  unfold character, within, tail_byte, within, ascii_byte. intros H A. destruct c as [|b [|x [|y [|z r]]]]; cbn [map app] in H; [reflexivity|..].
  - exfalso. bytes H. lia.
  - exfalso. bytes H. lia.
  - exfalso. bytes H. lia.
  - exfalso. destruct r; discriminate H.
Qed.
Lemma well_formed_cons a s : ascii_byte a -> well_formed (a :: s) -> well_formed s.
Proof.
  intros A (cs & F & E). destruct F as [|c cs C F]; [discriminate E|].
  destruct c as [|b c]; [discriminate C|]. cbn in E. injection E as <- ->. rewrite (lead_ascii a c C A). cbn. exists cs. auto.
Qed.
Lemma well_formed_snoc a s : ascii_byte a -> well_formed (s ++ [a]) -> well_formed s.
Proof.
  intros A (cs & F & E). destruct cs as [|c cs] using rev_ind; [destruct s; discriminate E|].
  apply Forall_app in F. destruct F as [F C]. inversion C as [|? ? C' _]; subst. rewrite concat_app in E. cbn in E. rewrite app_nil_r in E.
  destruct c as [|b c] using rev_ind; [discriminate C'|]. rewrite app_assoc in E. apply app_inj_tail in E. destruct E as [-> <-].
  rewrite (final_ascii a c C' A), app_nil_r. exists cs. auto.
Qed.
Lemma well_formed_prefix p s : Forall ascii_byte p -> (well_formed (p ++ s) <-> well_formed s).
Proof.
  intros F. split; [|apply well_formed_app, ascii_text, F].
  induction F as [|a p A F IH]; cbn [app]; intros H; [exact H|]. apply IH, (well_formed_cons a _ A H).
Qed.
Lemma well_formed_suffix p : forall s, Forall ascii_byte p -> (well_formed (s ++ p) <-> well_formed s).
Proof.
  intros s F. split; [|intros W; apply well_formed_app; [exact W|apply ascii_text, F]].
  induction p as [|a p IH] using rev_ind; intros H; [rewrite app_nil_r in H; exact H|].
  apply Forall_app in F. destruct F as [F A]. inversion A as [|? ? A' _]; subst. apply IH; [exact F|]. rewrite app_assoc in H. exact (well_formed_snoc a _ A' H).
Qed.
Ltac ascii_bytes := repeat (constructor; [unfold ascii_byte; vm_compute; discriminate|]); constructor.

(** * Names *)
Lemma set_name_ok p s q : set_name p s = Ok q <-> well_formed s /\ q = mset bcmp NAME s p.
Proof.
  unfold set_name, set_property. rewrite <- check_utf8_spec. destruct (check_utf8 s).
  - split; [intros H; injection H as <-; auto|intros [_ ->]; reflexivity].
  - split; [discriminate|intros [A _]; discriminate A].
Qed.
Lemma set_name_total p s : (exists q, set_name p s = Ok q) \/ set_name p s = Throw.
Proof. unfold set_name, set_property. destruct (check_utf8 s); eauto. Qed.
Lemma get_set p s k : get_property k (mset bcmp NAME s p) = if bstr_eqb k NAME then s else get_property k p.
Proof.
  unfold get_property. destruct (bstr_eqb_spec k NAME) as [->|N].
  - rewrite (mget_mset_same bcmp bcmp_eq). reflexivity.
  - rewrite (mget_mset_other bcmp bcmp_eq) by exact N. reflexivity.
Qed.
(** What is stored, and when. *)
Definition stored (full : bstr) : bstr :=
  if Nat.ltb 1024 (length full) then B "truncated(" ++ firstn 1000 full ++ B "...)" else full.
Lemma stored_shortened full name : shortened full name <-> name = stored full.
Proof.
  unfold shortened, stored, first_bytes. destruct (Nat.ltb_spec 1024 (length full)) as [L|L].
  - split.
    + intros [[H _]|[_ (x & (LX & r & E) & ->)]]; [lia|]. rewrite E, firstn_app, LX, Nat.sub_diag, firstn_O, app_nil_r. rewrite <- LX, firstn_all. reflexivity.
    + intros ->. right. split; [exact L|]. exists (firstn 1000 full). split; [|reflexivity]. split; [apply firstn_length_le; lia|].
      exists (skipn 1000 full). symmetry. apply firstn_skipn.
  - split; [intros [[_ ->]|[H _]]; [reflexivity|lia]|]. intros ->. left. auto.
Qed.
Lemma stored_length full : length (stored full) <= 1024.
Proof.
  unfold stored. destruct (Nat.ltb_spec 1024 (length full)) as [L|L]; [|exact L]. rewrite !app_length, firstn_length_le by lia.
  change (length (B "truncated(")) with 10. change (length (B "...)")) with 4. lia.
Qed.
Lemma stored_wf full : well_formed (stored full) <-> (if Nat.ltb 1024 (length full) then well_formed (firstn 1000 full) else well_formed full).
Proof.
  unfold stored. destruct (Nat.ltb 1024 (length full)); [|reflexivity].
  rewrite well_formed_prefix by ascii_bytes. rewrite well_formed_suffix by ascii_bytes. reflexivity.
Qed.
Lemma maybe_truncate p s : set_name_maybe_truncate p s = set_name p (stored s).
Proof. unfold set_name_maybe_truncate, stored. destruct (Nat.ltb 1024 (length s)); reflexivity. Qed.
Definition shown (name : bstr) : bstr := match name with [] => B "UNNAMED" | _ => name end.
Lemma one_name dest src op : set_name_of_one dest src op = set_name dest (stored (op ++ B "(" ++ shown (get_name src) ++ B ")")).
Proof. unfold set_name_of_one. rewrite !maybe_truncate. destruct (get_name src); reflexivity. Qed.
Lemma two_names dest lhs rhs op :
  set_name_of_two dest lhs rhs op = set_name dest (stored (op ++ B "(" ++ shown (get_name lhs) ++ B ", " ++ shown (get_name rhs) ++ B ")")).
Proof. unfold set_name_of_two. rewrite !maybe_truncate. destruct (get_name lhs), (get_name rhs); reflexivity. Qed.

(** * Truncation by option *)
Lemma truncate_spec n s : truncate_text n s = if (0 <? n)%N then firstn (N.to_nat n) s else s.
Proof.
  unfold truncate_text, strndup. destruct (0 <? n)%N; [|reflexivity].
  destruct (N.le_gt_cases n (N.of_nat (length s))) as [L|L].
  - rewrite N.min_l by exact L. reflexivity.
  - rewrite N.min_r by lia. rewrite Nat2N.id, firstn_all, firstn_all2 by lia. reflexivity.
Qed.

(** * Archives *)
Lemma over_ok {T} f : forall (l m : list (props * T)), over f l = Ok m <-> Forall2 (fun x y => f (fst x) = Ok (fst y) /\ snd x = snd y) l m.
Proof.
  induction l as [|[p t] l IH]; intros m; cbn [over].
  - split; [intros H; injection H as <-; constructor|intros H; inversion H; reflexivity].
  - split.
    + intros H. destruct (f p) as [q| | |] eqn:E; try discriminate H. cbn [rbind] in H. destruct (over f l) as [k| | |] eqn:O; try discriminate H.
      injection H as <-. constructor; [cbn; auto|]. apply IH. reflexivity.
    + intros H. inversion H as [|? [q u] ? k [A C] R]; subst. cbn [fst snd] in *. subst u. rewrite A. cbn [rbind]. apply IH in R. rewrite R. reflexivity.
Qed.

From Coq Require Import Sorted.
From Verif Require Import OrdMap.

Lemma cut_spec n s x : cut n s x <-> x = truncate_text n s.
Proof.
  rewrite truncate_spec. unfold cut, first_bytes. destruct (N.ltb_spec 0 n) as [L|L].
  - split.
    + intros [[[E|E] ->]|[[_ E] (LX & r & ->)]]; [lia|rewrite firstn_all2 by lia; reflexivity|].
      rewrite firstn_app, <- LX, firstn_all, Nat.sub_diag, firstn_O, app_nil_r. reflexivity.
    + intros ->. destruct (N.le_gt_cases (N.of_nat (length s)) n) as [E|E].
      * left. split; [auto|]. rewrite firstn_all2 by lia. reflexivity.
      * right. split; [lia|]. split; [apply firstn_length_le; lia|]. exists (skipn (N.to_nat n) s). symmetry. apply firstn_skipn.
  - split; [intros [[_ ->]|[E _]]; [reflexivity|lia]|]. intros ->. left. split; [left; lia|reflexivity].
Qed.

(** * The options --add *)
Lemma split_equals_spec s : match split_equals s with Some (k, v) => assigns s k v | None => ~ In "="%char s end.
Proof.
  induction s as [|c s IH]; cbn [split_equals]; [intros []|]. destruct (Ascii.eqb_spec c "=") as [->|N].
  - split; [reflexivity|intros []].
  - destruct (split_equals s) as [[k v]|]; cbn [option_map fst snd].
    + destruct IH as [-> NI]. split; [reflexivity|]. intros [E|E]; [congruence|exact (NI E)].
    + intros [E|E]; [congruence|exact (IH E)].
Qed.
Lemma assigns_unique arg k v k' v' : assigns arg k v -> assigns arg k' v' -> k = k' /\ v = v'.
Proof.
  intros [-> N] [E N']. revert k' N' E. induction k as [|c k IH]; intros [|c' k'] N' E; cbn in E.
  - injection E as ->. auto.
  - exfalso. injection E as <- _. apply N'. now left.
  - exfalso. injection E as -> _. apply N. now left.
  - injection E as -> E. destruct (IH (fun H => N (or_intror H)) k' (fun H => N' (or_intror H)) E) as [-> ->]. auto.
Qed.
Lemma split_equals_iff s k v : split_equals s = Some (k, v) <-> assigns s k v.
Proof.
  pose proof (split_equals_spec s) as H. destruct (split_equals s) as [[k' v']|].
  - split; [intros E; injection E as <- <-; exact H|]. intros A. destruct (assigns_unique _ _ _ _ _ H A) as [-> ->]. reflexivity.
  - split; [discriminate|]. intros [-> _]. exfalso. apply H. apply in_app_iff. right. now left.
Qed.
Lemma add_options_snoc a : forall m args, add_options m (args ++ [a]) =
  rbind (add_options m args) (fun m' => match split_equals a with Some (k, v) => Ok (mset bcmp k v m') | None => Throw end).
Proof.
  intros m args. revert m. induction args as [|b args IH]; intros m; cbn [app add_options rbind].
  - destruct (split_equals a) as [[k v]|]; reflexivity.
  - destruct (split_equals b) as [[k v]|]; [apply IH|reflexivity].
Qed.
Lemma given_last_snoc args a k v : given_last (args ++ [a]) k v <-> assigns a k v \/ (forall v', ~ assigns a k v') /\ given_last args k v.
Proof.
  split.
  - intros (x & arg & y & E & A & L). destruct y as [|z y] using rev_ind.
    + apply app_inj_tail in E. destruct E as [_ ->]. left. exact A.
    + right. rewrite app_comm_cons, app_assoc in E. apply app_inj_tail in E. destruct E as [-> ->]. split.
      * intros v' A'. apply (L z v'); [apply in_app_iff; right; now left|exact A'].
      * exists x, arg, y. split; [reflexivity|]. split; [exact A|]. intros arg' v' I. apply L. apply in_app_iff. now left.
  - intros [A|[NA (x & arg & y & -> & A & L)]].
    + exists args, a, []. split; [reflexivity|]. split; [exact A|]. intros arg' v' [].
    + exists x, arg, (y ++ [a]). split; [rewrite <- app_assoc; reflexivity|]. split; [exact A|]. intros arg' v' I.
      apply in_app_iff in I. destruct I as [I|[<-|[]]]; [exact (L arg' v' I)|apply NA].
Qed.
Definition sorted_props (m : props) : Prop := StronglySorted (klt bcmp) (map fst m).
(** The map that the options build. *)
Lemma add_options_ok args : (forall a, In a args -> exists k v, assigns a k v) ->
  exists m, add_options [] args = Ok m /\ sorted_props m /\ forall k v, mget bcmp k m = Some v <-> given_last args k v.
Proof.
  induction args as [|a args IH] using rev_ind; intros H.
  - exists []. split; [reflexivity|]. split; [constructor|]. intros k v. split; [discriminate|]. intros (x & arg & y & E & _). destruct x; discriminate E.
  - destruct IH as (m & E & S' & G); [intros b I; apply H, in_app_iff; now left|].
    destruct (H a) as (k & v & A); [apply in_app_iff; right; now left|].
    exists (mset bcmp k v m). rewrite add_options_snoc, E. cbn [rbind]. rewrite (proj2 (split_equals_iff a k v) A). split; [reflexivity|]. split.
    + apply (sorted_mset bcmp bcmp_eq bcmp_trans bcmp_op), S'.
    + intros k' v'. rewrite given_last_snoc. destruct (bstr_eqb_spec k' k) as [->|N].
      * rewrite (mget_mset_same bcmp bcmp_eq). split.
        -- intros Q. injection Q as <-. left. exact A.
        -- intros [A'|[NA _]]; [destruct (assigns_unique _ _ _ _ _ A A') as [_ ->]; reflexivity|exfalso; exact (NA v A)].
      * rewrite (mget_mset_other bcmp bcmp_eq) by exact N. rewrite G. split.
        -- intros Q. right. split; [|exact Q]. intros v'' A'. destruct (assigns_unique _ _ _ _ _ A A') as [-> _]. congruence.
        -- intros [A'|[_ Q]]; [destruct (assigns_unique _ _ _ _ _ A A') as [-> _]; congruence|exact Q].
Qed.
Lemma add_options_bad args : forall m a, In a args -> (forall k v, ~ assigns a k v) -> add_options m args = Throw.
Proof.
  induction args as [|b args IH]; intros m a I N; [destruct I|]. cbn [add_options].
  destruct (split_equals b) as [[k v]|] eqn:E; [|reflexivity]. destruct I as [->|I]; [|exact (IH _ a I N)].
  apply split_equals_iff in E. exfalso. exact (N k v E).
Qed.

(** * Setting the properties *)
Definition allowed (n : N) (kv : bstr * bstr) : Prop :=
  well_formed (truncate_text n (snd kv)) /\ (fst kv = B "character-encoding" -> snd kv = B "utf-8" \/ snd kv = B "UTF-8").
Lemma set_given_ok n g : forall p, NoDup (map fst g) -> Forall (allowed n) g ->
  exists q, set_given n g p = Ok q /\
  forall k, mget bcmp k q = match mget bcmp k g with Some v => Some (truncate_text n v) | None => mget bcmp k p end.
Proof.
  induction g as [|[k v] g IH]; intros p ND F; cbn [set_given].
  - exists p. split; [reflexivity|]. reflexivity.
  - inversion F as [|? ? [W EN] F']; subst. inversion ND as [|? ? NI ND']; subst. cbn [fst snd] in *.
    replace (bstr_eqb k (B "character-encoding") && negb (bstr_eqb v (B "utf-8") || bstr_eqb v (B "UTF-8"))) with false.
    2:{ symmetry. destruct (bstr_eqb_spec k (B "character-encoding")) as [E|E]; [|reflexivity]. destruct (EN E) as [-> | ->]; reflexivity. }
    unfold set_property. rewrite (proj2 (check_utf8_spec _) W). cbn [rbind].
    destruct (IH (mset bcmp k (truncate_text n v) p) ND' F') as (q & E & G). exists q. split; [exact E|]. intros k'. rewrite G. cbn [mget].
    destruct (bcmp k' k) eqn:C.
    + apply bcmp_eq in C. subst k'. destruct (mget bcmp k g) as [v'|] eqn:M.
      * exfalso. apply NI. apply (mget_In bcmp bcmp_eq) in M. apply in_map_iff. exists (k, v'). auto.
      * apply (mget_mset_same bcmp bcmp_eq).
    + destruct (mget bcmp k' g); [reflexivity|]. apply (mget_mset_other bcmp bcmp_eq). intros ->. rewrite (proj2 (bcmp_eq k k) eq_refl) in C. discriminate C.
    + destruct (mget bcmp k' g); [reflexivity|]. apply (mget_mset_other bcmp bcmp_eq). intros ->. rewrite (proj2 (bcmp_eq k k) eq_refl) in C. discriminate C.
Qed.
Lemma over_total {T} f (Q : props -> props -> Prop) : (forall p, exists q, f p = Ok q /\ Q p q) ->
  forall l : list (props * T), exists m, over f l = Ok m /\ Forall2 (fun x y => snd y = snd x /\ Q (fst x) (fst y)) l m.
Proof.
  intros H l. induction l as [|[p t] l (m & E & F)]; cbn [over]; [exists []; auto|].
  destruct (H p) as (q & Eq & HQ). exists ((q, t) :: m). rewrite Eq. cbn [rbind]. rewrite E. split; [reflexivity|]. constructor; [auto|exact F].
Qed.
Lemma set_given_bad n g : forall p v, In (B "character-encoding", v) g -> v <> B "utf-8" -> v <> B "UTF-8" -> set_given n g p = Throw.
Proof.
  induction g as [|[k w] g IH]; intros p v I N1 N2; [destruct I|]. cbn [set_given]. destruct I as [E|I].
  - injection E as -> ->. rewrite bstr_eqb_refl. destruct (bstr_eqb_spec v (B "utf-8")); [contradiction|]. destruct (bstr_eqb_spec v (B "UTF-8")); [contradiction|]. reflexivity.
  - destruct (bstr_eqb k (B "character-encoding") && negb (bstr_eqb w (B "utf-8") || bstr_eqb w (B "UTF-8"))); [reflexivity|].
    unfold set_property. destruct (check_utf8 (truncate_text n w)); [|reflexivity]. cbn [rbind]. exact (IH _ v I N1 N2).
Qed.
