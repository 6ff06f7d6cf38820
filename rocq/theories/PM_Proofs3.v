(** Locations, the text read, and tags. *)
From Coq Require Import Sorted Permutation.
From Verif Require Import Base Flags_Spec PM_Model PM_Spec PM_Proofs PM_Proofs2.

(** * The text is kept *)
Lemma skipn_nth {A} (l : list A) p x : nth_error l p = Some x -> skipn p l = x :: skipn (S p) l.
Proof. revert p. induction l as [|y l IH]; intros [|p] E; cbn in E; try discriminate; [injection E as ->; reflexivity|]. cbn [skipn]. apply IH, E. Qed.
Lemma slice_skip (l : list nat) p q : p <= q -> slice l p q ++ skipn q l = skipn p l.
Proof.
  intros L. unfold slice. assert (X : skipn q l = skipn (q - p) (skipn p l)); [|rewrite X; apply firstn_skipn].
  revert p q L. induction l as [|y l IH]; intros p q L; [rewrite !skipn_nil; reflexivity|]. destruct p as [|p]; [rewrite Nat.sub_0_r; reflexivity|]. destruct q as [|q]; [lia|]. cbn [skipn Nat.sub]. apply IH. lia.
Qed.
Lemma replaced_text nets al first n mw input p t : literal nets al -> Forall (fun x => x <> 0) input -> replaced nets al first n mw input p t ->
  filter nonzero (map fst t) = skipn p input.
Proof.
  intros Lit NZ. assert (NZ' : forall p x, nth_error input p = Some x -> nonzero x = true).
  { intros q x E. unfold nonzero. rewrite negb_true_iff. apply Nat.eqb_neq. rewrite Forall_forall in NZ. apply NZ. eapply nth_error_In, E. }
  induction 1 as [p L|p x o q w t Ex MS ((M & _) & _) L _ IH|p x t Ex _ _ IH|p x o w t Ex MS _ M _ IH].
  - rewrite skipn_all2 by exact L. reflexivity.
  - rewrite map_app, filter_app, IH. destruct (found_text nets al input mw n _ _ Lit NZ M) as (u & Eu & Es). cbn [start c_out c_pos fst snd app] in Eu, Es. subst u. rewrite Es. apply slice_skip. lia.
  - cbn [map fst filter]. rewrite (NZ' _ _ Ex), IH. symmetry. apply skipn_nth, Ex.
  - rewrite map_app, filter_app. destruct (found_text nets al input mw n _ _ Lit NZ M) as (u & Eu & Es). cbn [start c_out c_pos fst snd app] in Eu, Es. subst u. rewrite Es, slice_nil. cbn [app map fst filter].
    rewrite (NZ' _ _ Ex), IH. symmetry. apply skipn_nth, Ex.
Qed.

(** * Locations *)
Fixpoint last_tag (nm : names) (t : tape) (g : bstr) : bstr :=
  match t with [] => g | x :: r => last_tag nm r (match n_tag nm (snd x) with Some h => start_tag h | None => g end) end.
Lemma locate_loop_spec nm : forall t m inp out g, locate_loop nm t m inp out g =
  (m + length (filter (n_printable nm) (map fst (untagged nm t))), inp ++ joined nm (map fst (untagged nm t)), out ++ joined nm (map snd (untagged nm t)), last_tag nm t g).
Proof.
  induction t as [|[i k] t IH]; intros m inp out g; cbn [locate_loop last_tag untagged filter map snd fst].
  - unfold joined. cbn. rewrite Nat.add_0_r, !app_nil_r. reflexivity.
  - destruct (n_tag nm k) as [h|]; [rewrite IH; reflexivity|]. fold (untagged nm t). cbn [map fst snd filter]. unfold joined. cbn [map filter]. rewrite !IH. unfold joined.
    destruct (n_printable nm i), (n_printable nm k); cbn [length map concat]; rewrite <- ?app_assoc, ?Nat.add_succ_r; reflexivity.
Qed.
Lemma last_tag_none nm : forall t g, (forall x, In x t -> n_tag nm (snd x) = None) -> last_tag nm t g = g.
Proof. induction t as [|x t IH]; intros g H; cbn [last_tag]; [reflexivity|]. rewrite (H x (or_introl eq_refl)). apply IH. intros y Hy. apply H. right. exact Hy. Qed.
Lemma last_tag_app nm : forall t u g, last_tag nm (t ++ u) g = last_tag nm u (last_tag nm t g).
Proof. induction t as [|x t IH]; intros u g; cbn [app last_tag]; [reflexivity|]. apply IH. Qed.
Lemma locatefy_describes nm p t w : describes nm p t w (locatefy nm p (t, w)).
Proof.
  unfold locatefy. cbn [fst snd]. rewrite locate_loop_spec. cbn [app]. repeat split; cbn [l_start l_weight l_output l_input l_length l_tag].
  - lia.
  - intros H. apply last_tag_none, H.
  - intros t1 x g t2 -> Hg Hn. rewrite last_tag_app. cbn [last_tag]. rewrite Hg, last_tag_none by exact Hn. reflexivity.
Qed.
Lemma insert_In l m ls : In m (insert_location l ls) <-> m = l \/ In m ls.
Proof.
  induction ls as [|y ls IH]; cbn [insert_location In]; [intuition congruence|]. destruct (l_weight y <=? l_weight l)%Z; cbn [In]; [rewrite IH|]; intuition congruence.
Qed.
Lemma insert_sorted l ls : StronglySorted light_first ls -> StronglySorted light_first (insert_location l ls).
Proof.
  induction 1 as [|y ls S IH F]; cbn [insert_location]; [repeat constructor|]. destruct (Z.leb_spec (l_weight y) (l_weight l)) as [L|L].
  - constructor; [exact IH|]. rewrite Forall_forall in *. intros m Hm. apply insert_In in Hm. destruct Hm as [->|Hm]; [exact L|apply F, Hm].
  - constructor; [constructor; assumption|]. rewrite Forall_forall in *. unfold light_first in *. intros m [<-|Hm]; [lia|]. specialize (F m Hm). lia.
Qed.
Lemma sort_spec ls : StronglySorted light_first (sort_locations ls) /\ forall m, In m (sort_locations ls) <-> In m ls.
Proof.
  unfold sort_locations. assert (X : forall acc, StronglySorted light_first acc -> StronglySorted light_first (fold_left (fun acc l => insert_location l acc) ls acc) /\
    forall m, In m (fold_left (fun acc l => insert_location l acc) ls acc) <-> In m ls \/ In m acc).
  { induction ls as [|l ls IH]; intros acc S; cbn [fold_left In]; [split; [exact S|tauto]|]. destruct (IH _ (insert_sorted l acc S)) as (A & C). split; [exact A|]. intros m. rewrite C, insert_In. intuition congruence. }
  destruct (X [] ltac:(constructor)) as (A & C). split; [exact A|]. intros m. rewrite C. cbn [In]. tauto.
Qed.

Definition dup (ks : list nat) : tape := map (fun x => (x, x)) ks.
Section Locate.
  Variable nets : nat -> ptrans.
  Variable al : palpha.
  Variable nm : names.
  Variable first : list bool.
  Variable n : nat.
  Variable mw : option Z.
  Variable input : list nat.
  Hypothesis SS : sound_setting nets al.
  (** All symbols of the text are printable, and none is a tag. *)
  Hypothesis Pr : Forall (fun x => n_printable nm x = true /\ n_tag nm x = None) input.
  Notation hits := (matches nets al input mw n).

  Lemma flush_ok pr p ks : p_nonmatching pr = dup ks -> p_printable pr = p -> incl ks input ->
    exists out, flush nm pr = Progress (p_result pr) (p_locations pr ++ out) p [] /\ pending nm p ks out.
  Proof using Pr.
    intros E1 E2 I. unfold flush. rewrite E1, E2. destruct ks as [|k ks]; cbn [dup map].
    { exists []. rewrite app_nil_r. split; [destruct pr; cbn in *; subst; reflexivity|left; split; reflexivity]. }
    fold (dup ks). set (l := k :: ks) in *. change ((k, k) :: dup ks) with (dup l). eexists. split; [reflexivity|]. right. split; [discriminate|]. eexists. split; [reflexivity|].
    assert (U : untagged nm (dup l) = dup l).
    { clear - I Pr. clearbody l. induction l as [|y l IH]; [reflexivity|]. cbn [dup map untagged filter snd]. rewrite Forall_forall in Pr. destruct (Pr y (I y (or_introl eq_refl))) as (_ & ->). f_equal.
      apply IH. intros z Hz. apply I. right. exact Hz. }
    assert (M : map fst (dup l) = l) by (unfold dup; rewrite map_map; apply map_id).
    assert (F : filter (n_printable nm) l = l).
    { clear - I Pr. clearbody l. induction l as [|y l IH]; [reflexivity|]. cbn [filter]. rewrite Forall_forall in Pr. destruct (Pr y (I y (or_introl eq_refl))) as (-> & _). f_equal. apply IH. intros z Hz. apply I. right. exact Hz. }
    destruct (locatefy_describes nm (p - length (dup l)) (dup l) 0%Z) as (D1 & D2 & D3 & D4 & D5 & D6 & _). rewrite U, M in *. unfold joined in D4. rewrite F in D4, D5.
    unfold unmatched. cbn [l_start l_length l_input l_output l_tag l_weight]. rewrite D1, D2, D4, D5, D6.
    - split; [unfold dup; rewrite map_length; reflexivity|]. repeat split; reflexivity.
    - intros x Hx. rewrite <- U in Hx. apply filter_In in Hx. destruct Hx as (_ & Hx). destruct (n_tag nm (snd x)); [discriminate|reflexivity].
  Qed.
  Lemma text_printable p x : nth_error input p = Some x -> n_printable nm x = true.
  Proof using Pr. intros E. rewrite Forall_forall in Pr. apply Pr. eapply nth_error_In, E. Qed.
  Lemma pass_ok p x pr ks : nth_error input p = Some x -> p_nonmatching pr = dup ks -> p_printable pr = p ->
    pass_over nm true x pr = Progress (p_result pr ++ [(x, x)]) (p_locations pr) (S p) (dup (ks ++ [x])).
  Proof using Pr. intros E E1 E2. unfold pass_over. cbn [andb]. rewrite (text_printable _ _ E), E1, E2. unfold dup. rewrite map_app. reflexivity. Qed.

  Lemma locate_loop_ok : forall fuel p pr s ks, length input - p <= fuel -> p <= length input -> Idle s -> p_nonmatching pr = dup ks -> p_printable pr = p -> incl ks input ->
    exists out pr' s', process_loop nets al nm first n mw true input fuel p pr s = Ok (pr', s') /\ p_locations (flush nm pr') = p_locations pr ++ out /\
      located nets al nm first n mw input p ks out /\ Idle s'.
  Proof using SS Pr.
    induction fuel as [|fuel IH]; intros p pr s ks Fu Lp I E1 E2 IK; cbn [process_loop].
    { destruct (nth_error input p) as [x|] eqn:Ex; [assert (X : nth_error input p <> None) by congruence; apply nth_error_Some in X; lia|].
      destruct (flush_ok pr p ks E1 E2 IK) as (out & Ef & P). exists out, pr, s. split; [reflexivity|]. rewrite Ef. split; [reflexivity|]. split; [|exact I]. apply located_end; [apply nth_error_None, Ex|exact P]. }
    destruct (nth_error input p) as [x|] eqn:Ex.
    2:{ destruct (flush_ok pr p ks E1 E2 IK) as (out & Ef & P). exists out, pr, s. split; [reflexivity|]. rewrite Ef. split; [reflexivity|]. split; [|exact I]. apply located_end; [apply nth_error_None, Ex|exact P]. }
    assert (Lp' : p < length input) by (apply nth_error_Some; congruence). assert (Ix : In x input) by (eapply nth_error_In, Ex).
    assert (Copy : forall s1, Idle s1 -> (~ may_start first x \/ forall h, ~ hits p h) ->
      exists out pr' s', process_loop nets al nm first n mw true input fuel (S p) (pass_over nm true x pr) s1 = Ok (pr', s') /\ p_locations (flush nm pr') = p_locations pr ++ out /\
        located nets al nm first n mw input p ks out /\ Idle s').
    { intros s1 I1 HN. rewrite (pass_ok p x pr ks Ex E1 E2).
      destruct (IH (S p) (Progress (p_result pr ++ [(x, x)]) (p_locations pr) (S p) (dup (ks ++ [x]))) s1 (ks ++ [x])) as (out & pr' & s' & E & Ef & Lo & I'); [lia|lia|exact I1|reflexivity|reflexivity| |].
      - intros y Hy. apply in_app_or in Hy. destruct Hy as [Hy|[<-|[]]]; [apply IK, Hy|exact Ix].
      - exists out, pr', s'. split; [exact E|]. split; [exact Ef|]. split; [|exact I']. eapply located_copy; eassumption. }
    destruct (not_possible_first_symbol first x) eqn:NP.
    { apply Copy; [apply idle_best, I|]. left. rewrite <- may_start_spec. congruence. }
    apply may_start_spec in NP. set (s0 := set_tape [] _). assert (I0 : Idle s0) by (apply idle_tape, idle_best, I).
    destruct (match_ok nets al n mw input SS true p s0 I0 eq_refl) as (s1 & M1 & I1 & hs & Eb & Hhs). rewrite M1. cbn [rbind].
    pose proof (fold_locations (s_best s0) eq_refl hs) as SM. rewrite <- Eb in SM. set (b := s_best s1) in *. unfold candidate_found. fold b.
    destruct SM as [(Eh & EB)|(_ & _ & (t0 & w0 & H0) & Mx & Al)].
    { rewrite EB. cbn [s0 set_tape set_best s_best b_locations is_empty negb]. apply Copy; [exact I1|]. right. intros h H. apply Hhs in H. rewrite Eh in H. destruct H. }
    assert (NE : b_locations b <> []) by (intros Z; assert (X : In (t0, w0) (b_locations b)) by (apply Al; exact H0); rewrite Z in X; destruct X).
    replace (is_empty (b_locations b)) with false by (destruct (b_locations b); [congruence|reflexivity]). cbn [negb].
    destruct (flush_ok pr p ks E1 E2 IK) as (out & Ef & P). rewrite Ef. cbn [p_printable p_result p_locations p_nonmatching].
    set (q := b_pos b) in *. set (ls := sort_locations (map (locatefy nm p) (b_locations b))).
    assert (Lg : forall o w, In (o, w) (b_locations b) <-> longest nets al input mw n p (o, q, w)).
    { intros o w. rewrite Al, Hhs. split.
      - intros H. split; [exact H|]. intros [[o' r'] w'] H'. cbn [fst snd]. apply Hhs in H'. apply (Mx _ _ _ H').
      - intros (H & _). exact H. }
    pose proof (proj1 (Hhs _) H0) as Hit0. pose proof (matches_progress _ _ _ _ _ _ _ _ _ Hit0) as (Lq & _).
    pose proof (found_bound nets al input mw n _ _ Hit0 Lp) as Bq. cbn [fst snd] in Bq.
    assert (AL : all_longest nets al nm n mw input p q ls).
    { destruct (sort_spec (map (locatefy nm p) (b_locations b))) as (S1 & S2). fold ls in S1, S2. split; [|split; [exact S1|split]].
      - intros Z. assert (X : In (locatefy nm p (t0, w0)) ls) by (apply S2, in_map, Al, H0). rewrite Z in X. destruct X.
      - intros l Hl. apply S2, in_map_iff in Hl. destruct Hl as ([o w] & <- & Hin). exists o, w. split; [apply Lg, Hin|apply locatefy_describes].
      - intros o r w (H & Mr). assert (r = q).
        { specialize (Mr _ Hit0). cbn [fst snd] in Mr. pose proof (Mx o r w (proj2 (Hhs _) H)). lia. }
        subst r. split; [reflexivity|]. exists (locatefy nm p (o, w)). split; [|apply locatefy_describes]. apply S2, in_map, Lg. split; assumption. }
    destruct (Nat.eqb_spec q p) as [Z|Z].
    - set (pr1 := Progress (p_result pr) ((p_locations pr ++ out) ++ [ls]) (p + (q - p)) []).
      assert (PP : p_printable pr1 = p) by (cbn; lia). rewrite (pass_ok p x pr1 [] Ex eq_refl PP). rewrite Z. cbn [app].
      destruct (IH (S p) (Progress (p_result pr1 ++ [(x, x)]) (p_locations pr1) (S p) (dup [x])) s1 [x]) as (rest & pr' & s' & E & Ef' & Lo & I'); [lia|lia|exact I1|reflexivity|reflexivity|intros y [<-|[]]; exact Ix|].
      exists (out ++ ls :: rest), pr', s'. split; [exact E|]. split; [rewrite Ef'; cbn [p_locations pr1]; rewrite <- !app_assoc; reflexivity|]. split; [|exact I'].
      eapply located_empty; try eassumption. rewrite Z in AL. exact AL.
    - destruct (IH q (Progress (p_result pr) ((p_locations pr ++ out) ++ [ls]) (p + (q - p)) []) s1 []) as (rest & pr' & s' & E & Ef' & Lo & I'); [lia|exact Bq|exact I1|reflexivity|cbn; lia|intros y []|].
      exists (out ++ ls :: rest), pr', s'. split; [exact E|]. split; [rewrite Ef'; cbn [p_locations]; rewrite <- !app_assoc; reflexivity|]. split; [|exact I'].
      eapply located_match; try eassumption. lia.
  Qed.
  Lemma process_locate s : Idle s -> exists out s', locate_text nets al nm first n mw input s = Ok (out, s') /\ located nets al nm first n mw input 0 [] out /\ Idle s'.
  Proof using SS Pr.
    intros I. unfold locate_text, process. set (s0 := set_best _ _). assert (I0 : Idle s0) by (destruct I; split; try assumption; reflexivity).
    destruct (locate_loop_ok (length input) 0 (Progress [] [] 0 []) s0 []) as (out & pr' & s' & E & Ef & Lo & I'); [lia|lia|exact I0|reflexivity|reflexivity|intros y []|].
    rewrite E. cbn [rmap]. exists out, s'. rewrite Ef. split; [reflexivity|]. split; assumption.
  Qed.
End Locate.

(** The input of a location is the text that was matched. *)
Lemma joined_filter nm ks : n_printable nm 0 = false -> filter (n_printable nm) ks = filter (n_printable nm) (filter nonzero ks).
Proof.
  intros Z. induction ks as [|k ks IH]; [reflexivity|]. cbn [filter]. unfold nonzero at 1. destruct (Nat.eqb_spec k 0) as [->|N]; cbn [negb]; [rewrite Z; exact IH|]. cbn [filter]. rewrite IH. reflexivity.
Qed.
Lemma found_untagged nets al input mw nm n c h : literal nets al -> Forall (fun x => x <> 0) input -> silent_tags nets al nm input -> found nets al input mw n c h ->
  filter nonzero (map fst (untagged nm (fst (fst h)))) = filter nonzero (map fst (untagged nm (c_out c))) ++ slice input (c_pos c) (snd (fst h)).
Proof.
  intros Lit NZ (S1 & S2). induction 1 as [n T i e g p o w wf A F|n c c' h A M F IH]; cbn [fst snd c_pos c_out] in *.
  { rewrite slice_nil, app_nil_r. reflexivity. }
  pose proof (found_progress nets al input mw _ _ _ F) as (PR & _). rewrite IH. clear IH.
  inversion M; subst; cbn [c_pos c_out] in *; try reflexivity.
  - unfold untagged. rewrite filter_app, map_app, filter_app. cbn [filter snd]. destruct (n_tag nm (pa_out a)); cbn [map fst filter nonzero Nat.eqb negb]; rewrite app_nil_r; reflexivity.
  - match goal with H : nth_error input p = Some x |- _ => rename H into Hx end. match goal with H : reads _ _ _ _ _ _ |- _ => rename H into Hr end.
    rewrite (slice_cons _ _ _ _ Hx PR). assert (X : x <> 0) by (rewrite Forall_forall in NZ; apply NZ; eapply nth_error_In; exact Hx).
    assert (FX : (if al_meta al (pa_out a) then (x, x) else (pa_in a, pa_out a)) = (x, if al_meta al (pa_out a) then x else pa_out a)).
    { destruct (al_meta al (pa_out a)) eqn:Em; [reflexivity|]. destruct (Lit _ _ _ _ Hr) as [Y|Y]; congruence. }
    rewrite FX. unfold untagged. rewrite filter_app, map_app, filter_app, <- app_assoc. f_equal. cbn [filter snd].
    assert (NT : n_tag nm (if al_meta al (pa_out a) then x else pa_out a) = None) by (destruct (al_meta al (pa_out a)); [apply S1; eapply nth_error_In, Hx|eapply S2; [eapply nth_error_In, Hx|exact Hr]]).
    rewrite NT. cbn [map fst filter]. unfold nonzero at 1. rewrite (proj2 (Nat.eqb_neq _ _) X). reflexivity.
Qed.
Lemma location_text nets al input mw nm n p o q w l : literal nets al -> Forall (fun x => x <> 0) input -> silent_tags nets al nm input -> n_printable nm 0 = false ->
  matches nets al input mw n p (o, q, w) -> describes nm p o w l ->
  l_input l = joined nm (slice input p q) /\ l_length l = length (filter (n_printable nm) (slice input p q)).
Proof.
  intros Lit NZ ST Z M (_ & _ & _ & D4 & D5 & _). pose proof (found_untagged nets al input mw nm n _ _ Lit NZ ST M) as E. cbn [fst snd start c_out c_pos untagged filter map app] in E.
  fold (untagged nm o) in E. unfold joined in *. rewrite D4, D5, (joined_filter nm (map fst (untagged nm o)) Z), E. split; reflexivity.
Qed.

(** * Tags *)
Section Tags.
  Variable nm : names.
  (** Induction over trees. *)
  Fixpoint item_size (x : item) : nat :=
    match x with Text _ _ => 1 | Tag _ _ _ => 1 | Group _ _ b _ _ => S (list_sum (map item_size b)) end.
  Lemma all_well_named l : (fix all (l : list item) := match l with [] => True | y :: r => well_named nm y /\ all r end) l <-> Forall (well_named nm) l.
  Proof. induction l as [|y l IH]; [split; [constructor|trivial]|]. rewrite IH. split; [intros (A & C); constructor; assumption|intros H; inversion H; split; assumption]. Qed.

  Lemma firstn_exact {A} (a b : list A) : firstn (length a) (a ++ b) = a.
  Proof. induction a; cbn; [destruct b; reflexivity|]. f_equal. exact IHa. Qed.
  Lemma skipn_exact {A} (a b : list A) : skipn (length a) (a ++ b) = b.
  Proof. induction a; cbn; [reflexivity|]. exact IHa. Qed.

  (** [pre] is what stood before the group, [acc] the text of the group so far. *)
  Lemma marked_items : forall m l, list_sum (map item_size l) <= m -> Forall (well_named nm) l ->
    forall starts pre acc r, hd 0 starts = length pre ->
    stringify nm (Options false true false) true starts (pre ++ acc) (flat_map flat l ++ r) =
    stringify nm (Options false true false) true starts (pre ++ fold_left (marked nm) l acc) r.
  Proof.
    induction m as [|m IH]; intros l Lm W starts pre acc r Hs; (destruct l as [|x l]; [reflexivity|]).
    { cbn in Lm. destruct x; cbn in Lm; lia. }
    inversion W as [|? ? Wx Wl]; subst. cbn [map] in Lm. change (list_sum (item_size x :: map item_size l)) with (item_size x + list_sum (map item_size l)) in Lm.
    cbn [flat_map fold_left]. rewrite <- app_assoc. destruct x as [i k|i k g|i k b i' k']; cbn [flat app marked item_size] in *.
    - destruct Wx as (W1 & W2 & W3). cbn [stringify]. rewrite W1, W2, W3. cbn [o_extract negb orb andb]. rewrite ?orb_true_l. unfold shown.
      replace (if n_printable nm k then (pre ++ acc) ++ n_string nm k else pre ++ acc) with (pre ++ (acc ++ if n_printable nm k then n_string nm k else [])).
      2:{ destruct (n_printable nm k); rewrite ?app_nil_r, ?app_assoc; reflexivity. }
      apply IH; [lia|exact Wl|exact Hs].
    - destruct Wx as (W1 & W2 & W3). cbn [stringify]. rewrite W1, W2, W3. cbn [o_delete o_mark]. rewrite ?orb_true_l. cbn [andb]. rewrite Hs, firstn_exact, skipn_exact.
      unfold start_tag, end_tag. rewrite <- !app_assoc. apply IH; [lia|exact Wl|exact Hs].
    - destruct Wx as (W1 & W2 & W3 & W4). apply all_well_named in W4. cbn [stringify]. rewrite W1. rewrite ?orb_true_l. rewrite <- app_assoc.
      replace (pre ++ acc) with ((pre ++ acc) ++ []) at 2 by apply app_nil_r. rewrite (IH b); [|lia|exact W4|reflexivity].
      cbn [app stringify]. rewrite W2, W3. rewrite ?orb_true_l. cbn [tl]. rewrite <- app_assoc. apply IH; [lia|exact Wl|exact Hs].
  Qed.
  Lemma deleted_items : forall m l, list_sum (map item_size l) <= m -> Forall (well_named nm) l ->
    forall mk seen starts pre acc r, hd 0 starts = length pre ->
    exists seen', stringify nm (Options true mk false) seen starts (pre ++ acc) (flat_map flat l ++ r) =
    stringify nm (Options true mk false) seen' starts (pre ++ fold_left (replaced_by_tags nm) l acc) r.
  Proof.
    induction m as [|m IH]; intros l Lm W mk seen starts pre acc r Hs; (destruct l as [|x l]; [exists seen; reflexivity|]).
    { cbn in Lm. destruct x; cbn in Lm; lia. }
    inversion W as [|? ? Wx Wl]; subst. cbn [map] in Lm. change (list_sum (item_size x :: map item_size l)) with (item_size x + list_sum (map item_size l)) in Lm.
    cbn [flat_map fold_left]. rewrite <- app_assoc. destruct x as [i k|i k g|i k b i' k']; cbn [flat app replaced_by_tags item_size] in *.
    - destruct Wx as (W1 & W2 & W3). cbn [stringify]. rewrite W1, W2, W3. cbn [o_extract negb orb andb]. unfold shown.
      replace (if n_printable nm k then (pre ++ acc) ++ n_string nm k else pre ++ acc) with (pre ++ (acc ++ if n_printable nm k then n_string nm k else [])).
      2:{ destruct (n_printable nm k); rewrite ?app_nil_r, ?app_assoc; reflexivity. }
      apply IH; [lia|exact Wl|exact Hs].
    - destruct Wx as (W1 & W2 & W3). cbn [stringify]. rewrite W1, W2, W3. cbn [o_delete]. rewrite Hs, firstn_exact.
      unfold start_tag. apply IH; [lia|exact Wl|exact Hs].
    - destruct Wx as (W1 & W2 & W3 & W4). apply all_well_named in W4. cbn [stringify]. rewrite W1. rewrite <- app_assoc.
      destruct (IH b ltac:(lia) W4 mk (seen || n_printable nm i) (length (pre ++ acc) :: starts) (pre ++ acc) [] (([(i', k')] ++ flat_map flat l ++ r))) as (s1 & E1); [reflexivity|].
      rewrite app_nil_r in E1. rewrite E1. cbn [app stringify]. rewrite W2, W3. cbn [tl]. rewrite <- app_assoc. apply IH; [lia|exact Wl|exact Hs].
  Qed.
  (** Once printable input has been seen. *)
  Lemma seen_irrelevant o : forall t seen starts acc, (seen = false -> after_text nm t) -> stringify nm o seen starts acc t = stringify nm o true starts acc t.
  Proof.
    induction t as [|[i k] t IH]; intros seen starts acc H; cbn [stringify]; [reflexivity|]. rewrite ?orb_true_l.
    assert (H' : seen || n_printable nm i = false -> after_text nm t).
    { intros X. apply orb_false_iff in X. destruct X as (X1 & X2). intros t1 i1 k1 t2 g E G. destruct (H X1 ((i, k) :: t1) i1 k1 t2 g) as (y & Hy & Py); [rewrite E; reflexivity|exact G|].
      cbn [app In] in Hy. destruct Hy as [<-|Hy]; [cbn in Py; congruence|]. eauto. }
    destruct (n_entry nm k); [apply IH, H'|]. destruct (n_exit nm k); [apply IH, H'|]. destruct (n_tag nm k) as [g|] eqn:G; [|apply IH, H'].
    assert (X : seen || n_printable nm i = true).
    { destruct seen; [reflexivity|]. destruct (H eq_refl [] i k t g eq_refl G) as (y & [<-|[]] & Py). exact Py. }
    rewrite X. reflexivity.
  Qed.
  Lemma extracted_items l : Forall (well_named nm) l -> Forall (fun x => match x with Tag _ _ _ => False | _ => True end) l ->
    forall acc r, stringify nm (Options false true true) true [] acc (flat_map flat l ++ r) = stringify nm (Options false true true) true [] (acc ++ concat (map (extracted nm) l)) r.
  Proof.
    intros W NT. assert (G : forall m l, list_sum (map item_size l) <= m -> Forall (well_named nm) l ->
      forall starts pre acc r, starts <> [] -> hd 0 starts = length pre ->
      stringify nm (Options false true true) true starts (pre ++ acc) (flat_map flat l ++ r) = stringify nm (Options false true true) true starts (pre ++ fold_left (marked nm) l acc) r).
    { clear l W NT. induction m as [|m IH]; intros l Lm W starts pre acc r NS Hs; (destruct l as [|x l]; [reflexivity|]).
      { cbn in Lm. destruct x; cbn in Lm; lia. }
      inversion W as [|? ? Wx Wl]; subst. cbn [map] in Lm. change (list_sum (item_size x :: map item_size l)) with (item_size x + list_sum (map item_size l)) in Lm.
      cbn [flat_map fold_left]. rewrite <- app_assoc. destruct x as [i k|i k g|i k b i' k']; cbn [flat app marked item_size] in *.
      - destruct Wx as (W1 & W2 & W3). cbn [stringify]. rewrite W1, W2, W3. cbn [o_extract negb orb andb]. rewrite ?orb_true_l. unfold shown.
        replace (match starts with [] => true | _ :: _ => false end) with false by (destruct starts; [congruence|reflexivity]). cbn [negb andb].
        replace (if n_printable nm k then (pre ++ acc) ++ n_string nm k else pre ++ acc) with (pre ++ (acc ++ if n_printable nm k then n_string nm k else [])).
        2:{ destruct (n_printable nm k); rewrite ?app_nil_r, ?app_assoc; reflexivity. }
        apply IH; [lia|exact Wl|exact NS|exact Hs].
      - destruct Wx as (W1 & W2 & W3). cbn [stringify]. rewrite W1, W2, W3. cbn [o_delete o_mark]. rewrite ?orb_true_l. cbn [andb]. rewrite Hs, firstn_exact, skipn_exact.
        unfold start_tag, end_tag. rewrite <- !app_assoc. apply IH; [lia|exact Wl|exact NS|exact Hs].
      - destruct Wx as (W1 & W2 & W3 & W4). apply all_well_named in W4. cbn [stringify]. rewrite W1. rewrite ?orb_true_l. rewrite <- app_assoc.
        replace (pre ++ acc) with ((pre ++ acc) ++ []) at 2 by apply app_nil_r. rewrite (IH b); [|lia|exact W4|discriminate|reflexivity].
        cbn [app stringify]. rewrite W2, W3. rewrite ?orb_true_l. cbn [tl]. rewrite <- app_assoc. apply IH; [lia|exact Wl|exact NS|exact Hs]. }
    induction l as [|x l IH]; intros acc r; [cbn [flat_map map concat app]; rewrite app_nil_r; reflexivity|].
    inversion W as [|? ? Wx Wl]; subst. inversion NT as [|? ? Nx Nl]; subst. cbn [flat_map map concat]. rewrite <- app_assoc. destruct x as [i k|i k g|i k b i' k']; [|destruct Nx|].
    - destruct Wx as (W1 & W2 & W3). cbn [flat app stringify extracted]. rewrite W1, W2, W3. cbn [o_extract negb orb andb]. rewrite ?orb_true_l. apply IH; assumption.
    - destruct Wx as (W1 & W2 & W3 & W4). apply all_well_named in W4. cbn [flat app stringify extracted]. rewrite W1. rewrite ?orb_true_l. rewrite <- app_assoc.
      replace acc with (acc ++ []) at 2 by apply app_nil_r. rewrite (G _ b (le_n _) W4); [|discriminate|reflexivity]. cbn [app stringify]. rewrite W2, W3. rewrite ?orb_true_l. cbn [tl]. rewrite IH by assumption. rewrite <- app_assoc. reflexivity.
  Qed.
End Tags.
