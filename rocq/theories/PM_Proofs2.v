(** The division of the text: replacement of the matches. *)
From Coq Require Import Sorted Permutation.
From Verif Require Import Base Flags_Spec PM_Model PM_Spec PM_Proofs.

(** Between two lines, and between two matches. *)
Record Idle (s : state) : Prop := {
  i_weight : s_weight s = 0%Z; i_depth : s_depth s = 0; i_global : s_global s = env0;
  i_locals : forall T, s_locals s T <> []; i_flags : forall T l, In l (s_locals s T) -> lv_flags l = env0 }.

(** * Facts about matches *)
Section Facts.
  Variable nets : nat -> ptrans.
  Variable al : palpha.
  Variable input : list nat.
  Variable mw : option Z.
  Lemma found_progress n c h : found nets al input mw n c h -> c_pos c <= snd (fst h) /\ snd (fst h) - c_pos c + length (c_out c) <= length (fst (fst h)).
  Proof.
    induction 1 as [n T i e g p o w wf A F|n c c' h A M F IH]; cbn [fst snd c_pos c_out] in *; [lia|].
    inversion M; subst; cbn [c_pos c_out] in *; rewrite ?app_length in IH; cbn [length] in IH; lia.
  Qed.
  Lemma matches_progress n p o q w : matches nets al input mw n p (o, q, w) -> p <= q /\ q - p <= length o.
  Proof. intros H. apply found_progress in H. cbn in H. lia. Qed.
  Lemma found_bound n c h : found nets al input mw n c h -> c_pos c <= length input -> snd (fst h) <= length input.
  Proof.
    induction 1 as [n T i e g p o w wf A F|n c c' h A M F IH]; cbn [fst snd c_pos] in *; [lia|].
    inversion M; subst; cbn [c_pos] in *; intros L; apply IH; try exact L.
    match goal with H : nth_error input p = Some x |- _ => assert (nth_error input p <> None) as X by congruence; apply nth_error_Some in X; lia end.
  Qed.
  (** What has been read. *)
  Notation slice := (PM_Spec.slice input).
  Lemma slice_nil p : slice p p = [].
  Proof. unfold slice. rewrite Nat.sub_diag. reflexivity. Qed.
  Lemma slice_cons p q x : nth_error input p = Some x -> S p <= q -> slice p q = x :: slice (S p) q.
  Proof.
    intros E L. unfold slice. replace (q - p) with (S (q - S p)) by lia.
    assert (X : skipn p input = x :: skipn (S p) input).
    { clear L. revert p E. induction input as [|y l IH]; intros [|p] E; cbn in E; try discriminate; [injection E as ->; reflexivity|]. cbn [skipn]. apply IH, E. }
    rewrite X. reflexivity.
  Qed.
  Notation literal := (PM_Spec.literal nets al).
  Lemma found_text n c h : literal -> Forall (fun x => x <> 0) input -> found nets al input mw n c h ->
    exists u, fst (fst h) = c_out c ++ u /\ filter nonzero (map fst u) = slice (c_pos c) (snd (fst h)).
  Proof.
    intros Lit NZ. induction 1 as [n T i e g p o w wf A F|n c c' h A M F IH]; cbn [fst snd c_pos c_out] in *.
    { exists []. rewrite app_nil_r, slice_nil. split; reflexivity. }
    destruct IH as (u & Eu & Es). pose proof (found_progress _ _ _ F) as (PR & _).
    inversion M; subst; cbn [c_pos c_out] in *; try (exists u; split; assumption).
    - exists ((0, pa_out a) :: u). rewrite Eu, <- app_assoc. split; [reflexivity|exact Es].
    - eexists (_ :: u). rewrite Eu, <- app_assoc. split; [reflexivity|]. match goal with H : nth_error input p = Some x |- _ => rename H into Hx end.
      rewrite (slice_cons _ _ _ Hx PR), <- Es. assert (X : x <> 0) by (rewrite Forall_forall in NZ; apply NZ; eapply nth_error_In; exact Hx).
      assert (FX : fst (if al_meta al (pa_out a) then (x, x) else (pa_in a, pa_out a)) = x).
      { destruct (al_meta al (pa_out a)) eqn:Em; [reflexivity|]. cbn [fst]. match goal with H : reads _ _ _ _ _ _ |- _ => destruct (Lit _ _ _ _ H) as [Y|Y] end; congruence. }
      cbn [map filter]. rewrite FX. unfold nonzero at 1. rewrite (proj2 (Nat.eqb_neq _ _) X). reflexivity.
  Qed.
End Facts.

(** * The best of what is found *)
Lemma fold_best : forall hs b b', fold_left (record false) hs b = b' ->
  b_locations b' = b_locations b /\ b_pos b <= b_pos b' /\
  (b' = b \/ exists t q w, In (t, q, w) hs /\ b' = Best t q w (b_locations b)) /\
  forall t q w, In (t, q, w) hs -> q < b_pos b' \/ q = b_pos b' /\ (b_weight b' <= w)%Z.
Proof.
  intros hs. induction hs as [|[[t q] w] hs IH]; intros b b' E; cbn [fold_left] in E.
  { subst b'. repeat split; auto. intros ? ? ? []. }
  destruct (IH _ _ E) as (A & C & D & F). clear IH. set (b1 := record false b (t, q, w)) in *.
  assert (X : b1 = b /\ (q < b_pos b \/ q = b_pos b /\ (b_weight b <= w)%Z) \/ b1 = Best t q w (b_locations b) /\ b_pos b <= q).
  { subst b1. cbn [record]. destruct ((b_pos b <? q) || ((q =? b_pos b) && (w <? b_weight b)%Z)) eqn:Y.
    - right. split; [reflexivity|]. apply orb_true_iff in Y. rewrite andb_true_iff, Nat.ltb_lt, Nat.eqb_eq in Y. lia.
    - left. split; [reflexivity|]. apply orb_false_iff in Y. rewrite andb_false_iff, Nat.ltb_ge, Nat.eqb_neq, Z.ltb_ge in Y. lia. }
  assert (G : b_pos b1 < b_pos b' \/ b_pos b1 = b_pos b' /\ (b_weight b' <= b_weight b1)%Z).
  { destruct D as [->|(t' & q' & w' & Hin & ->)]; [right; split; [reflexivity|lia]|]. cbn [b_pos b_weight] in *.
    clear - E C. revert E C. generalize b1 as b0. clear b1. intros b0 E C.
    assert (M : forall hs b b', fold_left (record false) hs b = b' -> b_pos b < b_pos b' \/ b_pos b = b_pos b' /\ (b_weight b' <= b_weight b)%Z).
    { clear. induction hs as [|[[t q] w] hs IH]; intros b b' E; cbn [fold_left] in E; [subst; right; split; [reflexivity|lia]|]. specialize (IH _ _ E). cbn [record] in IH.
      destruct ((b_pos b <? q) || ((q =? b_pos b) && (w <? b_weight b)%Z)) eqn:Y; [|exact IH]. apply orb_true_iff in Y. rewrite andb_true_iff, Nat.ltb_lt, Nat.eqb_eq, Z.ltb_lt in Y. cbn in IH. lia. }
    specialize (M _ _ _ E). cbn in M. exact M. }
  destruct X as [(E1 & X)|(E1 & X)]; rewrite E1 in *; cbn [b_pos b_weight b_locations] in *.
  - split; [exact A|]. split; [exact C|]. split; [destruct D as [D|(t' & q' & w' & Hin & D)]; [left; exact D|right; exists t', q', w'; split; [right; exact Hin|exact D]]|].
    intros t' q' w' [H|H]; [injection H as <- <- <-; lia|apply (F _ _ _ H)].
  - split; [exact A|]. split; [lia|]. split.
    + right. destruct D as [->|(t' & q' & w' & Hin & ->)]; [exists t, q, w; split; [left; reflexivity|reflexivity]|exists t', q', w'; split; [right; exact Hin|reflexivity]].
    + intros t' q' w' [H|H]; [injection H as <- <- <-; exact G|apply (F _ _ _ H)].
Qed.

Definition summary (hs : list hit) (b0 b : found_so_far) : Prop :=
  hs = [] /\ b = b0 \/ b_result b = b_result b0 /\ b_weight b = b_weight b0 /\ (exists t w, In (t, b_pos b, w) hs) /\ (forall t r w, In (t, r, w) hs -> r <= b_pos b) /\
    (forall t w, In (t, w) (b_locations b) <-> In (t, b_pos b, w) hs).
Lemma fold_locations b0 : b_locations b0 = [] -> forall hs, summary hs b0 (fold_left (record true) hs b0).
Proof.
  intros E0 hs. induction hs as [|[[t q] w] hs IH] using rev_ind; [left; split; reflexivity|].
  rewrite fold_left_app. cbn [fold_left]. set (b := fold_left (record true) hs b0) in *. right. destruct IH as [(-> & Eb)|(R1 & R2 & (t0 & w0 & H0) & Mx & Al)].
  - rewrite Eb. cbn [record app]. rewrite E0. cbn [b_result b_weight b_pos b_locations]. split; [reflexivity|]. split; [reflexivity|]. split; [exists t, w; left; reflexivity|]. split.
    + intros ? ? ? [H|[]]. injection H as <- <- <-. lia.
    + intros t' w'. cbn [In]. split; intros [H|[]]; left; congruence.
  - assert (NE : b_locations b <> []) by (intros Z; assert (X : In (t0, w0) (b_locations b)) by (apply Al; exact H0); rewrite Z in X; destruct X).
    cbn [record]. destruct (b_locations b) as [|y ys] eqn:EL; [congruence|]. rewrite <- EL in *. clear NE.
    destruct (Nat.ltb_spec q (b_pos b)) as [L|L].
    + split; [exact R1|]. split; [exact R2|]. split; [exists t0, w0; apply in_or_app; left; exact H0|]. split.
      * intros t' r' w' H. apply in_app_or in H. destruct H as [H|[H|[]]]; [eapply Mx; exact H|]. injection H as <- <- <-. lia.
      * intros t' w'. rewrite Al, in_app_iff. split; [auto|]. intros [H|[H|[]]]; [exact H|]. injection H as _ X _. lia.
    + cbn [b_result b_weight b_pos b_locations]. split; [exact R1|]. split; [exact R2|]. split; [exists t, w; apply in_or_app; right; left; reflexivity|].
      destruct (Nat.ltb_spec (b_pos b) q) as [L2|L2].
      * split.
        -- intros t' r' w' H. apply in_app_or in H. destruct H as [H|[H|[]]]; [specialize (Mx _ _ _ H); lia|]. injection H as <- <- <-. lia.
        -- intros t' w'. cbn [app In]. rewrite in_app_iff. cbn [In]. split; [intros [H|[]]; right; left; congruence|]. intros [H|[H|[]]]; [specialize (Mx _ _ _ H); lia|left; congruence].
      * assert (q = b_pos b) by lia. subst q. split.
        -- intros t' r' w' H. apply in_app_or in H. destruct H as [H|[H|[]]]; [apply (Mx _ _ _ H)|]. injection H as <- <- <-. lia.
        -- intros t' w'. rewrite !in_app_iff, Al. cbn [In]. split; intros [H|[H|[]]]; auto; right; left; congruence.
Qed.

(** * One match *)
Section Text.
  Variable nets : nat -> ptrans.
  Variable al : palpha.
  Variable nm : names.
  Variable first : list bool.
  Variable n : nat.
  Variable mw : option Z.
  Variable input : list nat.
  Hypothesis SS : sound_setting nets al.
  Notation hits := (matches nets al input mw n).

  Lemma match_ok locate p s : Idle s -> s_tape s = [] -> exists s', match_at nets al input mw locate n p s = Ok s' /\ Idle s' /\
    exists hs, s_best s' = fold_left (record locate) hs (s_best s) /\ forall h, In h hs <-> hits p h.
  Proof using SS.
    intros I ET. destruct I as [I1 I2 I3 I4 I5]. unfold match_at, top. destruct (s_locals s 0) as [|l0 r0] eqn:E0; [destruct (I4 0 E0)|]. cbn [rbind].
    set (s1 := set_top 0 (Locals (lv_flags l0) false) s).
    assert (F1 : forall T l, In l (s_locals s1 T) -> lv_flags l = env0).
    { intros T l. cbn. destruct (Nat.eqb_spec T 0) as [->|N]; [|apply I5]. rewrite E0. cbn [tl]. intros [<-|H]; [cbn; apply (I5 0); rewrite E0; left; reflexivity|apply (I5 0); rewrite E0; right; exact H]. }
    assert (N1 : forall T, s_locals s1 T <> []) by (intros T; cbn; destruct (Nat.eqb_spec T 0); [discriminate|apply I4]).
    assert (G : exists ranked rank, (ranked = true -> forall T i a U, In a (pt_arcs (nets T) i) -> al_rtn al (pa_in a) = Some U -> rank U < rank T) /\
      (ranked = true -> separate_defaults nets al) /\ (ranked = false -> no_flags nets al) /\ (ranked = false -> al_default al = None)).
    { destruct SS as [((rank & H1) & H2)|(H1 & H2)]; [exists true, rank|exists false, (fun _ => 0)]; (split; [|split; [|split]]); try (intros X; discriminate X); intros _; assumption. }
    destruct G as (ranked & rank & G1 & G2 & G3 & G4).
    assert (R : Rel ranked rank (start p) s1).
    { split; cbn [start c_weight c_global c_calls c_out length]; try reflexivity; try assumption.
      - lia.
      - intros d C r e H. destruct d; discriminate.
      - intros _. unfold chain. cbn. constructor; constructor.
      - intros _ T e [H|[]]. injection H as <- <-. exists false, r0. cbn. rewrite E0. cbn [tl]. f_equal. f_equal. apply (I5 0). rewrite E0. left. reflexivity.
      - intros _. split; [exact F1|]. intros T e [H|[]]. injection H as <- <-. reflexivity. }
    destruct (get_analyses_ok nets al input mw locate ranked rank G1 G2 G3 G4 n (start p) s1 R) as (s' & E & Q). exists s'. split; [exact E|]. split.
    - split.
      + rewrite (q_weight _ _ _ _ _ _ Q). exact I1.
      + rewrite (q_depth _ _ _ _ _ _ Q). exact I2.
      + rewrite (q_global _ _ _ _ _ _ Q). exact I3.
      + intros T. eapply flags_top; [apply (q_flags _ _ _ _ _ _ Q)|apply N1].
      + intros T l H. assert (X : In (lv_flags l) (map lv_flags (s_locals s1 T))) by (rewrite <- (q_flags _ _ _ _ _ _ Q); apply in_map, H). apply in_map_iff in X. destruct X as (l' & <- & H'). eapply F1, H'.
    - exact (q_best _ _ _ _ _ _ Q).
  Qed.
  Lemma idle_best s b : Idle s -> Idle (set_best b s).
  Proof. intros []. split; assumption. Qed.
  Lemma idle_tape s t : Idle s -> Idle (set_tape t s).
  Proof. intros []. split; assumption. Qed.
  Lemma may_start_spec x : not_possible_first_symbol first x = false <-> may_start first x.
  Proof.
    unfold not_possible_first_symbol, may_start. destruct first as [|b l]; [tauto|]. rewrite negb_false_iff. split; [auto|]. intros [H|H]; [discriminate|exact H].
  Qed.

  Lemma replace_loop : forall fuel p pr s, length input - p <= fuel -> Idle s -> b_pos (s_best s) <= p ->
    exists t pr' s', process_loop nets al nm first n mw false input fuel p pr s = Ok (pr', s') /\ p_result pr' = p_result pr ++ t /\
      replaced nets al first n mw input p t /\ Idle s'.
  Proof using SS.
    induction fuel as [|fuel IH]; intros p pr s Fu I BP; cbn [process_loop].
    { destruct (nth_error input p) as [x|] eqn:Ex.
      - assert (X : nth_error input p <> None) by congruence. apply nth_error_Some in X. lia.
      - exists [], pr, s. rewrite app_nil_r. split; [reflexivity|]. split; [reflexivity|]. split; [apply replaced_end, nth_error_None, Ex|exact I]. }
    destruct (nth_error input p) as [x|] eqn:Ex.
    2:{ exists [], pr, s. rewrite app_nil_r. split; [reflexivity|]. split; [reflexivity|]. split; [apply replaced_end, nth_error_None, Ex|exact I]. }
    assert (Lp : p < length input) by (apply nth_error_Some; congruence).
    assert (Copy : forall s1, Idle s1 -> b_pos (s_best s1) <= p -> (~ may_start first x \/ forall o q w, hits p (o, q, w) -> q <= p) ->
      exists t pr' s', process_loop nets al nm first n mw false input fuel (S p) (pass_over nm false x pr) s1 = Ok (pr', s') /\ p_result pr' = p_result pr ++ t /\ replaced nets al first n mw input p t /\ Idle s').
    { intros s1 I1 B1 HN. destruct (IH (S p) (pass_over nm false x pr) s1) as (t & pr' & s' & E & Er & Rp & I'); [lia|exact I1|lia|].
      exists ((x, x) :: t), pr', s'. split; [exact E|]. split; [rewrite Er; cbn [pass_over andb p_result]; rewrite <- app_assoc; reflexivity|]. split; [|exact I']. eapply replaced_copy; eassumption. }
    destruct (not_possible_first_symbol first x) eqn:NP.
    { apply Copy; [apply idle_best, I|exact BP|]. left. rewrite <- may_start_spec. congruence. }
    apply may_start_spec in NP. set (s0 := set_tape [] _). assert (I0 : Idle s0) by (apply idle_tape, idle_best, I).
    destruct (match_ok false p s0 I0 eq_refl) as (s1 & E1 & I1 & hs & Eb & Hhs). rewrite E1. cbn [rbind].
    destruct (fold_best hs (s_best s0) (s_best s1) (eq_sym Eb)) as (_ & C & D & F). set (b := s_best s1) in *.
    change (b_pos (s_best s0)) with (b_pos (s_best s)) in C. change (b_locations (s_best s0)) with (@nil (tape * Z)) in D.
    assert (F' : forall o q w, hits p (o, q, w) -> q < b_pos b \/ q = b_pos b /\ (b_weight b <= w)%Z) by (intros o q w H; eapply F, Hhs, H).
    destruct (Nat.lt_ge_cases p (b_pos b)) as [L|L].
    - (* a match *)
      destruct D as [D|(t & q & w & Hin & D)]; [rewrite D in L; cbn in L; lia|]. rewrite D in *. cbn [b_pos b_weight] in *. apply Hhs in Hin.
      pose proof (matches_progress _ _ _ _ _ _ _ _ _ Hin) as (_ & NE). unfold candidate_found. fold b. rewrite D. cbn [b_result b_pos].
      destruct t as [|y t]; [cbn in NE; lia|]. cbn [is_empty negb]. destruct (Nat.eqb_spec q p) as [Z|Z]; [lia|].
      destruct (IH q (Progress (p_result pr ++ y :: t) (p_locations pr) (p_printable pr) (p_nonmatching pr)) s1) as (t' & pr' & s' & E & Er & Rp & I'); [lia|exact I1|fold b; rewrite D; cbn; lia|].
      exists ((y :: t) ++ t'), pr', s'. split; [exact E|]. split; [rewrite Er; cbn [p_result]; rewrite <- app_assoc; reflexivity|]. split; [|exact I'].
      eapply replaced_match; [exact Ex|exact NP| |exact L|exact Rp]. split; [split; [exact Hin|]|].
      + intros [[o' q'] w'] H. cbn [fst snd]. specialize (F' _ _ _ H). lia.
      + intros [[o' q'] w'] (H & Lg). cbn [fst snd] in *. specialize (F' _ _ _ H). specialize (Lg _ Hin). cbn in Lg. lia.
    - assert (Non : forall o q w, hits p (o, q, w) -> q <= p) by (intros o q w H; specialize (F' _ _ _ H); lia).
      unfold candidate_found. fold b. destruct (b_result b) as [|y t] eqn:Er; cbn [is_empty negb].
      { apply Copy; [exact I1|fold b; lia|right; exact Non]. }
      destruct D as [D|(t' & q & w & Hin & D)]; [rewrite D in Er; discriminate|]. rewrite D in Er, L. cbn in Er, L. subst t'. apply Hhs in Hin.
      pose proof (matches_progress _ _ _ _ _ _ _ _ _ Hin) as (Lq & _). assert (q = p) by lia. subst q. replace (b_pos b) with p by (rewrite D; reflexivity). rewrite Nat.eqb_refl.
      destruct (IH (S p) (pass_over nm false x (Progress (p_result pr ++ y :: t) (p_locations pr) (p_printable pr) (p_nonmatching pr))) s1) as (t2 & pr' & s' & E & Er' & Rp & I'); [lia|exact I1|fold b; rewrite D; cbn; lia|].
      exists ((y :: t) ++ (x, x) :: t2), pr', s'. split; [exact E|]. split; [rewrite Er'; cbn [pass_over andb p_result]; rewrite <- !app_assoc; reflexivity|]. split; [|exact I'].
      eapply replaced_empty; eassumption.
  Qed.

  Lemma process_replace s : Idle s -> exists pr s', process nets al nm first n mw false input s = Ok (pr, s') /\ replaced nets al first n mw input 0 (p_result pr) /\ Idle s'.
  Proof using SS.
    intros I. unfold process. set (s0 := set_best _ _). assert (I0 : Idle s0) by (destruct I; split; try assumption; reflexivity).
    destruct (replace_loop (length input) 0 (Progress [] [] 0 []) s0) as (t & pr & s' & E & Er & Rp & I'); [lia|exact I0|cbn; lia|].
    rewrite E. cbn [rmap]. exists pr, s'. split; [reflexivity|]. split; [|exact I']. cbn in Er. rewrite Er. exact Rp.
  Qed.
End Text.
