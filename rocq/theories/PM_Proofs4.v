(** Histories, the division of the text, and plain output. *)
From Verif Require Import Base Flags_Spec PM_Model PM_Spec PM_Proofs PM_Proofs2 PM_Proofs3.

Section Idle.
  Variable nets : nat -> ptrans.
  Variable al : palpha.
  Hypothesis SS : sound_setting nets al.
  Lemma loop_idle nm first n mw lm input : forall fuel p pr s pr' s', Idle s -> process_loop nets al nm first n mw lm input fuel p pr s = Ok (pr', s') -> Idle s'.
  Proof using SS.
    induction fuel as [|fuel IH]; intros p pr s pr' s' I; cbn [process_loop]; (destruct (nth_error input p) as [x|]; [|intros [= <- <-]; exact I]); [discriminate|].
    destruct (not_possible_first_symbol first x); [apply IH, idle_best, I|]. set (s0 := set_tape [] _). assert (I0 : Idle s0) by (apply idle_tape, idle_best, I).
    destruct (match_ok nets al n mw input SS lm p s0 I0 eq_refl) as (s1 & M1 & I1 & _). rewrite M1. cbn [rbind].
    destruct (candidate_found lm s1); [destruct (b_pos (s_best s1) =? p)|]; apply IH, I1.
  Qed.
  Lemma process_idle nm first n mw lm input s pr' s' : Idle s -> process nets al nm first n mw lm input s = Ok (pr', s') -> Idle s'.
  Proof using SS.
    intros I. unfold process. set (s0 := set_best _ _). assert (I0 : Idle s0) by (destruct I; split; try assumption; reflexivity).
    destruct (process_loop _ _ _ _ _ _ _ _ _ _ _ s0) as [[pr1 s1]| | |] eqn:E; cbn [rmap]; try discriminate. intros [= <- <-]. eapply loop_idle; eassumption.
  Qed.
  Lemma reached_idle s : reached nets al s -> Idle s.
  Proof using SS.
    induction 1 as [w|nm opts first n mw input s out s' _ IH E|nm first n mw input s out s' _ IH E].
    - split; cbn; try reflexivity; [discriminate|]. intros T l [<-|[]]. reflexivity.
    - unfold match_text in E. destruct (process _ _ _ _ _ _ _ _ s) as [[pr s1]| | |] eqn:P; cbn [rmap] in E; try discriminate. injection E as _ <-. eapply process_idle; eassumption.
    - unfold locate_text in E. destruct (process _ _ _ _ _ _ _ _ s) as [[pr s1]| | |] eqn:P; cbn [rmap] in E; try discriminate. injection E as _ <-. eapply process_idle; eassumption.
  Qed.
End Idle.

Lemma replaced_unique nets al first n mw input : no_empty_match nets al n mw input -> one_best nets al n mw input ->
  forall p t, replaced nets al first n mw input p t -> forall t', replaced nets al first n mw input p t' -> t = t'.
Proof.
  intros NE OB. induction 1 as [p L|p x o q w t Ex MS Be L _ IH|p x t Ex HN _ IH|p x o w t Ex MS _ M _ IH]; intros t' R'.
  - inversion R'; subst; try reflexivity; exfalso; match goal with H : nth_error input p = Some _ |- _ => assert (X : nth_error input p <> None) by congruence; apply nth_error_Some in X; lia end.
  - inversion R' as [p' L'|p' x' o' q' w' t1 Ex' MS' Be' L' R1|p' x' t1 Ex' HN' R1|p' x' o' w' t1 Ex' MS' _ M' R1]; subst.
    + assert (X : nth_error input p <> None) by congruence. apply nth_error_Some in X. lia.
    + assert (q = q'). { destruct Be as ((A & B1) & _), Be' as ((A' & B1') & _). specialize (B1 _ A'). specialize (B1' _ A). cbn in *. lia. }
      subst q'. rewrite (OB _ _ _ _ _ _ _ Be Be'). f_equal. apply IH, R1.
    + exfalso. rewrite Ex in Ex'. injection Ex' as <-. destruct HN' as [HN'|HN']; [contradiction|]. destruct Be as ((A & _) & _). specialize (HN' _ _ _ A). lia.
    + destruct (NE _ _ _ M').
  - inversion R' as [p' L'|p' x' o' q' w' t1 Ex' MS' Be' L' R1|p' x' t1 Ex' HN' R1|p' x' o' w' t1 Ex' MS' _ M' R1]; subst.
    + assert (X : nth_error input p <> None) by congruence. apply nth_error_Some in X. lia.
    + exfalso. rewrite Ex in Ex'. injection Ex' as <-. destruct HN as [HN|HN]; [contradiction|]. destruct Be' as ((A & _) & _). specialize (HN _ _ _ A). lia.
    + rewrite Ex in Ex'. injection Ex' as <-. f_equal. apply IH, R1.
    + destruct (NE _ _ _ M').
  - destruct (NE _ _ _ M).
Qed.

Lemma slice_length (input : list nat) p q : p <= q -> q <= length input -> length (slice input p q) = q - p.
Proof. intros L1 L2. unfold slice. rewrite firstn_length, skipn_length. lia. Qed.
Lemma slice_In (input : list nat) p q x : In x (slice input p q) -> In x input.
Proof.
  unfold slice. intros H. assert (X : In x (skipn p input)). { rewrite <- (firstn_skipn (q - p) (skipn p input)). apply in_or_app. left. exact H. }
  rewrite <- (firstn_skipn p input). apply in_or_app. right. exact X.
Qed.
Lemma filter_all {A} (f : A -> bool) l : (forall x, In x l -> f x = true) -> filter f l = l.
Proof. induction l as [|y l IH]; intros H; [reflexivity|]. cbn [filter]. rewrite (H y (or_introl eq_refl)). f_equal. apply IH. intros x Hx. apply H. right. exact Hx. Qed.
Lemma slice_snoc (input : list nat) p q x : p <= q -> nth_error input q = Some x -> slice input p (S q) = slice input p q ++ [x].
Proof.
  intros L E. unfold slice. replace (S q - p) with (S (q - p)) by lia. assert (X : nth_error (skipn p input) (q - p) = Some x).
  { clear - E L. revert p q E L. induction input as [|y l IH]; intros p q E L; [destruct q; discriminate|]. destruct p as [|p]; [rewrite Nat.sub_0_r; exact E|]. destruct q as [|q]; [lia|]. cbn [skipn Nat.sub]. apply IH; [exact E|lia]. }
  revert X. generalize (skipn p input). intros l. generalize (q - p). intros k. revert k. induction l as [|y l IH]; intros [|k] X; cbn in X; try discriminate; [injection X as ->; reflexivity|]. cbn [firstn app]. f_equal. apply IH, X.
Qed.
Section Tile.
  Variable nets : nat -> ptrans.
  Variable al : palpha.
  Variable nm : names.
  Variable first : list bool.
  Variable n : nat.
  Variable mw : option Z.
  Variable input : list nat.
  Hypothesis Lit : literal nets al.
  Hypothesis NZ : Forall (fun x => x <> 0) input.
  Hypothesis ST : silent_tags nets al nm input.
  Hypothesis Z0 : n_printable nm 0 = false.
  Hypothesis Pr : forall x, In x input -> n_printable nm x = true.

  Lemma pending_tiles p ks out rest : ks = slice input (p - length ks) p -> length ks <= p -> pending nm p ks out -> tiles nm input p rest -> tiles nm input (p - length ks) (out ++ rest).
  Proof using.
    intros E L [(-> & ->)|(NE & l & -> & (U1 & U2 & U3 & _))] T; [cbn; rewrite Nat.sub_0_r; exact T|]. cbn [app].
    apply (tiles_next nm input (p - length ks) p); [lia|discriminate| |exact T]. intros m [<-|[]]. rewrite U1, U2, U3, <- E. split; [reflexivity|]. split; [lia|reflexivity].
  Qed.
  Lemma longest_tiles p q ls rest : p <= length input -> all_longest nets al nm n mw input p q ls -> tiles nm input q rest -> tiles nm input p (ls :: rest).
  Proof using Lit NZ ST Z0 Pr.
    intros Lp (NE & _ & D & _) T. assert (L : p <= q /\ q <= length input).
    { destruct ls as [|l ls]; [congruence|]. destruct (D l (or_introl eq_refl)) as (o & w & (M & _) & _). pose proof (matches_progress _ _ _ _ _ _ _ _ _ M). pose proof (found_bound _ _ _ _ _ _ _ M Lp) as Y. cbn in Y. lia. }
    apply (tiles_next nm input p q); [lia|exact NE| |exact T]. intros l Hl. destruct (D l Hl) as (o & w & (M & _) & De).
    destruct (location_text nets al input mw nm n p o q w l Lit NZ ST Z0 M De) as (E1 & E2). destruct De as (Es & _).
    assert (F : filter (n_printable nm) (slice input p q) = slice input p q) by (apply filter_all; intros x Hx; apply Pr; eapply slice_In, Hx).
    rewrite E1, E2. unfold joined. rewrite F, slice_length by lia. repeat split; assumption.
  Qed.
  Lemma located_tiles p ks out : located nets al nm first n mw input p ks out -> p <= length input -> ks = slice input (p - length ks) p -> length ks <= p -> tiles nm input (p - length ks) out.
  Proof using Lit NZ ST Z0 Pr.
    induction 1 as [p ks out L P|p ks x q out ls rest Ex MS P AL L _ IH|p ks x out ls rest Ex MS P AL _ IH|p ks x out Ex HN _ IH]; intros Lp E Lk.
    - rewrite <- (app_nil_r out). apply pending_tiles; try assumption. assert (p = length input) as -> by lia. constructor.
    - assert (Bq : q <= length input). { destruct AL as (NE & _ & D & _). destruct ls as [|l ls]; [congruence|]. destruct (D l (or_introl eq_refl)) as (o & w & (M & _) & _). pose proof (found_bound _ _ _ _ _ _ _ M Lp) as Y. cbn in Y. exact Y. }
      apply pending_tiles; try assumption. eapply longest_tiles; [exact Lp|exact AL|]. specialize (IH Bq). cbn [length] in IH. rewrite Nat.sub_0_r in IH. apply IH; [rewrite slice_nil; reflexivity|lia].
    - assert (X : p < length input) by (apply nth_error_Some; congruence).
      apply pending_tiles; try assumption. eapply longest_tiles; [exact Lp|exact AL|]. cbn [length Nat.sub] in IH. rewrite Nat.sub_0_r in IH. apply IH; [lia| |lia]. rewrite (slice_snoc input p p x (le_n _) Ex), slice_nil. reflexivity.
    - assert (X : p < length input) by (apply nth_error_Some; congruence). rewrite app_length in IH. cbn [length] in IH. replace (S p - (length ks + 1)) with (p - length ks) in IH by lia.
      apply IH; [lia| |lia]. rewrite (slice_snoc input (p - length ks) p x ltac:(lia) Ex), <- E. reflexivity.
  Qed.
End Tile.

Lemma plain_output nm : forall t seen starts acc,
  stringify nm (Options false false false) seen starts acc t =
  acc ++ joined nm (filter (fun k => negb (n_entry nm k) && negb (n_exit nm k) && match n_tag nm k with None => true | _ => false end) (map snd t)).
Proof.
  induction t as [|[i k] t IH]; intros seen starts acc; cbn [stringify map filter snd o_extract o_delete o_mark negb orb andb]; [unfold joined; cbn; rewrite app_nil_r; reflexivity|].
  destruct (n_entry nm k); cbn [negb andb]; [apply IH|]. destruct (n_exit nm k); cbn [negb andb]; [apply IH|]. destruct (n_tag nm k); [apply IH|]. rewrite IH. unfold joined. cbn [filter].
  destruct (n_printable nm k); cbn [map concat]; rewrite <- ?app_assoc; reflexivity.
Qed.
