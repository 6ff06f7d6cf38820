(** Proofs about replacement in context: cutting a marked string. *)
From Coq Require Import Lia.
From Verif Require Import Base BT_Model Ru_Model Ru_Spec Ru_Proofs Ru_Proofs2 Rc_Model Rc_Spec Rc_Proofs.

Definition clean (m : list pair) : Prop := forall p, In p m -> is_mark (fst p) = false /\ is_mark (snd p) = false.
Lemma read_app u v : read (u ++ v) = read u ++ read v.
Proof. apply (side_app REPL_UP). Qed.
Lemma written_app u v : written (u ++ v) = written u ++ written v.
Proof. apply (side_app REPL_DOWN). Qed.
Lemma read_cons p w : read (p :: w) = (if bstr_eqb (fst p) EPS then [] else [fst p]) ++ read w.
Proof. unfold read. cbn [map filter]. change (B "@_EPSILON_SYMBOL_@") with EPS. destruct (bstr_eqb (fst p) EPS); reflexivity. Qed.
Lemma written_cons p w : written (p :: w) = (if bstr_eqb (snd p) EPS then [] else [snd p]) ++ written w.
Proof. unfold written. cbn [map filter]. change (B "@_EPSILON_SYMBOL_@") with EPS. destruct (bstr_eqb (snd p) EPS); reflexivity. Qed.
Lemma erase_cons a z : erase (a :: z) = (if is_mark a then [] else [a]) ++ erase z.
Proof. unfold erase. cbn [filter]. destruct (is_mark a); reflexivity. Qed.
Lemma drop_cons p w : drop_marks (p :: w) = (if pair_eqb p (LM, LM) || pair_eqb p (RM, RM) then [] else [p]) ++ drop_marks w.
Proof. unfold drop_marks. cbn [filter]. rewrite <- negb_orb. destruct (pair_eqb p (LM, LM) || pair_eqb p (RM, RM)); reflexivity. Qed.
Lemma drop_sides inner : clean (drop_marks inner) ->
  read (drop_marks inner) = erase (read inner) /\ written (drop_marks inner) = erase (written inner).
Proof.
  induction inner as [|p w IH]; [split; reflexivity|]. rewrite drop_cons. intros C.
  assert (C' : clean (drop_marks w)) by (intros q Hq; apply C; apply in_app_iff; right; exact Hq). destruct (IH C') as (I1 & I2).
  rewrite read_cons, written_cons, !erase_app, read_app, written_app, I1, I2.
  destruct (pair_eqb p (LM, LM) || pair_eqb p (RM, RM)) eqn:E.
  - apply orb_true_iff in E. rewrite !pair_eqb_eq in E. destruct E as [-> | ->]; split; reflexivity.
  - destruct (C p) as (C1 & C2); [left; reflexivity|]. rewrite read_cons, written_cons. split; f_equal.
    + destruct (bstr_eqb (fst p) EPS); [reflexivity|]. cbn [erase filter]. rewrite C1. reflexivity.
    + destruct (bstr_eqb (snd p) EPS); [reflexivity|]. cbn [erase filter]. rewrite C2. reflexivity.
Qed.
Lemma erase_nil_drop xm : erase xm = [] -> drop_marks (ids xm) = [].
Proof. intros E. rewrite drop_marks_ids, E. reflexivity. Qed.
Lemma read_ids_marks xm : erase xm = [] -> read (ids xm) = xm.
Proof.
  intros E. apply (side_ids REPL_UP). intros H. assert (K : In EPS (erase xm)) by (apply filter_In; auto). rewrite E in K. exact K.
Qed.
Lemma drop_app u v : drop_marks (u ++ v) = drop_marks u ++ drop_marks v.
Proof. apply filter_app. Qed.
Lemma lift m xm : clean m -> erase xm = read m -> exists inner, drop_marks inner = m /\ read inner = xm.
Proof.
  revert xm; induction m as [|[a b] m IH]; intros xm C E.
  - exists (ids xm). split; [apply erase_nil_drop; exact E|apply read_ids_marks; exact E].
  - assert (C' : clean m) by (intros q Hq; apply C; right; exact Hq). destruct (C (a, b)) as (C1 & C2); [left; reflexivity|]. cbn [fst snd] in C1, C2.
    assert (Kp : pair_eqb (a, b) (LM, LM) || pair_eqb (a, b) (RM, RM) = false).
    { unfold pair_eqb. cbn [fst snd]. unfold is_mark in C1. apply orb_false_iff in C1. destruct C1 as (-> & ->). reflexivity. }
    rewrite read_cons in E. cbn [fst] in E. destruct (bstr_eqb a EPS) eqn:Ea.
    + cbn [app] in E. destruct (IH xm C' E) as (inner & <- & <-). exists ((a, b) :: inner).
      rewrite drop_cons, Kp, read_cons. cbn [fst]. rewrite Ea. split; reflexivity.
    + cbn [app] in E. change (a :: read m) with ([] ++ a :: read m) in E.
      clear C. revert E. induction xm as [|c xm IHx]; intros E; [discriminate|]. rewrite erase_cons in E. destruct (is_mark c) eqn:Ec; cbn [app] in E.
      * destruct (IHx E) as (inner & E1 & E2). exists ((c, c) :: inner). rewrite drop_cons, read_cons. cbn [fst].
        assert (Kc : pair_eqb (c, c) (LM, LM) || pair_eqb (c, c) (RM, RM) = true) by (apply is_mark_iff in Ec; destruct Ec as [-> | ->]; reflexivity).
        assert (Nc : bstr_eqb c EPS = false) by (apply is_mark_iff in Ec; destruct Ec as [-> | ->]; reflexivity).
        rewrite Kc, Nc, E1, E2. split; reflexivity.
      * injection E as -> E. destruct (IH xm C' E) as (inner & <- & <-). exists ((a, b) :: inner).
        rewrite drop_cons, Kp, read_cons. cbn [fst]. rewrite Ea. split; reflexivity.
Qed.

Section Cut.
  Variables (E S : str -> Prop) (z : str).
  Hypothesis FL1 : forall y s, z = y ++ LM :: s -> E (erase y).
  Hypothesis FR1 : forall y s, z = y ++ RM :: s -> S (erase s).
  Hypothesis FL2 : forall p q, erase z = p ++ q -> E p -> exists y s, z = y ++ LM :: s /\ erase y = p /\ erase s = q.
  Hypothesis FR2 : forall p q, erase z = p ++ q -> S q -> exists y s, z = y ++ RM :: s /\ erase y = p /\ erase s = q.
  Hypothesis FL3 : forall y b s, z = y ++ LM :: b :: s -> is_mark b = false.
  Hypothesis FR3 : forall y b s, z = y ++ b :: RM :: s -> is_mark b = false.
  Definition cut_before (zpre : str) : Prop := zpre = [] \/ exists y, zpre = y ++ [RM].
  Definition cut_after (zpost : str) : Prop := zpost = [] \/ exists y, zpost = LM :: y.
  Lemma app_self (x y : str) : x = x ++ y -> y = [].
  Proof. intros H. rewrite <- (app_nil_r x) in H at 1. apply app_inv_head in H. auto. Qed.
  Lemma locate zpre x zpost x1 o x2 : z = zpre ++ x ++ zpost -> cut_before zpre -> cut_after zpost ->
    erase x = x1 ++ o ++ x2 -> o <> [] -> E (erase zpre ++ x1) -> S (x2 ++ erase zpost) ->
    exists xa xm xb, x = xa ++ LM :: xm ++ RM :: xb /\ erase xa = x1 /\ erase xm = o /\ erase xb = x2.
  Proof.
    intros Ez Cb Ca Ex No HE HS.
    destruct (FL2 (erase zpre ++ x1) (o ++ x2 ++ erase zpost)) as (y & s & Ey & Ey1 & Ey2); [rewrite Ez, !erase_app, Ex, <- !app_assoc; reflexivity|exact HE|].
    destruct (FR2 (erase zpre ++ x1 ++ o) (x2 ++ erase zpost)) as (y2 & s2 & Es & Es1 & Es2); [rewrite Ez, !erase_app, Ex, <- !app_assoc; reflexivity|exact HS|].
    (* the left marker lies after zpre *)
    assert (K1 : exists k, y = zpre ++ k).
    { pose proof Ey as Q. rewrite Ez in Q. apply app_eq_app in Q. destruct Q as (k & [(Q1 & Q2)|(Q1 & Q2)]); [|exists k; exact Q1].
      destruct k as [|c k]; [exists []; rewrite app_nil_r in *; auto|]. cbn [app] in Q2. injection Q2 as <- Q2. exfalso.
      assert (Ek : erase k = []).
      { apply (f_equal erase) in Q1. rewrite erase_app, erase_cons in Q1. cbn [is_mark] in Q1. change (is_mark LM) with true in Q1. cbn [app] in Q1.
        rewrite Ey1, <- app_assoc in Q1. apply app_self in Q1. apply app_eq_nil in Q1. apply Q1. }
      destruct Cb as [->|(y' & ->)]; [destruct y; discriminate|].
      destruct k as [|c k].
      - change (y ++ [LM]) with (y ++ [LM]) in Q1. apply app_inj_tail in Q1. destruct Q1 as (_ & Q1). discriminate Q1.
      - rewrite Q1, <- app_assoc in Ez. cbn [app] in Ez. apply FL3 in Ez. rewrite erase_cons, Ez in Ek. discriminate Ek. }
    destruct K1 as (k & ->).
    assert (K2 : exists k2, s2 = k2 ++ zpost).
    { pose proof Es as Q. rewrite Ez, app_assoc in Q. apply app_eq_app in Q. destruct Q as (k2 & [(Q1 & Q2)|(Q1 & Q2)]).
      - destruct k2 as [|c k2].
        + cbn [app] in Q2. exfalso. destruct Ca as [->|(y' & ->)]; [discriminate|]. discriminate Q2.
        + cbn [app] in Q2. injection Q2 as <- Q2. exists k2. exact Q2.
      - exfalso. assert (Ek : erase k2 = []).
        { apply (f_equal erase) in Q2. rewrite erase_app, erase_cons in Q2. change (is_mark RM) with true in Q2. cbn [app] in Q2.
          apply (f_equal (@length _)) in Q2. rewrite Es2, !app_length in Q2. destruct (erase k2); [reflexivity|]. cbn [length] in Q2. lia. }
        destruct Ca as [->|(y' & ->)]; [destruct k2; discriminate|]. destruct k2 as [|c k2].
        + discriminate Q2.
        + cbn [app] in Q2. injection Q2 as <- Q2. destruct k2 as [|d k2] using rev_ind.
          * rewrite Q1 in Es. rewrite <- app_assoc in Es. cbn [app] in Es. apply FR3 in Es. discriminate Es.
          * clear IHk2. assert (Es' : z = ((zpre ++ x) ++ LM :: k2) ++ d :: RM :: s2) by (rewrite Es, Q1; asc). clear Es. rename Es' into Es. apply FR3 in Es. rewrite erase_cons, erase_app, (erase_cons d), Es in Ek.
            apply app_eq_nil in Ek. destruct Ek as (_ & Ek). apply app_eq_nil in Ek. destruct Ek as (_ & Ek). discriminate Ek. }
    destruct K2 as (k2 & ->).
    pose proof Ey as Q. rewrite Es in Q. apply app_eq_app in Q. destruct Q as (xm & [(Q1 & Q2)|(Q1 & Q2)]).
    - (* y2 = y ++ xm *)
      destruct xm as [|c xm]; [discriminate Q2|]. cbn [app] in Q2. injection Q2 as <- Q2.
      exists k, xm, k2. assert (Em : erase xm = o).
      { apply (f_equal erase) in Q1. rewrite erase_app, erase_cons in Q1. change (is_mark LM) with true in Q1. cbn [app] in Q1.
        rewrite Ey1, Es1, <- app_assoc in Q1. apply app_inv_head in Q1. apply app_inv_head in Q1. auto. }
      assert (Exx : x = k ++ LM :: xm ++ RM :: k2).
      { apply (app_inv_tail zpost). apply (app_inv_head zpre). rewrite <- Ez, Es, Q1. asc. }
      split; [exact Exx|]. split; [rewrite erase_app in Ey1; apply app_inv_head in Ey1; exact Ey1|]. split; [exact Em|].
      rewrite erase_app in Es2. apply app_inv_tail in Es2. exact Es2.
    - exfalso. apply (f_equal erase) in Q1. rewrite Ey1, erase_app, Es1 in Q1. apply (f_equal (@length _)) in Q1. rewrite !app_length in Q1.
      destruct o; [contradiction|]. cbn [length] in Q1. lia.
  Qed.
End Cut.

Section Rewrite.
  Variables (t : plang) (l r : str -> Prop) (al : str) (z : str).
  Hypothesis Ct : forall m, t m -> clean m.
  Hypothesis Ga : ~ In EPS (gamma al).
  Hypothesis Gz : incl z (gamma al).
  Let E := left_here l.
  Let S := right_here r.
  Hypothesis FL1 : forall y s, z = y ++ LM :: s -> E (erase y).
  Hypothesis FR1 : forall y s, z = y ++ RM :: s -> S (erase s).
  Hypothesis FL2 : forall p q, erase z = p ++ q -> E p -> exists y s, z = y ++ LM :: s /\ erase y = p /\ erase s = q.
  Hypothesis FR2 : forall p q, erase z = p ++ q -> S q -> exists y s, z = y ++ RM :: s /\ erase y = p /\ erase s = q.
  Hypothesis FL3 : forall y b s, z = y ++ LM :: b :: s -> is_mark b = false.
  Hypothesis FR3 : forall y b s, z = y ++ b :: RM :: s -> is_mark b = false.
  (** The marked mapping. *)
  Variable tm : plang.
  Hypothesis TM : forall w, tm w <-> exists inner, w = (LM, LM) :: inner ++ [(RM, RM)] /\ t (drop_marks inner).
  Lemma read_tm inner : read ((LM, LM) :: inner ++ [(RM, RM)]) = LM :: read inner ++ [RM].
  Proof. rewrite read_cons, read_app. reflexivity. Qed.
  Lemma written_tm inner : written ((LM, LM) :: inner ++ [(RM, RM)]) = LM :: written inner ++ [RM].
  Proof. rewrite written_cons, written_app. reflexivity. Qed.
  Lemma untouched_cut zpre x zpost : z = zpre ++ x ++ zpost -> cut_before zpre -> cut_after zpost ->
    nothing_in read tm x -> untouched t l r (erase zpre) (erase x) (erase zpost).
  Proof.
    intros Ez Cb Ca N x1 m x2 Ex (T & Nm & HE & HS).
    destruct (locate E S z FL2 FR2 FL3 FR3 zpre x zpost x1 (read m) x2 Ez Cb Ca Ex Nm HE HS) as (xa & xm & xb & -> & _ & Em & _).
    destruct (lift m xm (Ct m T) Em) as (inner & Di & Ri).
    apply (N ((LM, LM) :: inner ++ [(RM, RM)])); [apply TM; exists inner; rewrite Di; auto|].
    exists xa, xb. rewrite read_tm, Ri. asc.
  Qed.
  Lemma nothing_cut zpre x zpost : z = zpre ++ x ++ zpost -> untouched t l r (erase zpre) (erase x) (erase zpost) -> nothing_in read tm x.
  Proof.
    intros Ez U m' M' (xa & xb & Ex). apply TM in M'. destruct M' as (inner & -> & T). rewrite read_tm in Ex.
    destruct (drop_sides inner (Ct _ T)) as (Rd & _).
    apply (U (erase xa) (drop_marks inner) (erase xb)).
    - rewrite Ex, Rd, erase_app. f_equal. cbn [app]. rewrite erase_cons. change (is_mark LM) with true. cbn [app].
      rewrite !erase_app. cbn [erase filter]. change (is_mark RM) with true. cbn [negb]. rewrite app_nil_r. reflexivity.
    - assert (Ez1 : z = (zpre ++ xa) ++ LM :: read inner ++ RM :: (xb ++ zpost)) by (rewrite Ez, Ex; asc).
      split; [exact T|]. split.
      + intros N. rewrite Rd in N. destruct (read inner) as [|c u]; cbn [app] in Ez1; apply FL3 in Ez1; [discriminate Ez1|]. rewrite erase_cons, Ez1 in N. discriminate N.
      + split; [rewrite <- erase_app; exact (FL1 _ _ Ez1)|]. rewrite <- erase_app. apply (FR1 (zpre ++ xa ++ LM :: read inner)). rewrite Ez1. asc.
  Qed.
  Lemma erase_mark_cons c s : is_mark c = true -> erase (c :: s) = erase s.
  Proof. intros M. rewrite erase_cons, M. reflexivity. Qed.
  Lemma forward w : replacing read tm (gamma al) w -> forall zpre, z = zpre ++ read w -> cut_before zpre ->
    rewritten t l r (erase zpre) (erase (read w)) (erase (written w)).
  Proof.
    intros R. induction R as [x I N|x m w I N M R IH]; intros zpre Ez Cb; fold (ids x) in *.
    - assert (Rx : read (ids x) = x) by (apply (side_ids REPL_UP); exact (no_eps_incl x _ Ga I)).
      assert (Wx : written (ids x) = x) by (apply (side_ids REPL_DOWN); exact (no_eps_incl x _ Ga I)).
      rewrite Rx in *. rewrite Wx. apply rw_end. change (@nil bstr) with (erase []). apply (untouched_cut zpre x []); [rewrite app_nil_r; exact Ez|exact Cb|left; reflexivity|exact N].
    - assert (Rx : read (ids x) = x) by (apply (side_ids REPL_UP); exact (no_eps_incl x _ Ga I)).
      assert (Wx : written (ids x) = x) by (apply (side_ids REPL_DOWN); exact (no_eps_incl x _ Ga I)).
      rewrite !read_app, Rx in *. rewrite !written_app, Wx. apply TM in M. destruct M as (inner & -> & T).
      destruct (drop_sides inner (Ct _ T)) as (Rd & Wd). rewrite read_tm in *. rewrite written_tm.
      assert (Ez1 : z = (zpre ++ x) ++ LM :: read inner ++ RM :: read w) by (rewrite Ez; asc).
      assert (Er : erase (x ++ (LM :: read inner ++ [RM]) ++ read w) = erase x ++ read (drop_marks inner) ++ erase (read w)).
      { rewrite Rd, erase_app. f_equal. cbn [app]. rewrite erase_mark_cons by reflexivity. rewrite !erase_app. cbn [erase filter]. change (is_mark RM) with true. cbn [negb]. rewrite app_nil_r. reflexivity. }
      assert (Ew : erase (x ++ (LM :: written inner ++ [RM]) ++ written w) = erase x ++ written (drop_marks inner) ++ erase (written w)).
      { rewrite Wd, erase_app. f_equal. cbn [app]. rewrite erase_mark_cons by reflexivity. rewrite !erase_app. cbn [erase filter]. change (is_mark RM) with true. cbn [negb]. rewrite app_nil_r. reflexivity. }
      rewrite Er, Ew. apply rw_more.
      + replace (read (drop_marks inner) ++ erase (read w)) with (erase (LM :: read inner ++ RM :: read w)).
        * apply untouched_cut; [rewrite app_assoc; exact Ez1|exact Cb|right; eexists; reflexivity|exact N].
        * rewrite erase_mark_cons by reflexivity. rewrite erase_app, (erase_mark_cons RM) by reflexivity. rewrite Rd. reflexivity.
      + split; [exact T|]. split.
        * intros Ne. rewrite Rd in Ne. destruct (read inner) as [|c u]; cbn [app] in Ez1; apply FL3 in Ez1; [discriminate Ez1|]. rewrite erase_cons, Ez1 in Ne. discriminate Ne.
        * split; [rewrite <- erase_app; exact (FL1 _ _ Ez1)|]. apply (FR1 (zpre ++ x ++ LM :: read inner)). rewrite Ez1. asc.
      + replace (erase zpre ++ erase x ++ read (drop_marks inner)) with (erase (zpre ++ x ++ LM :: read inner ++ [RM])).
        * apply IH; [rewrite Ez1; asc|]. right. exists (zpre ++ x ++ LM :: read inner). asc.
        * rewrite !erase_app. f_equal. f_equal. rewrite erase_mark_cons by reflexivity. rewrite erase_app. cbn [erase filter]. change (is_mark RM) with true. cbn [negb]. rewrite app_nil_r. symmetry. exact Rd.
  Qed.
  Lemma backward before rest out : rewritten t l r before rest out -> forall zpre zrest, z = zpre ++ zrest -> cut_before zpre ->
    erase zpre = before -> erase zrest = rest -> exists w, replacing read tm (gamma al) w /\ read w = zrest /\ erase (written w) = out.
  Proof.
    intros R. induction R as [before x U|before x m rest out U Rp R IH]; intros zpre zrest Ez Cb Eb Er.
    - assert (I : incl zrest (gamma al)) by (intros a Ha; apply Gz; rewrite Ez; apply in_app_iff; auto).
      exists (ids zrest). split.
      + apply rp_end; [exact I|]. apply (nothing_cut zpre zrest []); [rewrite app_nil_r; exact Ez|]. rewrite Eb, Er. exact U.
      + split; [apply (side_ids REPL_UP); exact (no_eps_incl _ _ Ga I)|]. rewrite <- Er. f_equal. apply (side_ids REPL_DOWN); exact (no_eps_incl _ _ Ga I).
    - destruct Rp as (T & Nm & HE & HS).
      destruct (locate E S z FL2 FR2 FL3 FR3 zpre zrest [] x (read m) rest) as (xa & xm & xb & -> & Ea & Em & Exb);
        [rewrite app_nil_r; exact Ez|exact Cb|left; reflexivity|exact Er|exact Nm|rewrite Eb; exact HE|rewrite app_nil_r; exact HS|].
      destruct (lift m xm (Ct m T) Em) as (inner & Di & Ri).
      destruct (IH (zpre ++ xa ++ LM :: xm ++ [RM]) xb) as (w & W & Rw & Ew).
      + rewrite Ez. asc.
      + right. exists (zpre ++ xa ++ LM :: xm). asc.
      + rewrite !erase_app, Eb, Ea. f_equal. f_equal. rewrite erase_mark_cons by reflexivity. rewrite erase_app, Em. cbn [erase filter]. change (is_mark RM) with true. cbn [negb]. apply app_nil_r.
      + exact Exb.
      + assert (I : incl xa (gamma al)) by (intros a Ha; apply Gz; rewrite Ez; rewrite !in_app_iff; auto).
        destruct (drop_sides inner) as (Rd & Wd); [rewrite Di; apply Ct; exact T|].
        exists (ids xa ++ ((LM, LM) :: inner ++ [(RM, RM)]) ++ w). split; [|split].
        * apply rp_more; [exact I| |apply TM; exists inner; rewrite Di; auto|exact W].
          apply (nothing_cut zpre xa (LM :: xm ++ RM :: xb) Ez). rewrite Eb, Ea, erase_mark_cons, erase_app, (erase_mark_cons RM), Em, Exb by reflexivity. exact U.
        * rewrite !read_app, read_tm, Ri, Rw. replace (read (ids xa)) with xa by (symmetry; apply (side_ids REPL_UP); exact (no_eps_incl _ _ Ga I)). asc.
        * rewrite !written_app, written_tm. replace (written (ids xa)) with xa by (symmetry; apply (side_ids REPL_DOWN); exact (no_eps_incl _ _ Ga I)).
          rewrite erase_app, Ea. f_equal. cbn [app]. rewrite erase_mark_cons by reflexivity. rewrite !erase_app, <- Wd, Di, Ew. cbn [erase filter]. change (is_mark RM) with true. cbn [negb]. rewrite app_nil_r. reflexivity.
  Qed.
End Rewrite.
