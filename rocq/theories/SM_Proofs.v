(** Refining a partition of states. *)
From Verif Require Import Base SF_Spec SF_Model SF_Proofs SF_Proofs2 SF_Proofs7 SM_Model.

Definition inb (x : nat) (l : list nat) : bool := existsb (Nat.eqb x) l.
Lemma inb_In x l : inb x l = true <-> In x l.
Proof.
  unfold inb. rewrite existsb_exists. split; [intros (y & Hy & E); apply Nat.eqb_eq in E; subst; exact Hy|].
  intros H. exists x. split; [exact H|apply Nat.eqb_refl].
Qed.
Lemma inb_not x l : inb x l = false <-> ~ In x l.
Proof. rewrite <- inb_In. destruct (inb x l); split; intros; congruence. Qed.
Notation gof st s := (nth s (group_of st) 0).
Notation on_agenda st g := (In g (map snd (agenda st))).

Lemma group_at_update st g f g' a m : g < length (groups st) ->
  group_at (MState (update g f (groups st)) m a) g' = if g' =? g then f (group_at st g) else group_at st g'.
Proof. intros H. unfold group_at. cbn [groups]. apply nth_update, H. Qed.
Lemma group_at_over st g : length (groups st) <= g -> group_at st g = Group [] [].
Proof. apply nth_overflow. Qed.
Lemma In_link_in s x l : In x (link_state_in s l) <-> x = s \/ In x l.
Proof. destruct l as [|f r]; cbn; intuition congruence. Qed.
Lemma In_link_out s x l : In x (link_state_out s l) <-> In x l /\ x <> s.
Proof. unfold link_state_out. rewrite filter_In, Bool.negb_true_iff, Nat.eqb_neq. tauto. Qed.
Lemma NoDup_link_in s l : NoDup l -> ~ In s l -> NoDup (link_state_in s l).
Proof.
  destruct l as [|f r]; cbn; intros ND N; [constructor; auto|]. inversion ND as [|? ? N1 ND1]; subst.
  constructor; [|constructor; [|exact ND1]]; cbn; intuition congruence.
Qed.
Lemma NoDup_link_out s l : NoDup l -> NoDup (link_state_out s l).
Proof. apply NoDup_filter. Qed.

Section Parts.
  Variable N : nat.
  (** Groups are sets of states; those for which [X] holds have been moved. *)
  Record parts (X : nat -> bool) (st : mstate) : Prop := {
    pt_len : length (group_of st) = N;
    pt_mem : forall g s, In s (members (group_at st g)) <-> s < N /\ gof st s = g /\ X s = false;
    pt_new : forall g s, In s (news (group_at st g)) <-> s < N /\ gof st s = g /\ X s = true;
    pt_nd : forall g, NoDup (members (group_at st g)) /\ NoDup (news (group_at st g));
    pt_ne : forall g, g < length (groups st) -> members (group_at st g) <> [] \/ news (group_at st g) <> [] }.
  Lemma parts_range X st s : parts X st -> s < N -> gof st s < length (groups st).
  Proof.
    intros P Hs. destruct (Nat.lt_ge_cases (gof st s) (length (groups st))) as [H|H]; [exact H|].
    pose proof (group_at_over st _ H) as E.
    destruct (X s) eqn:Ex.
    - assert (C : In s (news (group_at st (gof st s)))) by (apply (pt_new _ _ P); auto). rewrite E in C. destruct C.
    - assert (C : In s (members (group_at st (gof st s)))) by (apply (pt_mem _ _ P); auto). rewrite E in C. destruct C.
  Qed.
  Lemma parts_ext X Y st : parts X st -> (forall s, s < N -> X s = Y s) -> parts Y st.
  Proof.
    intros P E. destruct P as [P1 P2 P3 P4 P5]. constructor; auto; intros g s; [rewrite P2|rewrite P3];
      (split; intros (A & B & C); (split; [exact A|split; [exact B|]]); specialize (E s A); congruence).
  Qed.

  (** Moving the sources. *)
  Definition moved (X : nat -> bool) (st : mstate) (srcs : list nat) : Prop :=
    parts X st /\ NoDup srcs /\ forall g, In g srcs <-> news (group_at st g) <> [].
  Lemma move_sources sources : forall X st srcs, moved X st srcs -> NoDup sources ->
    (forall s, In s sources -> s < N /\ X s = false) ->
    exists st' srcs', fold_left (fun x s => move_source s x) sources (Ok (st, srcs)) = Ok (st', srcs') /\
      moved (fun s => X s || inb s sources) st' srcs' /\
      group_of st' = group_of st /\ agenda st' = agenda st /\ length (groups st') = length (groups st).
  Proof.
    induction sources as [|s sources IH]; intros X st srcs M ND Hs.
    - exists st, srcs. split; [reflexivity|]. split; [|auto]. destruct M as (P & D & S). split; [|auto].
      apply (parts_ext X); [exact P|]. intros s _. cbn. rewrite Bool.orb_false_r. reflexivity.
    - cbn [fold_left move_source rbind]. set (g := gof st s). destruct (Hs s (or_introl eq_refl)) as [Ls Xs].
      destruct M as (P & D & Sr). pose proof (parts_range _ _ s P Ls) as Lg. fold g in Lg.
      assert (Ms : In s (members (group_at st g))) by (apply (pt_mem _ _ P); auto).
      change (existsb (Nat.eqb s) (members (group_at st g))) with (inb s (members (group_at st g))).
      rewrite (proj2 (inb_In s _) Ms).
      set (st1 := MState (update g (fun d => Group (link_state_out s (members d)) (link_state_in s (news d))) (groups st)) (group_of st) (agenda st)).
      set (srcs1 := match news (group_at st g) with [] => g :: srcs | _ => srcs end).
      assert (GA : forall g', group_at st1 g' = if g' =? g then Group (link_state_out s (members (group_at st g))) (link_state_in s (news (group_at st g))) else group_at st g').
      { intros g'. apply group_at_update, Lg. }
      inversion ND as [|? ? Ns ND']; subst.
      destruct (IH (fun x => X x || (x =? s)) st1 srcs1) as (st' & srcs' & E & M' & E1 & E2 & E3).
      + split; [constructor|split].
        * exact (pt_len _ _ P).
        * intros g' x. rewrite GA. cbn [group_of st1]. destruct (Nat.eqb_spec g' g) as [->|Ng]; cbn [members].
          -- rewrite In_link_out, (pt_mem _ _ P), Bool.orb_false_iff, Nat.eqb_neq. tauto.
          -- rewrite (pt_mem _ _ P), Bool.orb_false_iff, Nat.eqb_neq. split; [|tauto]. intros (A & B & C). split; [exact A|]. split; [exact B|].
             split; [exact C|]. intros ->. apply Ng. symmetry. exact B.
        * intros g' x. rewrite GA. cbn [group_of st1]. destruct (Nat.eqb_spec g' g) as [->|Ng]; cbn [news].
          -- rewrite In_link_in, (pt_new _ _ P), Bool.orb_true_iff, Nat.eqb_eq. split.
             ++ intros [->|(A & B & C)]; [auto|auto].
             ++ intros (A & B & [C|C]); auto.
          -- rewrite (pt_new _ _ P), Bool.orb_true_iff, Nat.eqb_eq. split; [tauto|]. intros (A & B & [C|C]); [auto|].
             subst x. exfalso. apply Ng. symmetry. exact B.
        * intros g'. rewrite GA. destruct (pt_nd _ _ P g') as [D1 D2]. destruct (Nat.eqb_spec g' g) as [->|]; [|auto]. cbn [members news].
          split; [apply NoDup_link_out, D1|]. apply NoDup_link_in; [exact D2|]. rewrite (pt_new _ _ P). intros (_ & _ & C). congruence.
        * intros g' Hg'. rewrite GA. destruct (Nat.eqb_spec g' g) as [->|]; [|].
          -- right. cbn [news]. destruct (news (group_at st g)); discriminate.
          -- apply (pt_ne _ _ P). cbn [groups st1] in Hg'. rewrite update_length in Hg'. exact Hg'.
        * unfold srcs1. destruct (news (group_at st g)) eqn:En; [|exact D]. constructor; [|exact D]. rewrite Sr. intros C. apply C, En.
        * intros g'. rewrite GA. unfold srcs1. destruct (Nat.eqb_spec g' g) as [->|Ng]; cbn [news].
          -- split; [intros _; destruct (news (group_at st g)); discriminate|]. intros _.
             destruct (news (group_at st g)) eqn:En; [left; reflexivity|]. apply Sr. rewrite En. discriminate.
          -- rewrite <- Sr. destruct (news (group_at st g)); [|reflexivity]. cbn. intuition congruence.
      + exact ND'.
      + intros x Hx. destruct (Hs x (or_intror Hx)) as [A B]. split; [exact A|]. rewrite B. cbn. apply Nat.eqb_neq. intros ->. contradiction.
      + exists st', srcs'. split; [exact E|]. split; [|split; [exact E1|split; [exact E2|]]].
        * destruct M' as (P' & R'). split; [|exact R']. apply (parts_ext _ _ _ P'). intros x _. cbn. unfold inb. rewrite <- Bool.orb_assoc. reflexivity.
        * rewrite E3. cbn [groups st1]. apply update_length.
  Qed.

  (** Splitting the groups some states of which have been moved.  [st0] is the state before. *)
  Record splitting (X : nat -> bool) (st0 st : mstate) (L : list nat) : Prop := {
    sp_parts : parts (fun s => X s && inb (gof st s) L) st;
    sp_nd : NoDup L;
    sp_new : forall g, In g L -> news (group_at st g) <> [];
    sp_up : forall s s', s < N -> s' < N -> gof st s = gof st s' -> gof st0 s = gof st0 s';
    sp_down : forall s s', s < N -> s' < N -> gof st0 s = gof st0 s' -> X s = X s' -> gof st s = gof st s';
    sp_diff : forall s s', s < N -> s' < N -> gof st s = gof st s' -> X s <> X s' -> In (gof st s) L;
    sp_keep : forall s, s < N -> on_agenda st0 (gof st0 s) -> on_agenda st (gof st s);
    sp_add : forall s s', s < N -> s' < N -> gof st0 s = gof st0 s' -> gof st s <> gof st s' -> on_agenda st (gof st s) \/ on_agenda st (gof st s');
    sp_ag : NoDup (map snd (agenda st)) /\ forall g, on_agenda st g -> g < length (groups st);
    sp_size : length (agenda st) + length (groups st0) <= length (agenda st0) + length (groups st) }.
  Lemma fold_gof newg : forall l m s, (forall x, In x l -> x < length m) ->
    nth s (fold_left (fun m s => update s (fun _ => newg) m) l m) 0 = if inb s l then newg else nth s m 0.
  Proof.
    induction l as [|x l IH]; intros m s Hl; [reflexivity|]. cbn [fold_left]. rewrite IH.
    - rewrite nth_update by (apply Hl; left; reflexivity). unfold inb. cbn [existsb]. destruct (s =? x); cbn; destruct (existsb _ l); reflexivity.
    - intros y Hy. rewrite update_length. apply Hl. right. exact Hy.
  Qed.
  Lemma fold_gof_length (newg : nat) : forall l (m : list nat), length (fold_left (fun m s => update s (fun _ => newg) m) l m) = length m.
  Proof. induction l as [|x l IH]; intros m; [reflexivity|]. cbn [fold_left]. rewrite IH. apply update_length. Qed.
  Lemma agenda_erase_In g a x : In x (map snd (agenda_erase g a)) <-> In x (map snd a) /\ x <> g.
  Proof.
    unfold agenda_erase. rewrite !in_map_iff. split.
    - intros (e & <- & He). apply filter_In in He. rewrite Bool.negb_true_iff, Nat.eqb_neq in He. split; [exists e; tauto|tauto].
    - intros [(e & <- & He) Hx]. exists e. split; [reflexivity|]. apply filter_In. rewrite Bool.negb_true_iff, Nat.eqb_neq. auto.
  Qed.
  Lemma agenda_erase_NoDup g a : NoDup (map snd a) -> NoDup (map snd (agenda_erase g a)).
  Proof.
    induction a as [|e a IH]; cbn; intros H; [constructor|]. inversion H as [|? ? H1 H2]; subst.
    destruct (negb (snd e =? g)); [|exact (IH H2)]. cbn. constructor; [|exact (IH H2)]. intros C. apply H1.
    apply (agenda_erase_In g a) in C. tauto.
  Qed.
  Lemma agenda_erase_none g a : ~ In g (map snd a) -> agenda_erase g a = a.
  Proof.
    induction a as [|e a IH]; cbn; intros H; [reflexivity|]. destruct (Nat.eqb_spec (snd e) g) as [E|_]; [exfalso; apply H; auto|].
    cbn. f_equal. apply IH. tauto.
  Qed.
  Lemma agenda_erase_length g a : NoDup (map snd a) -> In g (map snd a) -> S (length (agenda_erase g a)) = length a.
  Proof.
    induction a as [|e a IH]; cbn; intros ND Hg; [destruct Hg|]. inversion ND as [|? ? N1 ND1]; subst.
    destruct (Nat.eqb_spec (snd e) g) as [E|Ng]; cbn.
    - subst g. fold (agenda_erase (snd e) a). rewrite agenda_erase_none by exact N1. reflexivity.
    - f_equal. apply IH; [exact ND1|]. destruct Hg as [C|C]; [contradiction|exact C].
  Qed.
  Lemma agenda_contains_In g a : agenda_contains g a = true <-> In g (map snd a).
  Proof.
    unfold agenda_contains. rewrite existsb_exists, in_map_iff. split; intros (e & A & B); exists e.
    - apply Nat.eqb_eq in B. auto.
    - split; [exact B|]. apply Nat.eqb_eq, A.
  Qed.

  Lemma finish_step X st0 st g L : splitting X st0 st (g :: L) -> splitting X st0 (finish_group st g) L.
  Proof.
    intros [P ND Nw Up Dn Df Kp Ad [AN AR] Sz]. inversion ND as [|? ? NgL ND']; subst.
    assert (Lg : g < length (groups st)).
    { destruct (Nat.lt_ge_cases g (length (groups st))) as [H|H]; [exact H|]. exfalso.
      apply (Nw g (or_introl eq_refl)). rewrite group_at_over by exact H. reflexivity. }
    assert (Xg : forall s, s < N -> In s (news (group_at st g)) <-> gof st s = g /\ X s = true).
    { intros s Hs. rewrite (pt_new _ _ P). split.
      - intros (_ & B & C). apply Bool.andb_true_iff in C. tauto.
      - intros (B & C). split; [exact Hs|]. split; [exact B|]. rewrite C, B. cbn. rewrite Nat.eqb_refl. reflexivity. }
    assert (Rng : forall s, s < N -> gof st s < length (groups st)) by (intros s Hs; exact (parts_range _ _ s P Hs)).
    unfold finish_group. destruct (members (group_at st g)) as [|m0 ms] eqn:Em.
    - (* all were moved *)
      assert (All : forall s, s < N -> gof st s = g -> X s = true).
      { intros s Hs Es. destruct (X s) eqn:E; [reflexivity|]. exfalso.
        assert (C : In s (members (group_at st g))) by (apply (pt_mem _ _ P); rewrite E; auto). rewrite Em in C. destruct C. }
      assert (GA : forall g', group_at (merge_state_lists g st) g' = if g' =? g then Group (news (group_at st g)) [] else group_at st g').
      { intros g'. unfold merge_state_lists. rewrite group_at_update by exact Lg. rewrite Em. reflexivity. }
      constructor; cbn [merge_state_lists group_of agenda groups]; rewrite ?update_length; auto.
      + constructor.
        * exact (pt_len _ _ P).
        * intros g' s. rewrite GA. cbn [group_of merge_state_lists]. destruct (Nat.eqb_spec g' g) as [->|Ng]; cbn [members].
          -- rewrite (pt_new _ _ P). split; intros (A & B & C); (split; [exact A|split; [exact B|]]).
             ++ rewrite B. rewrite (proj2 (inb_not g L) NgL). apply Bool.andb_false_r.
             ++ rewrite (All s A B), B. cbn. rewrite Nat.eqb_refl. reflexivity.
          -- rewrite (pt_mem _ _ P). split; intros (A & B & C); (split; [exact A|split; [exact B|]]); revert C; rewrite B; unfold inb; cbn [existsb];
               destruct (Nat.eqb_spec g' g); try contradiction; auto.
        * intros g' s. rewrite GA. cbn [group_of merge_state_lists]. destruct (Nat.eqb_spec g' g) as [->|Ng]; cbn [news].
          -- split; [intros []|]. intros (A & B & C). rewrite B in C. rewrite (proj2 (inb_not g L) NgL), Bool.andb_false_r in C. discriminate.
          -- rewrite (pt_new _ _ P). split; intros (A & B & C); (split; [exact A|split; [exact B|]]); revert C; rewrite B; unfold inb; cbn [existsb];
               destruct (Nat.eqb_spec g' g); try contradiction; auto.
        * intros g'. rewrite GA. destruct (Nat.eqb_spec g' g) as [->|]; [|apply (pt_nd _ _ P)]. cbn. split; [apply (pt_nd _ _ P)|constructor].
        * intros g' Hg'. rewrite GA. cbn [merge_state_lists groups] in Hg'. rewrite update_length in Hg'.
          destruct (Nat.eqb_spec g' g) as [->|]; [|exact (pt_ne _ _ P g' Hg')]. left. cbn. apply Nw. left. reflexivity.
      + intros g' Hg'. rewrite GA. destruct (Nat.eqb_spec g' g) as [->|]; [contradiction|]. apply Nw. right. exact Hg'.
      + intros s s' Hs Hs' E D. destruct (Df s s' Hs Hs' E D) as [C|C]; [|exact C]. exfalso. apply D.
        rewrite (All s Hs (eq_sym C)), (All s' Hs'); [reflexivity|congruence].
    - (* some stay *)
      set (newg := length (groups st)). set (st1 := split_group g st).
      assert (GO : forall s, s < N -> gof st1 s = if (gof st s =? g) && X s then newg else gof st s).
      { intros s Hs. unfold st1, split_group. cbn [group_of]. rewrite fold_gof.
        - destruct (inb s (news (group_at st g))) eqn:E.
          + apply inb_In, (Xg s Hs) in E. destruct E as [-> ->]. rewrite Nat.eqb_refl. reflexivity.
          + destruct (Nat.eqb_spec (gof st s) g) as [E'|]; [|reflexivity]. destruct (X s) eqn:Ex; [|reflexivity].
            exfalso. apply inb_not in E. apply E, (Xg s Hs). auto.
        - intros x Hx. rewrite (pt_len _ _ P). apply (pt_new _ _ P) in Hx. tauto. }
      assert (LG : length (groups st1) = S newg) by (cbn [st1 split_group groups]; rewrite app_length, update_length; cbn; unfold newg; lia).
      assert (GA : forall g', group_at st1 g' = if g' =? newg then Group (news (group_at st g)) [] else if g' =? g then Group (members (group_at st g)) [] else group_at st g').
      { intros g'. unfold st1, split_group, group_at. cbn [groups]. fold newg. destruct (Nat.eqb_spec g' newg) as [->|Nn].
        - rewrite app_nth2 by (rewrite update_length; unfold newg; lia). rewrite update_length. unfold newg. rewrite Nat.sub_diag. reflexivity.
        - destruct (Nat.lt_ge_cases g' newg) as [H|H].
          + rewrite app_nth1 by (rewrite update_length; exact H). rewrite nth_update by exact Lg. reflexivity.
          + rewrite nth_overflow by (rewrite app_length, update_length; cbn; unfold newg in *; lia).
            destruct (Nat.eqb_spec g' g) as [->|]; [unfold newg in *; lia|]. symmetry. apply nth_overflow. exact H. }
      assert (AG : forall x, on_agenda st1 x <->
               (on_agenda st x \/ (on_agenda st g /\ x = newg) \/ (~ on_agenda st g /\ x = if length (members (group_at st g)) <? length (news (group_at st g)) then g else newg))).
      { intros x. cbn [st1 split_group agenda]. destruct (agenda_contains g (agenda st)) eqn:Ec.
        - apply agenda_contains_In in Ec. cbn [agenda_add map snd In]. rewrite agenda_erase_In. fold newg. split.
          + intros [H|[H|[H _]]]; subst; auto.
          + intros [H|[[_ ->]|[H _]]]; [|auto|contradiction]. destruct (Nat.eq_dec x g) as [->|]; auto.
        - assert (Ng : ~ on_agenda st g) by (rewrite <- agenda_contains_In, Ec; discriminate).
          destruct (length (members (group_at st g)) <? length (news (group_at st g))); cbn [agenda_add map snd In]; fold newg; split.
          + intros [H|H]; subst; auto.
          + intros [H|[[H _]|[_ ->]]]; auto. contradiction.
          + intros [H|H]; subst; auto.
          + intros [H|[[H _]|[_ ->]]]; auto. contradiction. }
      assert (NewNot : ~ on_agenda st newg) by (intros C; apply AR in C; unfold newg in C; lia).
      constructor.
      + constructor.
        * cbn [st1 split_group group_of]. rewrite fold_gof_length. exact (pt_len _ _ P).
        * intros g' s. rewrite GA. destruct (Nat.eqb_spec g' newg) as [->|Nn]; [|destruct (Nat.eqb_spec g' g) as [->|Ng]]; cbn [members].
          -- rewrite (pt_new _ _ P). split.
             ++ intros (A & B & C). rewrite B in C. apply Bool.andb_true_iff in C. destruct C as [C _].
                rewrite GO, B, C, Nat.eqb_refl by exact A. cbn [andb]. split; [exact A|]. split; [reflexivity|].
                apply inb_not. intros H. specialize (Nw newg (or_intror H)). rewrite group_at_over in Nw by (unfold newg; lia). apply Nw. reflexivity.
             ++ intros (A & B & C). rewrite GO in B by exact A. pose proof (Rng s A) as Rs.
                destruct ((gof st s =? g) && X s) eqn:E; [|unfold newg in *; lia]. apply Bool.andb_true_iff in E. destruct E as [E1 E2].
                apply Nat.eqb_eq in E1. split; [exact A|]. split; [exact E1|]. rewrite E1, E2. cbn. rewrite Nat.eqb_refl. reflexivity.
          -- rewrite (pt_mem _ _ P). split.
             ++ intros (A & B & C). rewrite B in C. assert (Ex : X s = false).
                { cbn in C. rewrite Nat.eqb_refl in C. cbn in C. rewrite Bool.andb_true_r in C. exact C. }
                rewrite GO, B, Ex, Nat.eqb_refl by exact A. auto.
             ++ intros (A & B & C). rewrite GO in B by exact A. destruct ((gof st s =? g) && X s) eqn:E; [unfold newg in B; lia|].
                split; [exact A|]. split; [exact B|]. rewrite B, Nat.eqb_refl in E. cbn [andb] in E. rewrite E. reflexivity.
          -- rewrite (pt_mem _ _ P). assert (Same : s < N -> (gof st1 s = g' <-> gof st s = g')).
             { intros A. rewrite GO by exact A. destruct (Nat.eqb_spec (gof st s) g) as [E|]; [|reflexivity]. destruct (X s); [|reflexivity]. cbn [andb].
               split; intros C; [|congruence]. exfalso. apply Nn. symmetry. exact C. }
             assert (SL : inb g' (g :: L) = inb g' L) by (unfold inb; cbn [existsb]; destruct (Nat.eqb_spec g' g); [contradiction|reflexivity]).
             split; intros (A & B & C); (split; [exact A|]).
             ++ rewrite (proj2 (Same A) B). rewrite B, SL in C. auto.
             ++ rewrite B in C. apply (Same A) in B. rewrite B, SL. auto.
        * intros g' s. rewrite GA. destruct (Nat.eqb_spec g' newg) as [->|Nn]; [|destruct (Nat.eqb_spec g' g) as [->|Ng]]; cbn [news].
          -- split; [intros []|]. intros (A & B & C). rewrite B in C. apply Bool.andb_true_iff in C. destruct C as [_ C].
             apply inb_In in C. specialize (Nw newg (or_intror C)). rewrite group_at_over in Nw by (unfold newg; lia). apply Nw. reflexivity.
          -- split; [intros []|]. intros (A & B & C). rewrite B in C. rewrite (proj2 (inb_not g L) NgL), Bool.andb_false_r in C. discriminate.
          -- rewrite (pt_new _ _ P). assert (Same : s < N -> (gof st1 s = g' <-> gof st s = g')).
             { intros A. rewrite GO by exact A. destruct (Nat.eqb_spec (gof st s) g) as [E|]; [|reflexivity]. destruct (X s); [|reflexivity]. cbn [andb].
               split; intros C; [|congruence]. exfalso. apply Nn. symmetry. exact C. }
             assert (SL : inb g' (g :: L) = inb g' L) by (unfold inb; cbn [existsb]; destruct (Nat.eqb_spec g' g); [contradiction|reflexivity]).
             split; intros (A & B & C); (split; [exact A|]).
             ++ rewrite (proj2 (Same A) B). rewrite B, SL in C. auto.
             ++ rewrite B in C. apply (Same A) in B. rewrite B, SL. auto.
        * intros g'. rewrite GA. destruct (g' =? newg); [|destruct (g' =? g)]; cbn [members news]; [split; [apply (pt_nd _ _ P)|constructor]..|apply (pt_nd _ _ P)].
        * intros g' Hg'. rewrite GA. destruct (Nat.eqb_spec g' newg) as [->|Nn]; [|destruct (Nat.eqb_spec g' g) as [->|Ng]]; cbn [members news].
          -- left. apply Nw. left. reflexivity.
          -- left. rewrite Em. discriminate.
          -- apply (pt_ne _ _ P). rewrite LG in Hg'. unfold newg in *. lia.
      + exact ND'.
      + intros g' Hg'. rewrite GA. specialize (Nw g' (or_intror Hg')). destruct (Nat.eqb_spec g' newg) as [->|]; [rewrite group_at_over in Nw by (unfold newg; lia); contradiction|].
        destruct (Nat.eqb_spec g' g) as [->|]; [contradiction|]. exact Nw.
      + intros s s' Hs Hs' E. rewrite !GO in E by assumption. pose proof (Rng s Hs). pose proof (Rng s' Hs').
        destruct ((gof st s =? g) && X s) eqn:E1; destruct ((gof st s' =? g) && X s') eqn:E2.
        * apply Bool.andb_true_iff in E1, E2. destruct E1 as [E1 _], E2 as [E2 _]. apply Nat.eqb_eq in E1, E2. apply Up; [assumption..|congruence].
        * unfold newg in E. lia.
        * unfold newg in E. lia.
        * apply Up; assumption.
      + intros s s' Hs Hs' E0 Ex. rewrite !GO by assumption. pose proof (Dn s s' Hs Hs' E0 Ex) as E. rewrite E, Ex. reflexivity.
      + intros s s' Hs Hs' E D. rewrite !GO in E by assumption. pose proof (Rng s Hs). pose proof (Rng s' Hs').
        assert (E' : gof st s = gof st s' /\ gof st s <> g).
        { destruct ((gof st s =? g) && X s) eqn:E1; destruct ((gof st s' =? g) && X s') eqn:E2.
          - apply Bool.andb_true_iff in E1, E2. exfalso. apply D. destruct E1 as [_ ->], E2 as [_ ->]. reflexivity.
          - unfold newg in E. lia.
          - unfold newg in E. lia.
          - split; [exact E|]. intros C. rewrite <- E, C, Nat.eqb_refl in E2. rewrite C, Nat.eqb_refl in E1. cbn [andb] in E1, E2. congruence. }
        destruct E' as [E' Ng]. rewrite GO by exact Hs. rewrite (proj2 (Nat.eqb_neq _ _) Ng). cbn [andb].
        destruct (Df s s' Hs Hs' E' D) as [C|C]; [congruence|exact C].
      + intros s Hs Hk. specialize (Kp s Hs Hk). rewrite GO by exact Hs. apply AG. destruct (Nat.eqb_spec (gof st s) g) as [E|]; [|auto].
        destruct (X s); cbn [andb]; [|auto]. right. left. rewrite <- E. auto.
      + intros s s' Hs Hs' E0 D. destruct (Nat.eq_dec (gof st s) (gof st s')) as [E|NE].
        * rewrite !GO in * by assumption. rewrite <- E in *. destruct (Nat.eqb_spec (gof st s) g) as [Eg|]; [|cbn in D; congruence].
          rewrite Eg in *. destruct (X s), (X s'); cbn [andb] in *; try congruence; rewrite !AG.
          -- destruct (in_dec Nat.eq_dec g (map snd (agenda st))) as [H|H]; [auto|].
             destruct (length (members (group_at st g)) <? length (news (group_at st g))); auto 6.
          -- destruct (in_dec Nat.eq_dec g (map snd (agenda st))) as [H|H]; [auto|].
             destruct (length (members (group_at st g)) <? length (news (group_at st g))); auto 6.
        * assert (Keep : forall x, x < N -> on_agenda st (gof st x) -> on_agenda st1 (gof st1 x)).
          { intros x Hx Ha. rewrite GO by exact Hx. apply AG. destruct (Nat.eqb_spec (gof st x) g) as [E|]; [|auto].
            destruct (X x); cbn [andb]; [|auto]. right. left. rewrite <- E. auto. }
          destruct (Ad s s' Hs Hs' E0 NE) as [H|H]; [left|right]; apply Keep; assumption.
      + split.
        * cbn [st1 split_group agenda]. destruct (agenda_contains g (agenda st)) eqn:Ec.
          -- cbn [agenda_add map snd]. constructor; [|constructor].
             ++ cbn [In]. rewrite agenda_erase_In. fold newg. intros [C|[C _]]; [unfold newg in C; lia|contradiction].
             ++ rewrite agenda_erase_In. tauto.
             ++ apply agenda_erase_NoDup, AN.
          -- assert (Ng : ~ on_agenda st g) by (rewrite <- agenda_contains_In, Ec; discriminate).
             destruct (_ <? _); cbn [agenda_add map snd]; constructor; auto.
        * intros x Hx. rewrite LG. apply AG in Hx. destruct Hx as [H|[[_ ->]|[_ ->]]]; [apply AR in H; unfold newg; lia|lia|].
          destruct (_ <? _); unfold newg; lia.
      + rewrite LG. cbn [st1 split_group agenda]. destruct (agenda_contains g (agenda st)) eqn:Ec.
        * apply agenda_contains_In in Ec. cbn [agenda_add length]. pose proof (agenda_erase_length g _ AN Ec). unfold newg. lia.
        * destruct (_ <? _); cbn [agenda_add length]; unfold newg; lia.
  Qed.
End Parts.
