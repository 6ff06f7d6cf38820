(** The search through the networks finds the matches. *)
From Coq Require Import Sorted.
From Verif Require Import Base Flags_Spec PM_Model PM_Spec.

(** * Tapes and stacks *)
Lemma write_prefix n x : forall t, n <= length t -> firstn n (write n x t) = firstn n t /\ firstn (S n) (write n x t) = firstn n t ++ [x].
Proof.
  induction n as [|n IH]; intros [|y t] H; cbn [write length] in *; try (split; reflexivity); try lia.
  destruct (IH t) as (A & C); [lia|]. cbn [firstn app] in *. rewrite A. split; [reflexivity|]. f_equal. exact C.
Qed.
Lemma firstn_weaken {A} n m (t u : list A) : n <= m -> firstn m t = firstn m u -> firstn n t = firstn n u.
Proof. intros L H. replace n with (Nat.min n m) by lia. rewrite <- !firstn_firstn, H. reflexivity. Qed.

Lemma on_stack_nth f : forall d k, d < length k -> nth_error (on_stack d f k) d = option_map f (nth_error k d).
Proof. induction d as [|d IH]; intros [|x k] H; cbn [length] in H; try lia; cbn [on_stack nth_error]; [reflexivity|]. apply IH. lia. Qed.
Lemma on_stack_other f : forall d k m, m <> d -> nth_error (on_stack d f k) m = nth_error k m.
Proof. induction d as [|d IH]; intros [|x k] [|m] H; cbn [on_stack nth_error]; try reflexivity; try congruence. apply IH. congruence. Qed.
Lemma on_stack_length f : forall d k, length (on_stack d f k) = length k.
Proof. induction d as [|d IH]; intros [|x k]; cbn [on_stack length]; try reflexivity. f_equal. apply IH. Qed.
Lemma on_stack_app f : forall d k l, d < length k -> on_stack d f (k ++ l) = on_stack d f k ++ l.
Proof. induction d as [|d IH]; intros [|x k] l H; cbn [length] in H; try lia; cbn [on_stack app]; [reflexivity|]. f_equal. apply IH. lia. Qed.
Lemma pop_push fr : forall d k, on_stack d (@tl frame) (on_stack d (cons fr) k) = k.
Proof. induction d as [|d IH]; intros [|x k]; cbn [on_stack tl]; try reflexivity. f_equal. apply IH. Qed.
Lemma on_stack_end f k x l : on_stack (length k) f (k ++ x :: l) = k ++ f x :: l.
Proof. induction k; cbn [length app on_stack]; [reflexivity|]. f_equal. exact IHk. Qed.

(** * Recording what is found *)
Definition record (locate : bool) (b : found_so_far) (h : hit) : found_so_far :=
  let '(t, pos, w) := h in
  if locate then
    match b_locations b with
    | [] => Best (b_result b) pos (b_weight b) [(t, w)]
    | _ => if pos <? b_pos b then b else Best (b_result b) pos (b_weight b) ((if b_pos b <? pos then [] else b_locations b) ++ [(t, w)])
    end
  else if (b_pos b <? pos) || ((pos =? b_pos b) && (w <? b_weight b)%Z) then Best t pos w (b_locations b) else b.

Section Search.
  Variable nets : nat -> ptrans.
  Variable al : palpha.
  Variable input : list nat.
  Variable mw : option Z.
  Variable locate : bool.
  Notation move := (move nets al input).
  Notation found := (found nets al input mw).
  Notation reads := (reads nets al).

  (** Either the calls are ranked, or there are no flags; [ranked] tells which. *)
  Variable ranked : bool.
  Variable rank : nat -> nat.
  Hypothesis Rank : ranked = true -> forall T i a U, In a (pt_arcs (nets T) i) -> al_rtn al (pa_in a) = Some U -> rank U < rank T.
  Hypothesis Sep : ranked = true -> separate_defaults nets al.
  Hypothesis NoFlags : ranked = false -> no_flags nets al.
  Hypothesis NoDefault : ranked = false -> al_default al = None.

  Definition chain (c : conf) : list nat := c_net c :: map (fun x => fst (fst x)) (c_calls c).
  Definition flags_of (c : conf) : list (nat * fenv) := (c_net c, c_flags c) :: map (fun x => (fst (fst x), snd x)) (c_calls c).
  Definition below (T U : nat) : Prop := rank T < rank U.

  Record Rel (c : conf) (s : state) : Prop := {
    r_weight : s_weight s = c_weight c;
    r_global : s_global s = c_global c;
    r_depth : s_depth s = length (c_calls c);
    r_size : length (c_calls c) <= length (s_stacks s);
    r_stacks : forall d C r e, nth_error (rev (c_calls c)) d = Some (C, r, e) -> exists rest, nth_error (s_stacks s) d = Some ((r, C) :: rest);
    r_locals : forall T, s_locals s T <> [];
    r_chain : ranked = true -> StronglySorted below (chain c);
    r_flags : ranked = true -> forall T e, In (T, e) (flags_of c) -> exists b rest, s_locals s T = Locals e b :: rest;
    r_none : ranked = false -> (forall T l, In l (s_locals s T) -> lv_flags l = env0) /\ (forall T e, In (T, e) (flags_of c) -> e = env0);
    r_tape : firstn (length (c_out c)) (s_tape s) = c_out c }.

  Record Post (c : conf) (P : hit -> Prop) (s s' : state) : Prop := {
    q_weight : s_weight s' = s_weight s;
    q_global : s_global s' = s_global s;
    q_depth : s_depth s' = s_depth s;
    q_stacks : exists m, s_stacks s' = s_stacks s ++ repeat [] m;
    q_flags : forall T, map lv_flags (s_locals s' T) = map lv_flags (s_locals s T);
    q_tails : ranked = true -> forall T, tl (s_locals s' T) = tl (s_locals s T);
    q_others : ranked = true -> forall T, ~ In T (chain c) -> s_locals s' T = s_locals s T;
    q_tape : firstn (length (c_out c)) (s_tape s') = firstn (length (c_out c)) (s_tape s);
    q_best : exists hs, s_best s' = fold_left (record locate) hs (s_best s) /\ forall h, In h hs <-> P h }.

  Lemma Post_refl c s (P : hit -> Prop) : (forall h, ~ P h) -> Post c P s s.
  Proof.
    intros N. split; try reflexivity; try (intros; reflexivity).
    - exists 0. symmetry. apply app_nil_r.
    - exists []. split; [reflexivity|]. intros h. split; [intros []|intros H; destruct (N h H)].
  Qed.
  Lemma Post_trans c P Q s1 s2 s3 : Post c P s1 s2 -> Post c Q s2 s3 -> Post c (fun h => P h \/ Q h) s1 s3.
  Proof.
    intros A C. split; [etransitivity; [apply C|apply A]..| | | | |etransitivity; [apply C|apply A]|].
    - destruct (q_stacks _ _ _ _ A) as (m & E1), (q_stacks _ _ _ _ C) as (m' & E2). exists (m + m'). rewrite E2, E1, <- app_assoc, <- repeat_app. reflexivity.
    - intros T. rewrite (q_flags _ _ _ _ C). apply A.
    - intros K T. rewrite (q_tails _ _ _ _ C K). apply A, K.
    - intros K T N. rewrite (q_others _ _ _ _ C K T N). apply A; assumption.
    - destruct (q_best _ _ _ _ A) as (h1 & E1 & I1), (q_best _ _ _ _ C) as (h2 & E2 & I2). exists (h1 ++ h2). split; [rewrite fold_left_app, <- E1; exact E2|].
      intros h. rewrite in_app_iff, I1, I2. reflexivity.
  Qed.
  Lemma Post_iff c (P Q : hit -> Prop) s s' : (forall h, P h <-> Q h) -> Post c P s s' -> Post c Q s s'.
  Proof.
    intros E A. split; try apply A. destruct (q_best _ _ _ _ A) as (h1 & E1 & I1). exists h1. split; [exact E1|]. intros h. rewrite I1. apply E.
  Qed.
  Lemma flags_top T s s' : map lv_flags (s_locals s' T) = map lv_flags (s_locals s T) -> s_locals s T <> [] -> s_locals s' T <> [].
  Proof. intros E N Z. rewrite Z in E. destruct (s_locals s T); [congruence|discriminate]. Qed.
  Lemma Rel_Post c P s s' : Rel c s -> Post c P s s' -> Rel c s'.
  Proof.
    intros R Q. split.
    - rewrite (q_weight _ _ _ _ Q). apply R.
    - rewrite (q_global _ _ _ _ Q). apply R.
    - rewrite (q_depth _ _ _ _ Q). apply R.
    - destruct (q_stacks _ _ _ _ Q) as (m & ->). rewrite app_length. pose proof (r_size _ _ R). lia.
    - intros d C r e H. destruct (r_stacks _ _ R d C r e H) as (rest & E). exists rest. destruct (q_stacks _ _ _ _ Q) as (m & ->).
      rewrite nth_error_app1; [exact E|]. apply nth_error_Some. congruence.
    - intros T. eapply flags_top; [apply Q|apply R].
    - apply R.
    - intros K T e H. destruct (r_flags _ _ R K T e H) as (b & rest & E). pose proof (q_flags _ _ _ _ Q T) as F. rewrite E in F.
      destruct (s_locals s' T) as [|l r]; [discriminate|]. cbn [map lv_flags] in F. injection F as F _. exists (lv_trap l), r. rewrite <- F. destruct l; reflexivity.
    - intros K. destruct (r_none _ _ R K) as (A & C). split; [|exact C]. intros T l H. pose proof (q_flags _ _ _ _ Q T) as F.
      assert (X : In (lv_flags l) (map lv_flags (s_locals s T))) by (rewrite <- F; apply in_map, H). apply in_map_iff in X. destruct X as (l' & <- & H'). eauto.
    - rewrite (q_tape _ _ _ _ Q). apply R.
  Qed.

  (** What the recursive call is known to do. *)
  Variable n : nat.
  Variable rec : nat -> nat -> nat -> nat -> state -> res state.
  Hypothesis Rec : forall c s, Rel c s -> exists s', rec (c_net c) (c_pos c) (length (c_out c)) (c_state c) s = Ok s' /\ Post c (found n c) s s'.

  Lemma top_ok c s : Rel c s -> forall T, exists l rest, s_locals s T = l :: rest /\ top T s = Ok l.
  Proof. intros R T. pose proof (r_locals _ _ R T) as N. unfold top. destruct (s_locals s T) as [|l r]; [congruence|]. eauto. Qed.
  Lemma top_flags c s : Rel c s -> exists b rest, s_locals s (c_net c) = Locals (c_flags c) b :: rest.
  Proof.
    intros R. destruct ranked eqn:K.
    - apply (r_flags _ _ R K). left. reflexivity.
    - destruct (r_none _ _ R K) as (A & C). destruct (top_ok c s R (c_net c)) as (l & rest & E & _). exists (lv_trap l), rest. rewrite E. f_equal.
      assert (X : lv_flags l = env0) by (apply (A (c_net c)); rewrite E; left; reflexivity). assert (Y : c_flags c = env0) by (apply (C (c_net c)); left; reflexivity).
      destruct l as [x1 x2]; cbn in *; congruence.
  Qed.

  Lemma set_trap_ok c s b : Rel c s -> exists s', set_trap (c_net c) b s = Ok s' /\ Post c (fun _ => False) s s' /\
    (exists l rest, s_locals s' (c_net c) = l :: rest /\ lv_trap l = b).
  Proof.
    intros R. destruct (top_flags c s R) as (b0 & rest & E). unfold set_trap, top. rewrite E. cbn [rmap lv_flags]. eexists. split; [reflexivity|]. split.
    - split; cbn [set_top set_locals s_weight s_global s_depth s_stacks s_tape s_locals s_best]; try reflexivity.
      + exists 0. symmetry. apply app_nil_r.
      + intros T. destruct (Nat.eqb_spec T (c_net c)) as [->|N]; [|reflexivity]. rewrite E. reflexivity.
      + intros K T. destruct (Nat.eqb_spec T (c_net c)) as [->|N]; [|reflexivity]. rewrite E. reflexivity.
      + intros K T H. destruct (Nat.eqb_spec T (c_net c)) as [->|N]; [|reflexivity]. destruct H. left. reflexivity.
      + exists []. split; [reflexivity|]. intros h. split; [intros []|tauto].
    - cbn [set_top set_locals s_locals]. rewrite Nat.eqb_refl. do 2 eexists. split; reflexivity.
  Qed.

  (** Changing what the sub-run changes: the weight and the tape beyond what is written. *)
  Lemma write_tape c s x : Rel c s -> firstn (length (c_out c)) (write (length (c_out c)) x (s_tape s)) = c_out c /\
    firstn (length (c_out c ++ [x])) (write (length (c_out c)) x (s_tape s)) = c_out c ++ [x].
  Proof.
    intros R. pose proof (r_tape _ _ R) as E. assert (L : length (c_out c) <= length (s_tape s)).
    { rewrite <- E at 1. rewrite firstn_length. lia. }
    destruct (write_prefix (length (c_out c)) x (s_tape s) L) as (A & C). rewrite app_length. cbn [length]. rewrite Nat.add_1_r, A, C, E. split; reflexivity.
  Qed.

  Definition of_arc (c : conf) (a : parc) (h : hit) : Prop := exists c', found n c' h /\
    (pa_in a = 0 /\ c' = Conf (c_net c) (pa_to a) (c_calls c) (c_flags c) (c_global c) (c_pos c) (c_out c ++ [(0, pa_out a)]) (c_weight c + pa_weight a) \/
     pa_in a <> 0 /\ (exists f e' g', al_flag al (pa_in a) = Some f /\ step f (c_flags c) = (e', true) /\
        (if al_global al (pa_in a) then step f (c_global c) = (g', true) else g' = c_global c) /\
        c' = Conf (c_net c) (pa_to a) (c_calls c) e' g' (c_pos c) (c_out c) (c_weight c + pa_weight a)) \/
     pa_in a <> 0 /\ al_flag al (pa_in a) = None /\ (exists U, al_rtn al (pa_in a) = Some U /\
        c' = Conf U 0 ((c_net c, pa_to a, c_flags c) :: c_calls c) env0 (c_global c) (c_pos c) (c_out c) (c_weight c + pa_weight a))).

  Lemma epsilon_ok c s a : Rel c s -> In a (pt_arcs (nets (c_net c)) (c_state c)) -> free al a = true ->
    exists s', take_epsilon al rec (c_net c) (c_pos c) (length (c_out c)) a s = Ok s' /\ Post c (of_arc c a) s s'.
  Proof using Rank Sep NoFlags NoDefault Rec.
    intros R Ha Fa. unfold take_epsilon. destruct (Nat.eqb_spec (pa_in a) 0) as [Z|Z].
    { (* epsilon *)
      set (c' := Conf (c_net c) (pa_to a) (c_calls c) (c_flags c) (c_global c) (c_pos c) (c_out c ++ [(0, pa_out a)]) (c_weight c + pa_weight a)).
      destruct (write_tape c s (0, pa_out a) R) as (T1 & T2).
      set (s1 := set_tape (write (length (c_out c)) (0, pa_out a) (s_tape (set_weight (s_weight s + pa_weight a) s))) (set_weight (s_weight s + pa_weight a) s)).
      assert (R' : Rel c' s1).
      { destruct R. split; try assumption. - cbn. congruence. }
      destruct (Rec c' s1 R') as (s' & E & Q). cbn [c' c_net c_pos c_out c_state] in E. rewrite app_length in E. cbn [length] in E. rewrite Nat.add_1_r in E.
      rewrite E. cbn [rmap]. eexists. split; [reflexivity|]. destruct Q. split; cbn [set_weight s_weight s_global s_depth s_stacks s_locals s_tape s_best]; try assumption; try reflexivity.
      - rewrite (firstn_weaken (length (c_out c)) (length (c_out c')) (s_tape s') (s_tape s1)); [|cbn; rewrite app_length; lia|assumption].
        rewrite (r_tape _ _ R). exact T1.
      - destruct q_best0 as (hs & E1 & I1). exists hs. split; [exact E1|]. intros h. rewrite I1. unfold of_arc. split.
        + intros H. exists c'. split; [exact H|]. left. split; [exact Z|reflexivity].
        + intros (c2 & H & [(_ & ->)|[(X & _)|(X & _)]]); [exact H|congruence|congruence]. }
    destruct (al_flag al (pa_in a)) as [f|] eqn:Ef.
    { (* flag *)
      destruct (top_flags c s R) as (b & rest & El). unfold take_flag.
      set (s0 := set_weight (s_weight s + pa_weight a) s).
      assert (K : ranked = true) by (destruct ranked; [reflexivity|rewrite (NoFlags eq_refl _ _ _ Ha) in Ef; discriminate]).
      destruct (if al_global al (pa_in a) then step f (s_global s0) else (s_global s0, true)) as (g', allowed) eqn:Eg.
      assert (Eg' : (if al_global al (pa_in a) then step f (c_global c) else (c_global c, true)) = (g', allowed)).
      { rewrite <- Eg. cbn. rewrite (r_global _ _ R). reflexivity. }
      destruct allowed; cbn [negb].
      2:{ assert (X : g' = s_global s).
          { destruct (al_global al (pa_in a)); [|congruence]. cbn in Eg. clear - Eg. destruct f as [ | | f [v|] | f [v|] | | ]; cbn in Eg; try congruence.
            destruct (s_global s f) as [|u|u]; try congruence; destruct (bstr_eqb u v); congruence. }
          subst g'. cbn [rmap]. eexists. split; [reflexivity|]. eapply Post_iff; [|apply (Post_trans _ (fun _ => False) (fun _ => False) s s)].
          - intros h. split; [intros [[]|[]]|]. intros (c' & _ & [(X & _)|[(_ & f' & e' & g' & F1 & _ & F2 & _)|(_ & X & _)]]); [congruence| |congruence].
            assert (f' = f) by congruence. subst f'. destruct (al_global al (pa_in a)); congruence.
          - apply Post_refl. tauto.
          - destruct s; cbn. apply Post_refl. tauto. }
      unfold top at 1. cbn [set_global s0 set_weight s_locals]. rewrite El. cbn [rbind lv_flags lv_trap].
      destruct (step f (c_flags c)) as (e', ok) eqn:Es.
      destruct ok.
      - set (c' := Conf (c_net c) (pa_to a) (c_calls c) e' g' (c_pos c) (c_out c) (c_weight c + pa_weight a)).
        match goal with |- context [rec _ _ _ _ ?x] => set (s1 := x) end.
        assert (L1 : s_locals s1 (c_net c) = Locals e' b :: rest).
        { subst s1. cbn. rewrite Nat.eqb_refl, El. reflexivity. }
        assert (L2 : forall T, T <> c_net c -> s_locals s1 T = s_locals s T).
        { intros T N. subst s1. cbn. destruct (Nat.eqb_spec T (c_net c)); [congruence|reflexivity]. }
        assert (Dist : forall T e, In (T, e) (map (fun x => (fst (fst x), snd x)) (c_calls c)) -> T <> c_net c).
        { intros T e HT. pose proof (r_chain _ _ R K) as SS. unfold chain in SS. inversion SS as [|? ? _ FA]; subst. rewrite Forall_forall in FA.
          apply in_map_iff in HT. destruct HT as (y & Ey & Hy). injection Ey as <- <-. specialize (FA (fst (fst y)) (in_map (fun x => fst (fst x)) _ _ Hy)). unfold below in FA. intros X. rewrite X in FA. lia. }
        assert (R' : Rel c' s1).
        { destruct R. split; try assumption; cbn [c' c_net c_pos c_out c_state c_weight c_global c_calls c_flags].
          - cbn. congruence.
          - reflexivity.
          - intros T. destruct (Nat.eq_dec T (c_net c)) as [->|N]; [rewrite L1; discriminate|rewrite L2 by exact N; auto].
          - intros _ T e [HT|HT]; [injection HT as <- <-; rewrite L1; eauto|]. rewrite L2 by (eapply Dist; exact HT). apply r_flags0; [exact K|]. right. exact HT.
          - congruence. }
        destruct (Rec c' s1 R') as (s' & E & Q). cbn [c' c_net c_pos c_out c_state] in E. rewrite E. cbn [rbind].
        pose proof (q_flags _ _ _ _ Q (c_net c)) as QF. rewrite L1 in QF. destruct (s_locals s' (c_net c)) as [|l' rest'] eqn:L'; [discriminate|].
        pose proof (q_tails _ _ _ _ Q K (c_net c)) as QT. rewrite L', L1 in QT. cbn [tl] in QT. subst rest'.
        unfold top. assert (L3 : s_locals (if al_global al (pa_in a) then set_global (s_global s0) s' else s') (c_net c) = l' :: rest) by (destruct (al_global al (pa_in a)); exact L').
        rewrite L3. cbn [rbind rmap]. eexists. split; [reflexivity|]. destruct Q.
        assert (L4 : forall s2 T, s_locals (set_weight (s_weight s) (set_top (c_net c) (Locals (c_flags c) (lv_trap l')) s2)) T =
          if T =? c_net c then Locals (c_flags c) (lv_trap l') :: tl (s_locals s2 (c_net c)) else s_locals s2 T) by reflexivity.
        split.
        + reflexivity.
        + cbn. destruct (al_global al (pa_in a)); [reflexivity|]. rewrite q_global0. cbn. cbn in Eg. congruence.
        + cbn. destruct (al_global al (pa_in a)); exact q_depth0.
        + cbn. destruct (al_global al (pa_in a)); exact q_stacks0.
        + intros T. rewrite L4, L3. destruct (Nat.eqb_spec T (c_net c)) as [->|N]; [rewrite El; reflexivity|].
          rewrite <- (L2 T N), <- q_flags0. destruct (al_global al (pa_in a)); reflexivity.
        + intros _ T. rewrite L4, L3. destruct (Nat.eqb_spec T (c_net c)) as [->|N]; [rewrite El; reflexivity|].
          rewrite <- (L2 T N), <- (q_tails0 K). destruct (al_global al (pa_in a)); reflexivity.
        + intros _ T HT. rewrite L4. destruct (Nat.eqb_spec T (c_net c)) as [->|N]; [destruct HT; left; reflexivity|].
          rewrite <- (L2 T N), <- (q_others0 K T HT). destruct (al_global al (pa_in a)); reflexivity.
        + cbn. destruct (al_global al (pa_in a)); exact q_tape0.
        + destruct q_best0 as (hs & E1 & I1). exists hs. split; [cbn; destruct (al_global al (pa_in a)); exact E1|]. intros h. rewrite I1. split.
          * intros H. exists c'. split; [exact H|]. right. left. split; [exact Z|]. exists f, e', g'. split; [exact Ef|]. split; [exact Es|]. split; [|reflexivity].
            destruct (al_global al (pa_in a)); congruence.
          * intros (c2 & H & [(X & _)|[(_ & f' & e2 & g2 & F1 & F2 & F3 & ->)|(_ & X & _)]]); [congruence| |congruence].
            assert (f' = f) by congruence. subst f'. assert (e2 = e') by congruence. subst e2. assert (g2 = g') by (destruct (al_global al (pa_in a)); congruence). subst g2. exact H.
      - (* not allowed by the flags of the call *)
        cbn [rbind]. unfold top.
        set (s2 := set_top (c_net c) (Locals e' b) (set_global g' s0)).
        assert (L3 : s_locals (if al_global al (pa_in a) then set_global (s_global s0) s2 else s2) (c_net c) = Locals e' b :: rest).
        { destruct (al_global al (pa_in a)); cbn; rewrite Nat.eqb_refl, El; reflexivity. }
        rewrite L3. cbn [rbind rmap lv_trap]. eexists. split; [reflexivity|].
        assert (L4 : forall s3 T, s_locals (set_weight (s_weight s) (set_top (c_net c) (Locals (c_flags c) b) s3)) T =
          if T =? c_net c then Locals (c_flags c) b :: tl (s_locals s3 (c_net c)) else s_locals s3 T) by reflexivity.
        assert (L5 : forall T, s_locals (set_weight (s_weight s) (set_top (c_net c) (Locals (c_flags c) b) (if al_global al (pa_in a) then set_global (s_global s0) s2 else s2))) T = s_locals s T).
        { intros T. rewrite L4, L3. destruct (Nat.eqb_spec T (c_net c)) as [->|N]; [rewrite El; reflexivity|]. destruct (al_global al (pa_in a)); cbn; destruct (Nat.eqb_spec T (c_net c)); congruence. }
        split.
        + reflexivity.
        + cbn. destruct (al_global al (pa_in a)); [reflexivity|]. cbn. cbn in Eg. congruence.
        + cbn. destruct (al_global al (pa_in a)); reflexivity.
        + exists 0. rewrite app_nil_r. cbn. destruct (al_global al (pa_in a)); reflexivity.
        + intros T. rewrite L5. reflexivity.
        + intros _ T. rewrite L5. reflexivity.
        + intros _ T _. rewrite L5. reflexivity.
        + cbn. destruct (al_global al (pa_in a)); reflexivity.
        + exists []. split; [cbn; destruct (al_global al (pa_in a)); reflexivity|]. intros h. split; [intros []|].
          intros (c2 & H & [(X & _)|[(_ & f' & e2 & g2 & F1 & F2 & F3 & ->)|(_ & X & _)]]); congruence. }
    (* call *)
    unfold free in Fa. rewrite Ef in Fa. replace (pa_in a =? 0) with false in Fa by (symmetry; apply Nat.eqb_neq; exact Z). cbn [orb] in Fa.
    destruct (al_rtn al (pa_in a)) as [U|] eqn:Eu; [|discriminate].
    set (c' := Conf U 0 ((c_net c, pa_to a, c_flags c) :: c_calls c) env0 (c_global c) (c_pos c) (c_out c) (c_weight c + pa_weight a)).
    unfold rtn_call. set (s0 := set_weight (s_weight s + pa_weight a) s). set (s1 := increase_stack_depth (push_rtn_call (pa_to a, c_net c) s0)).
    destruct (top_ok c s R U) as (lu & ru & ELu & _).
    assert (Et : top U s1 = Ok lu) by (unfold top; replace (s_locals s1 U) with (s_locals s U) by reflexivity; rewrite ELu; reflexivity).
    rewrite Et. cbn [rbind]. set (s2 := set_locals U (Locals env0 false :: s_locals s1 U) s1).
    assert (L1 : s_locals s2 U = Locals env0 false :: s_locals s U) by (cbn; rewrite Nat.eqb_refl; reflexivity).
    assert (L2 : forall T, T <> U -> s_locals s2 T = s_locals s T) by (intros T N; cbn; destruct (Nat.eqb_spec T U); [congruence|reflexivity]).
    assert (Fr : ranked = true -> StronglySorted below (U :: chain c)).
    { intros K. constructor; [apply R, K|]. pose proof (Rank K _ _ _ _ Ha Eu) as L. pose proof (r_chain _ _ R K) as SS. unfold chain in *. inversion SS as [|? ? _ FA]; subst.
      constructor; [exact L|]. rewrite Forall_forall in *. intros y Hy. specialize (FA y Hy). unfold below in *. lia. }
    assert (Fresh : ranked = true -> ~ In U (chain c)).
    { intros K HU. specialize (Fr K). inversion Fr as [|? ? _ FA]; subst. rewrite Forall_forall in FA. specialize (FA U HU). unfold below in FA. lia. }
    assert (St : s_stacks s1 = if length (s_stacks s) <=? s_depth s then s_stacks s ++ [[(pa_to a, c_net c)]] else on_stack (s_depth s) (cons (pa_to a, c_net c)) (s_stacks s)) by reflexivity.
    assert (R' : Rel c' s2).
    { pose proof (r_depth _ _ R) as HD. pose proof (r_size _ _ R) as HS. split; cbn [c' c_net c_pos c_out c_state c_weight c_global c_calls c_flags].
      - cbn. rewrite (r_weight _ _ R). reflexivity.
      - apply R.
      - cbn. f_equal. exact HD.
      - change (s_stacks s2) with (s_stacks s1). rewrite St. cbn [length]. destruct (Nat.leb_spec (length (s_stacks s)) (s_depth s)); [rewrite app_length; cbn [length]; lia|rewrite on_stack_length; lia].
      - change (s_stacks s2) with (s_stacks s1). rewrite St. cbn [rev]. intros d C r e H.
        destruct (Nat.lt_ge_cases d (length (c_calls c))) as [L|L].
        + rewrite nth_error_app1 in H by (rewrite rev_length; exact L). destruct (r_stacks _ _ R d C r e H) as (rest & E).
          destruct (Nat.leb_spec (length (s_stacks s)) (s_depth s)); [exists rest; rewrite nth_error_app1 by lia; exact E|]. exists rest. rewrite on_stack_other by lia. exact E.
        + rewrite nth_error_app2 in H by (rewrite rev_length; exact L). rewrite rev_length in H. destruct (d - length (c_calls c)) as [|x] eqn:X; [|destruct x; discriminate]. injection H as <- <- <-.
          assert (d = s_depth s) by lia. subst d. destruct (Nat.leb_spec (length (s_stacks s)) (s_depth s)).
          * assert (EL : s_depth s = length (s_stacks s)) by lia. exists []. rewrite nth_error_app2 by lia. replace (s_depth s - length (s_stacks s)) with 0 by lia. reflexivity.
          * rewrite on_stack_nth by assumption. destruct (nth_error (s_stacks s) (s_depth s)) as [y|] eqn:Y; [|apply nth_error_None in Y; lia]. exists y. reflexivity.
      - intros T. destruct (Nat.eq_dec T U) as [->|N]; [rewrite L1; discriminate|rewrite L2 by exact N; apply R].
      - intros K. unfold chain. cbn [c_net c_calls map fst]. exact (Fr K).
      - intros K T e [HT|HT]; [injection HT as <- <-; rewrite L1; eauto|]. cbn [map fst snd] in HT. change (In (T, e) (flags_of c)) in HT.
        rewrite L2; [apply (r_flags _ _ R K), HT|]. intros ->. apply (Fresh K). unfold flags_of in HT. unfold chain. destruct HT as [HT|HT]; [left; congruence|right].
        apply in_map_iff in HT. destruct HT as (y & Ey & Hy). injection Ey as <- <-. apply (in_map (fun x => fst (fst x)) _ _ Hy).
      - intros K. destruct (r_none _ _ R K) as (A & C). split.
        + intros T l HT. destruct (Nat.eq_dec T U) as [->|N]; [rewrite L1 in HT; destruct HT as [<-|HT]; [reflexivity|eauto]|rewrite L2 in HT by exact N; eauto].
        + intros T e [HT|HT]; [injection HT as <- <-; reflexivity|]. apply (C T). exact HT.
      - apply R. }
    destruct (Rec c' s2 R') as (s' & E & Q). cbn [c' c_net c_pos c_out c_state] in E. rewrite E. cbn [rbind].
    pose proof (q_flags _ _ _ _ Q U) as QF. rewrite L1 in QF. destruct (s_locals s' U) as [|l' rest'] eqn:L'; [discriminate|].
    assert (Et' : top U s' = Ok l') by (unfold top; rewrite L'; reflexivity). rewrite Et'. cbn [rbind]. set (s3 := set_locals U (tl (l' :: rest')) s'). cbn [tl] in *.
    assert (D3 : s_depth s3 = S (s_depth s)) by (change (s_depth s3) with (s_depth s'); rewrite (q_depth _ _ _ _ Q); reflexivity).
    unfold decrease_stack_depth. rewrite D3. cbn [rbind]. unfold rtn_stack_pop.
    change (s_depth (set_depth (s_depth s) s3)) with (s_depth s). change (s_stacks (set_depth (s_depth s) s3)) with (s_stacks s').
    destruct (q_stacks _ _ _ _ Q) as (m & QS). change (s_stacks s2) with (s_stacks s1) in QS. rewrite St in QS.
    assert (N : exists fr rest, nth_error (s_stacks s') (s_depth s) = Some (fr :: rest) /\ exists m', on_stack (s_depth s) (@tl frame) (s_stacks s') = s_stacks s ++ repeat [] m').
    { rewrite QS. pose proof (r_depth _ _ R) as HD. pose proof (r_size _ _ R) as HS. destruct (Nat.leb_spec (length (s_stacks s)) (s_depth s)).
      - assert (EL : s_depth s = length (s_stacks s)) by lia. rewrite EL. do 2 eexists. split.
        + rewrite <- app_assoc. rewrite nth_error_app2 by lia. rewrite Nat.sub_diag. reflexivity.
        + exists (S m). rewrite <- app_assoc. cbn [app]. rewrite on_stack_end. reflexivity.
      - destruct (nth_error (s_stacks s) (s_depth s)) as [y|] eqn:Y; [|apply nth_error_None in Y; lia]. exists (pa_to a, c_net c), y. split.
        + rewrite nth_error_app1 by (rewrite on_stack_length; assumption). rewrite on_stack_nth, Y by assumption. reflexivity.
        + exists m. rewrite on_stack_app by (rewrite on_stack_length; assumption). rewrite pop_push. reflexivity. }
    destruct N as (fr & rest & N1 & m' & N2). rewrite N1. cbn [rmap]. eexists. split; [reflexivity|].
    cbn [map lv_flags] in QF. injection QF as QF1 QF2. destruct Q.
    assert (L5 : forall T, (if T =? U then rest' else s_locals s' T) = if T =? U then rest' else s_locals s' T) by reflexivity.
    split; cbn [set_weight set_stacks set_depth set_locals s3 s_weight s_global s_depth s_stacks s_locals s_tape s_best].
    - reflexivity.
    - exact q_global0.
    - reflexivity.
    - exists m'. exact N2.
    - intros T. destruct (Nat.eqb_spec T U) as [->|NU]; [exact QF2|]. rewrite q_flags0, (L2 T NU). reflexivity.
    - intros K T. destruct (Nat.eqb_spec T U) as [->|NU].
      + pose proof (q_tails0 K U) as QT. rewrite L', L1 in QT. cbn [tl] in QT. subst rest'. reflexivity.
      + rewrite (q_tails0 K), (L2 T NU). reflexivity.
    - intros K T HT. destruct (Nat.eqb_spec T U) as [->|NU].
      + pose proof (q_tails0 K U) as QT. rewrite L', L1 in QT. cbn [tl] in QT. subst rest'. reflexivity.
      + rewrite (q_others0 K T), (L2 T NU); [reflexivity|]. intros [HX|HX]; [cbn in HX; congruence|]. apply HT. unfold chain. cbn [c' c_calls map fst] in HX. exact HX.
    - exact q_tape0.
    - destruct q_best0 as (hs & E1 & I1). exists hs. split; [exact E1|]. intros h. rewrite I1. split.
      + intros H. exists c'. split; [exact H|]. right. right. split; [exact Z|]. split; [exact Ef|]. exists U. split; [exact Eu|reflexivity].
      + intros (c2 & H & [(X & _)|[(_ & f' & e2 & g2 & F1 & _)|(_ & _ & U' & HU & ->)]]); [congruence|congruence|]. assert (U' = U) by congruence. subst U'. exact H.
  Qed.

  Lemma rfor_ok {A} c (f : A -> state -> res state) (P : A -> hit -> Prop) : forall l,
    (forall x, In x l -> forall s, Rel c s -> exists s', f x s = Ok s' /\ Post c (P x) s s') ->
    forall s, Rel c s -> exists s', rfor f l s = Ok s' /\ Post c (fun h => exists x, In x l /\ P x h) s s'.
  Proof.
    induction l as [|x l IH]; intros H s R; cbn [rfor].
    - exists s. split; [reflexivity|]. apply Post_refl. intros h (x & [] & _).
    - destruct (H x (or_introl eq_refl) s R) as (s1 & E1 & Q1). rewrite E1. cbn [rbind].
      destruct (IH (fun y Hy => H y (or_intror Hy)) s1 (Rel_Post _ _ _ _ R Q1)) as (s2 & E2 & Q2). exists s2. split; [exact E2|].
      eapply Post_iff; [|eapply Post_trans; [exact Q1|exact Q2]]. intros h. split.
      + intros [X|(y & Hy & X)]; [exists x; split; [left; reflexivity|exact X]|exists y; split; [right; exact Hy|exact X]].
      + intros (y & [<-|Hy] & X); [left; exact X|right; exists y; split; assumption].
  Qed.
  Lemma epsilons_ok c s : Rel c s -> exists s', take_epsilons nets al rec (c_net c) (c_pos c) (length (c_out c)) (c_state c) s = Ok s' /\
    Post c (fun h => exists a, In a (filter (free al) (pt_arcs (nets (c_net c)) (c_state c))) /\ of_arc c a h) s s'.
  Proof using Rank Sep NoFlags NoDefault Rec.
    intros R. unfold take_epsilons. apply rfor_ok; [|exact R]. intros a Ha s1 R1. apply filter_In in Ha. destruct Ha as (Ha & Fa). apply epsilon_ok; assumption.
  Qed.

  Lemma nth_rev_last {A} (x : A) k : nth_error (rev (x :: k)) (length k) = Some x.
  Proof. cbn [rev]. rewrite nth_error_app2; rewrite rev_length; [|lia]. rewrite Nat.sub_diag. reflexivity. Qed.
  Definition at_final (c : conf) (wf : Z) (h : hit) : Prop :=
    c_calls c = [] /\ h = (c_out c, c_pos c, (c_weight c + wf)%Z) \/
    exists C r e k, c_calls c = (C, r, e) :: k /\ found n (Conf C r k e (c_global c) (c_pos c) (c_out c) (c_weight c + wf)) h.
  Lemma final_ok c s wf : Rel c s -> exists s',
    rmap (set_weight (s_weight s)) (handle_final_state locate rec (c_pos c) (length (c_out c)) (set_weight (s_weight s + wf) s)) = Ok s' /\
    Post c (at_final c wf) s s' /\ (ranked = true -> s_locals s' (c_net c) = s_locals s (c_net c)).
  Proof using Rank Sep NoFlags NoDefault Rec.
    intros R. unfold handle_final_state. change (s_depth (set_weight (s_weight s + wf) s)) with (s_depth s). rewrite (r_depth _ _ R).
    destruct (c_calls c) as [|[[C r] e] k] eqn:Ec; cbn [length].
    - assert (Sl : extract_slice (length (c_out c)) (s_tape s) = Ok (c_out c)).
      { unfold extract_slice. pose proof (r_tape _ _ R) as E. assert (L : length (c_out c) <= length (s_tape s)) by (rewrite <- E at 1; rewrite firstn_length; lia).
        destruct (Nat.leb_spec (length (c_out c)) (length (s_tape s))); [|lia]. rewrite E. reflexivity. }
      assert (G : exists s', rmap (set_weight (s_weight s)) (if locate then grab_location (c_pos c) (length (c_out c)) (set_weight (s_weight s + wf) s)
        else note_analysis (c_pos c) (length (c_out c)) (set_weight (s_weight s + wf) s)) = Ok s' /\ s' = set_best (record locate (s_best s) (c_out c, c_pos c, (c_weight c + wf)%Z)) s).
      { unfold grab_location, note_analysis, record. rewrite <- (r_weight _ _ R). cbn [set_weight s_best s_tape s_weight]. rewrite Sl. cbn [rmap]. destruct locate.
        - destruct (b_locations (s_best s)) as [|y ys] eqn:Y; cbn [negb andb].
          + eexists. split; [reflexivity|]. destruct s; reflexivity.
          + destruct (c_pos c <? b_pos (s_best s)).
            * eexists. split; [reflexivity|]. destruct s as [? ? ? ? ? ? b0]; destruct b0; reflexivity.
            * eexists. split; [reflexivity|]. destruct (b_pos (s_best s) <? c_pos c); destruct s; reflexivity.
        - destruct ((b_pos (s_best s) <? c_pos c) || _); eexists; (split; [reflexivity|]); destruct s; reflexivity. }
      destruct G as (s' & E & ->). rewrite E. eexists. split; [reflexivity|]. split; [|reflexivity]. split; try reflexivity.
      + exists 0. symmetry. apply app_nil_r.
      + exists [(c_out c, c_pos c, (c_weight c + wf)%Z)]. split; [reflexivity|]. intros h. unfold at_final. rewrite Ec. split.
        * intros [<-|[]]. left. split; reflexivity.
        * intros [(_ & ->)|(? & ? & ? & ? & X & _)]; [left; reflexivity|discriminate].
    - destruct (r_stacks _ _ R (length k) C r e) as (rest & Hs); [rewrite Ec; apply nth_rev_last|].
      set (s0 := set_weight (s_weight s + wf) s). assert (B1 : stack_back (length k) s0 = Ok (r, C)) by (unfold stack_back; change (s_stacks s0) with (s_stacks s); rewrite Hs; reflexivity).
      rewrite B1. cbn [rbind snd]. unfold rtn_return, decrease_stack_depth. change (s_depth s0) with (s_depth s). rewrite (r_depth _ _ R), Ec. cbn [length rbind].
      set (s1 := set_depth (length k) s0). assert (B2 : stack_back (s_depth s1) s1 = Ok (r, C)) by exact B1. rewrite B2. cbn [rbind fst].
      set (c' := Conf C r k e (c_global c) (c_pos c) (c_out c) (c_weight c + wf)).
      assert (R' : Rel c' s1).
      { split; cbn [c' c_net c_pos c_out c_state c_weight c_global c_calls c_flags].
        - cbn. rewrite (r_weight _ _ R). reflexivity.
        - apply R.
        - reflexivity.
        - pose proof (r_size _ _ R) as X. rewrite Ec in X. cbn in *. lia.
        - intros d C' r' e' H. apply (r_stacks _ _ R d C' r' e'). rewrite Ec. cbn [rev]. rewrite nth_error_app1; [exact H|]. apply nth_error_Some. congruence.
        - apply R.
        - intros K. pose proof (r_chain _ _ R K) as SS. unfold chain in SS. rewrite Ec in SS. inversion SS; assumption.
        - intros K T e' HT. apply (r_flags _ _ R K T e'). unfold flags_of. rewrite Ec. right. exact HT.
        - intros K. destruct (r_none _ _ R K) as (A & D). split; [exact A|]. intros T e' HT. apply (D T). unfold flags_of. rewrite Ec. right. exact HT.
        - apply R. }
      destruct (Rec c' s1 R') as (s' & E & Q). cbn [c' c_net c_pos c_out c_state] in E. rewrite E. cbn [rmap]. eexists. split; [reflexivity|].
      assert (Sub : forall T, In T (chain c') -> In T (chain c)) by (intros T HT; unfold chain; rewrite Ec; right; exact HT).
      destruct Q. split.
      + split; cbn [set_weight increase_stack_depth set_depth s_weight s_global s_depth s_stacks s_locals s_tape s_best]; try assumption; try reflexivity.
        * rewrite q_depth0. cbn. rewrite (r_depth _ _ R), Ec. reflexivity.
        * intros K T HT. apply (q_others0 K). intros X. apply HT, Sub, X.
        * destruct q_best0 as (hs & E1 & I1). exists hs. split; [exact E1|]. intros h. rewrite I1. unfold at_final. rewrite Ec. split.
          -- intros H. right. exists C, r, e, k. split; [reflexivity|exact H].
          -- intros [(X & _)|(C' & r' & e' & k' & X & H)]; [discriminate|]. injection X as <- <- <- <-. exact H.
      + intros K. apply (q_others0 K). pose proof (r_chain _ _ R K) as SS. unfold chain in SS. rewrite Ec in SS. inversion SS as [|? ? _ FA]; subst. rewrite Forall_forall in FA.
        intros X. specialize (FA _ X). unfold below in FA. lia.
  Qed.

  Definition pair_of (x : nat) (a : parc) : nat * nat := if al_meta al (pa_out a) then (x, x) else (pa_in a, pa_out a).
  Definition of_read (c : conf) (x : nat) (a : parc) (h : hit) : Prop :=
    found n (Conf (c_net c) (pa_to a) (c_calls c) (c_flags c) (c_global c) (S (c_pos c)) (c_out c ++ [pair_of x a]) (c_weight c + pa_weight a)) h.
  Definition trap_is (T : nat) (b : bool) (s : state) : Prop := exists l rest, s_locals s T = l :: rest /\ lv_trap l = b.
  Lemma transition_ok c s x a : Rel c s -> exists s', take_transition al rec (c_net c) (c_pos c) (length (c_out c)) x a s = Ok s' /\
    Post c (of_read c x a) s s' /\ trap_is (c_net c) false s'.
  Proof using Rank Sep NoFlags NoDefault Rec.
    intros R. unfold take_transition. fold (pair_of x a).
    set (c' := Conf (c_net c) (pa_to a) (c_calls c) (c_flags c) (c_global c) (S (c_pos c)) (c_out c ++ [pair_of x a]) (c_weight c + pa_weight a)).
    destruct (write_tape c s (pair_of x a) R) as (T1 & T2).
    set (s1 := set_tape (write (length (c_out c)) (pair_of x a) (s_tape (set_weight (s_weight s + pa_weight a) s))) (set_weight (s_weight s + pa_weight a) s)).
    assert (R' : Rel c' s1).
    { destruct R. split; try assumption. - cbn. congruence. }
    destruct (Rec c' s1 R') as (s' & E & Q). cbn [c' c_net c_pos c_out c_state] in E. rewrite app_length in E. cbn [length] in E. rewrite Nat.add_1_r in E.
    rewrite E. cbn [rbind].
    assert (Q' : Post c (of_read c x a) s (set_weight (s_weight s) s')).
    { destruct Q. split; cbn [set_weight s_weight s_global s_depth s_stacks s_locals s_tape s_best]; try assumption; try reflexivity.
      rewrite (firstn_weaken (length (c_out c)) (length (c_out c')) (s_tape s') (s_tape s1)); [|cbn; rewrite app_length; lia|assumption]. rewrite (r_tape _ _ R). exact T1. }
    pose proof (Rel_Post _ _ _ _ R Q') as R2. destruct (set_trap_ok c _ false R2) as (s2 & E2 & Q2 & TR).
    assert (E3 : rmap (set_weight (s_weight s)) (set_trap (c_net c) false s') = Ok s2).
    { rewrite <- E2. unfold set_trap, top. cbn. destruct (s_locals s' (c_net c)); reflexivity. }
    exists s2. split; [exact E3|]. split; [|exact TR]. eapply Post_iff; [|eapply Post_trans; [exact Q'|exact Q2]]. intros h. split; [intros [H|[]]; exact H|intros H; left; exact H].
  Qed.
  Lemma transitions_ok c s x k : Rel c s -> exists s', take_transitions nets al rec k (c_net c) (c_pos c) (length (c_out c)) x (c_state c) s = Ok s' /\
    Post c (fun h => exists a, In a (pt_arcs (nets (c_net c)) (c_state c)) /\ pa_in a = k /\ of_read c x a h) s s'.
  Proof using Rank Sep NoFlags NoDefault Rec.
    intros R. unfold take_transitions.
    destruct (rfor_ok c (take_transition al rec (c_net c) (c_pos c) (length (c_out c)) x) (of_read c x) (filter (fun a => pa_in a =? k) (pt_arcs (nets (c_net c)) (c_state c)))) with (s := s) as (s' & E & Q).
    - intros a _ s1 R1. destruct (transition_ok c s1 x a R1) as (s2 & E & Q & _). eauto.
    - exact R.
    - exists s'. split; [exact E|]. eapply Post_iff; [|exact Q]. intros h. split.
      + intros (a & Ha & H). apply filter_In in Ha. destruct Ha as (Ha & Ea). apply Nat.eqb_eq in Ea. eauto.
      + intros (a & Ha & Ea & H). exists a. split; [|exact H]. apply filter_In. split; [exact Ha|]. apply Nat.eqb_eq, Ea.
  Qed.
  (** The trap after the loops. *)
  Lemma loop_trap c x : forall l s s', Rel c s -> rfor (take_transition al rec (c_net c) (c_pos c) (length (c_out c)) x) l s = Ok s' ->
    match l with [] => s' = s | _ => trap_is (c_net c) false s' end.
  Proof using Rank Sep NoFlags NoDefault Rec.
    intros [|a l]; [cbn; congruence|]. revert a. induction l as [|b l IH]; intros a s s' R E.
    - cbn [rfor] in E. destruct (transition_ok c s x a R) as (s2 & E2 & Q2 & T2). rewrite E2 in E. cbn in E. congruence.
    - cbn [rfor] in E. destruct (transition_ok c s x a R) as (s2 & E2 & Q2 & T2). rewrite E2 in E. cbn [rbind] in E. apply (IH b s2 s'); [|exact E]. eapply Rel_Post; eassumption.
  Qed.
  Lemma tries_trap c x ks : forall s s', Rel c s -> rfor (fun k => take_transitions nets al rec k (c_net c) (c_pos c) (length (c_out c)) x (c_state c)) ks s = Ok s' ->
    ((forall b, In b (pt_arcs (nets (c_net c)) (c_state c)) -> ~ In (pa_in b) ks) -> s' = s) /\
    ((exists b, In b (pt_arcs (nets (c_net c)) (c_state c)) /\ In (pa_in b) ks) \/ trap_is (c_net c) false s -> trap_is (c_net c) false s').
  Proof using Rank Sep NoFlags NoDefault Rec.
    induction ks as [|k ks IH]; intros s s' R E; cbn [rfor] in E.
    - injection E as <-. split; [reflexivity|]. intros [(b & _ & [])|H]; exact H.
    - destruct (transitions_ok c s x k R) as (s1 & E1 & Q1). rewrite E1 in E. cbn [rbind] in E.
      destruct (IH s1 s' (Rel_Post _ _ _ _ R Q1) E) as (A & C). unfold take_transitions in E1. pose proof (loop_trap c x _ _ _ R E1) as LT.
      destruct (filter (fun a => pa_in a =? k) (pt_arcs (nets (c_net c)) (c_state c))) as [|a r] eqn:F.
      + subst s1. split.
        * intros N. apply A. intros b Hb HI. apply (N b Hb). right. exact HI.
        * intros [(b & Hb & [X|HI])|T]; [|apply C; left; eauto|apply C; right; exact T]. exfalso.
          assert (Y : In b (filter (fun a => pa_in a =? k) (pt_arcs (nets (c_net c)) (c_state c)))) by (apply filter_In; split; [exact Hb|apply Nat.eqb_eq; congruence]). rewrite F in Y. destruct Y.
      + split; [|intros _; apply C; right; exact LT]. intros N. exfalso. assert (Y : In a (filter (fun a => pa_in a =? k) (pt_arcs (nets (c_net c)) (c_state c)))) by (rewrite F; left; reflexivity).
        apply filter_In in Y. destruct Y as (Y1 & Y2). apply Nat.eqb_eq in Y2. apply (N a Y1). left. congruence.
  Qed.

  Lemma tried_spec k x : In k (tried al x) <-> stands_for al k x.
  Proof.
    unfold tried, stands_for, opt. rewrite !in_app_iff. destruct (Nat.ltb_spec x (al_orig al)) as [L|L].
    - cbn [In]. split; [intros [H|[H|[H|[]]]]; auto|]. intros [H|[H|[(_ & ->)|(H & _)]]]; auto. lia.
    - rewrite in_app_iff. split.
      + intros [H|[H|[H|H]]]; auto; right; right; right; (split; [exact L|]).
        * left. destruct (al_identity al) as [j|]; [destruct H as [<-|[]]; reflexivity|destruct H].
        * right. destruct (al_unknown al) as [j|]; [destruct H as [<-|[]]; reflexivity|destruct H].
      + intros [H|[H|[(H & _)|(_ & [->| ->])]]]; auto; [lia| |]; right; right; [left|right]; left; reflexivity.
  Qed.

  Lemma body_ok c s : affordable mw c -> Rel c s -> exists s', body nets al input locate rec (c_net c) (c_pos c) (length (c_out c)) (c_state c) s = Ok s' /\ Post c (found (S n) c) s s'.
  Proof using Rank Sep NoFlags NoDefault Rec.
    intros Aff R. unfold body. destruct (set_trap_ok c s true R) as (s1 & E1 & Q1 & T1). rewrite E1. cbn [rbind]. pose proof (Rel_Post _ _ _ _ R Q1) as R1.
    destruct (epsilons_ok c s1 R1) as (s2 & E2 & Q2). rewrite E2. cbn [rbind]. pose proof (Rel_Post _ _ _ _ R1 Q2) as R2.
    assert (FS : exists s3, match pt_final (nets (c_net c)) (c_state c) with
        | Some w => rmap (set_weight (s_weight s2)) (handle_final_state locate rec (c_pos c) (length (c_out c)) (set_weight (s_weight s2 + w) s2)) | None => Ok s2 end = Ok s3 /\
        Post c (fun h => exists w, pt_final (nets (c_net c)) (c_state c) = Some w /\ at_final c w h) s2 s3 /\ (ranked = true -> s_locals s3 (c_net c) = s_locals s2 (c_net c))).
    { destruct (pt_final (nets (c_net c)) (c_state c)) as [w|] eqn:Ew.
      - destruct (final_ok c s2 w R2) as (s3 & E3 & Q3 & L3). exists s3. split; [exact E3|]. split; [|exact L3]. eapply Post_iff; [|exact Q3]. intros h. split; [eauto|]. intros (w' & X & H). congruence.
      - exists s2. split; [reflexivity|]. split; [|reflexivity]. apply Post_refl. intros h (w & X & _). discriminate. }
    destruct FS as (s3 & E3 & Q3 & L3). rewrite E3. cbn [rbind]. pose proof (Rel_Post _ _ _ _ R2 Q3) as R3. clear E3.
    pose proof (Post_trans _ _ _ _ _ _ (Post_trans _ _ _ _ _ _ Q1 Q2) Q3) as Q123.
    assert (Found : forall h, found (S n) c h <->
      ((False \/ (exists a, In a (filter (free al) (pt_arcs (nets (c_net c)) (c_state c))) /\ of_arc c a h)) \/
       (exists w, pt_final (nets (c_net c)) (c_state c) = Some w /\ at_final c w h)) \/
      (exists x a, nth_error input (c_pos c) = Some x /\ reads (c_net c) (c_state c) a x /\ of_read c x a h)).
    { intros h. split.
      - intros H. inversion H as [m T i e g p o w wf A F|m c0 c1 h0 A M F]; subst.
        + left. right. exists wf. split; [exact F|]. left. split; reflexivity.
        + inversion M; subst; cbn [c_net c_state c_calls c_flags c_global c_pos c_out c_weight] in *.
          * left. left. right. exists a. split; [apply filter_In; split; [assumption|unfold free; match goal with H : pa_in a = 0 |- _ => rewrite H end; reflexivity]|].
            eexists. split; [exact F|]. left. split; [assumption|reflexivity].
          * left. left. right. exists a. split; [apply filter_In; split; [assumption|unfold free; match goal with H : al_flag al (pa_in a) = _ |- _ => rewrite H end; rewrite orb_true_r; reflexivity]|].
            eexists. split; [exact F|]. right. left. split; [assumption|]. do 3 eexists. repeat split; eassumption.
          * left. left. right. exists a. split; [apply filter_In; split; [assumption|unfold free; match goal with H : al_rtn al (pa_in a) = _ |- _ => rewrite H end; rewrite !orb_true_r; reflexivity]|].
            eexists. split; [exact F|]. right. right. split; [assumption|]. split; [assumption|]. eexists. split; [eassumption|reflexivity].
          * left. right. exists wf. split; [assumption|]. right. do 4 eexists. split; [reflexivity|exact F].
          * right. exists x, a. split; [assumption|]. split; [assumption|]. exact F.
      - destruct c as [T i k e g p o w]. unfold of_arc, at_final, of_read. cbn [c_net c_state c_calls c_flags c_global c_pos c_out c_weight] in *.
        intros [[[[]|(a & Ha & c' & F & D)]|(wf & Hw & D)]|(x & a & Hx & Hr & F)].
        + apply filter_In in Ha. destruct Ha as (Ha & _). destruct D as [(Z & ->)|[(Z & f & e' & g' & H1 & H2 & H3 & ->)|(Z & H1 & U & H2 & ->)]];
            (eapply found_move; [exact Aff| |exact F]); [apply move_epsilon|eapply move_flag|eapply move_call]; eassumption.
        + destruct D as [(-> & ->)|(C & r & eC & k' & -> & F)]; [apply found_here; assumption|]. eapply found_move; [exact Aff| |exact F]. apply move_return, Hw.
        + eapply found_move; [exact Aff| |exact F]. apply move_read; assumption. }
    destruct (nth_error input (c_pos c)) as [x|] eqn:Ex.
    2:{ exists s3. split; [reflexivity|]. eapply Post_iff; [|exact Q123]. intros h. rewrite Found. split; [intros H; left; exact H|]. intros [H|(x & a & X & _)]; [exact H|discriminate]. }
    destruct (rfor_ok c (fun k => take_transitions nets al rec k (c_net c) (c_pos c) (length (c_out c)) x (c_state c))
      (fun k h => exists a, In a (pt_arcs (nets (c_net c)) (c_state c)) /\ pa_in a = k /\ of_read c x a h) (tried al x)) with (s := s3) as (s4 & E4 & Q4); [intros k _ s0 R0; apply transitions_ok, R0|exact R3|].
    rewrite E4. cbn [rbind]. pose proof (Rel_Post _ _ _ _ R3 Q4) as R4. pose proof (tries_trap c x (tried al x) s3 s4 R3 E4) as (TR1 & TR2).
    pose proof (Post_trans _ _ _ _ _ _ Q123 Q4) as Q1234.
    assert (Std : forall h, (exists k, In k (tried al x) /\ exists a, In a (pt_arcs (nets (c_net c)) (c_state c)) /\ pa_in a = k /\ of_read c x a h) <->
      exists a, In a (pt_arcs (nets (c_net c)) (c_state c)) /\ stands_for al (pa_in a) x /\ of_read c x a h).
    { intros h. split.
      - intros (k & Hk & a & Ha & <- & H). exists a. split; [exact Ha|]. split; [apply tried_spec, Hk|exact H].
      - intros (a & Ha & Hs & H). exists (pa_in a). split; [apply tried_spec, Hs|]. eauto. }
    assert (Dec : (exists b, In b (pt_arcs (nets (c_net c)) (c_state c)) /\ In (pa_in b) (tried al x)) \/ (forall b, In b (pt_arcs (nets (c_net c)) (c_state c)) -> ~ In (pa_in b) (tried al x))).
    { destruct (existsb (fun b => existsb (Nat.eqb (pa_in b)) (tried al x)) (pt_arcs (nets (c_net c)) (c_state c))) eqn:X.
      - left. apply existsb_exists in X. destruct X as (b & Hb & X). apply existsb_exists in X. destruct X as (k & Hk & X). apply Nat.eqb_eq in X. exists b. split; [exact Hb|]. rewrite X. exact Hk.
      - right. intros b Hb HI. rewrite <- Bool.not_true_iff_false in X. apply X. apply existsb_exists. exists b. split; [exact Hb|]. apply existsb_exists. exists (pa_in b). split; [exact HI|apply Nat.eqb_refl]. }
    destruct (al_default al) as [kd|] eqn:Ed in |- *.
    2:{ exists s4. split; [reflexivity|]. eapply Post_iff; [|exact Q1234]. intros h. rewrite Found, Std. split.
        - intros [H|(a & Ha & Hs & H)]; [left; exact H|]. right. exists x, a. split; [reflexivity|]. split; [split; [exact Ha|left; exact Hs]|exact H].
        - intros [H|(x' & a & X & (Ha & [Hs|(D & _)]) & H)]; [left; exact H| |congruence]. injection X as <-. right. eauto. }
    destruct (top_ok c s4 R4 (c_net c)) as (l4 & r4 & El4 & Et4). rewrite Et4. cbn [rbind].
    assert (K : ranked = true) by (destruct ranked; [reflexivity|pose proof (NoDefault eq_refl); congruence]).
    destruct (existsb (fun a => pa_in a =? kd) (pt_arcs (nets (c_net c)) (c_state c))) eqn:Xd.
    - (* there are default transitions *)
      apply existsb_exists in Xd. destruct Xd as (d & Hd & Xd). apply Nat.eqb_eq in Xd.
      assert (NF : filter (free al) (pt_arcs (nets (c_net c)) (c_state c)) = []).
      { destruct (filter (free al) (pt_arcs (nets (c_net c)) (c_state c))) as [|b bs] eqn:Y; [reflexivity|]. assert (HB : In b (filter (free al) (pt_arcs (nets (c_net c)) (c_state c)))) by (rewrite Y; left; reflexivity).
        apply filter_In in HB. destruct HB as (HB & FB). destruct (Sep K kd _ _ d b Ed Hd Xd HB) as (N1 & N2 & N3). unfold free in FB. rewrite N2, N3 in FB. rewrite (proj2 (Nat.eqb_neq _ _) N1) in FB. discriminate. }
      assert (T3 : trap_is (c_net c) true s3).
      { unfold take_epsilons in E2. rewrite NF in E2. cbn [rfor] in E2. injection E2 as <-. unfold trap_is. rewrite (L3 K). exact T1. }
      destruct Dec as [HD|HD].
      + (* another transition read the symbol *)
        destruct (TR2 (or_introl HD)) as (l & r & X & Y). assert (l = l4) by congruence. subst l. rewrite Y. exists s4. split; [reflexivity|].
        eapply Post_iff; [|exact Q1234]. intros h. rewrite Found, Std. split.
        * intros [H|(a & Ha & Hs & H)]; [left; exact H|]. right. exists x, a. split; [reflexivity|]. split; [split; [exact Ha|left; exact Hs]|exact H].
        * intros [H|(x' & a & X' & (Ha & [Hs|(D & N)]) & H)]; [left; exact H| |]; injection X' as <-; [right; eauto|]. destruct HD as (b & Hb & HI). destruct (N b Hb). apply tried_spec, HI.
      + specialize (TR1 HD). subst s4. destruct T3 as (l & r & X & Y). assert (l = l4) by congruence. subst l. rewrite Y.
        destruct (transitions_ok c s3 x kd R3) as (s5 & E5 & Q5). rewrite E5. exists s5. split; [reflexivity|].
        eapply Post_iff; [|eapply Post_trans; [exact Q1234|exact Q5]]. intros h. rewrite Found, Std. split.
        * intros [[H|(a & Ha & Hs & H)]|(a & Ha & Ek & H)]; [left; exact H| |].
          -- destruct (HD a Ha). apply tried_spec, Hs.
          -- right. exists x, a. split; [reflexivity|]. split; [split; [exact Ha|right; split; [congruence|]]|exact H]. intros b Hb Hs. apply (HD b Hb), tried_spec, Hs.
        * intros [H|(x' & a & X' & (Ha & [Hs|(D & N)]) & H)]; [left; left; exact H| |]; injection X' as <-; [left; right; eauto|]. right. exists a. split; [exact Ha|]. split; [congruence|exact H].
    - (* none *)
      assert (ND : filter (fun a => pa_in a =? kd) (pt_arcs (nets (c_net c)) (c_state c)) = []).
      { destruct (filter (fun a => pa_in a =? kd) (pt_arcs (nets (c_net c)) (c_state c))) as [|b bs] eqn:Y; [reflexivity|]. assert (HB : In b (filter (fun a => pa_in a =? kd) (pt_arcs (nets (c_net c)) (c_state c)))) by (rewrite Y; left; reflexivity).
        apply filter_In in HB. rewrite <- Bool.not_true_iff_false in Xd. destruct Xd. apply existsb_exists. exists b. exact HB. }
      assert (E5 : (if lv_trap l4 then take_transitions nets al rec kd (c_net c) (c_pos c) (length (c_out c)) x (c_state c) s4 else Ok s4) = Ok s4).
      { unfold take_transitions. rewrite ND. destruct (lv_trap l4); reflexivity. }
      rewrite E5. exists s4. split; [reflexivity|]. eapply Post_iff; [|exact Q1234]. intros h. rewrite Found, Std. split.
      + intros [H|(a & Ha & Hs & H)]; [left; exact H|]. right. exists x, a. split; [reflexivity|]. split; [split; [exact Ha|left; exact Hs]|exact H].
      + intros [H|(x' & a & X & (Ha & [Hs|(D & _)]) & H)]; [left; exact H| |]; injection X as <-; [right; eauto|].
        exfalso. assert (pa_in a = kd) by congruence. assert (Y : In a (filter (fun a => pa_in a =? kd) (pt_arcs (nets (c_net c)) (c_state c)))) by (apply filter_In; split; [exact Ha|apply Nat.eqb_eq; assumption]).
        rewrite ND in Y. destruct Y.
  Qed.
End Search.

Section Whole.
  Variable nets : nat -> ptrans.
  Variable al : palpha.
  Variable input : list nat.
  Variable mw : option Z.
  Variable locate : bool.
  Variable ranked : bool.
  Variable rank : nat -> nat.
  Hypothesis Rank : ranked = true -> forall T i a U, In a (pt_arcs (nets T) i) -> al_rtn al (pa_in a) = Some U -> rank U < rank T.
  Hypothesis Sep : ranked = true -> separate_defaults nets al.
  Hypothesis NoFlags : ranked = false -> no_flags nets al.
  Hypothesis NoDefault : ranked = false -> al_default al = None.

  Lemma get_analyses_ok : forall n c s, Rel ranked rank c s ->
    exists s', get_analyses nets al input mw locate n (c_net c) (c_pos c) (length (c_out c)) (c_state c) s = Ok s' /\ Post locate ranked c (found nets al input mw n c) s s'.
  Proof using Rank Sep NoFlags NoDefault.
    induction n as [|n IH]; intros c s R; cbn [get_analyses].
    - exists s. split; [destruct mw as [m|]; [destruct (m <? s_weight s)%Z|]; reflexivity|]. apply Post_refl. intros h H. inversion H.
    - destruct (match mw with Some m => (m <? s_weight s)%Z | None => false end) eqn:Em.
      + exists s. split; [reflexivity|]. apply Post_refl. intros h H. assert (A : affordable mw c) by (inversion H; assumption). unfold affordable in A. destruct mw as [m|]; [|discriminate].
        rewrite (r_weight _ _ _ _ R) in Em. apply Z.ltb_lt in Em. lia.
      + assert (A : affordable mw c).
        { unfold affordable. destruct mw as [m|]; [|exact I]. rewrite (r_weight _ _ _ _ R) in Em. apply Z.ltb_ge in Em. exact Em. }
        eapply body_ok; eassumption.
  Qed.
End Whole.
