(** Proofs about path extraction. *)
From Coq Require Import NArith Lia Sorting.Sorted.
From Verif Require Import Base OrdMap BT_Model BT_Proofs Flags_Model Flags_Spec Flags_Proofs LK_Model LK_Proofs Xp_Model Xp_Spec.

(** * The order of paths *)
Lemma pcmp_op x y : pcmp y x = CompOpp (pcmp x y).
Proof. unfold pcmp. rewrite (bcmp_op (fst x) (fst y)). destruct (bcmp (fst x) (fst y)); cbn; [apply bcmp_op|reflexivity|reflexivity]. Qed.
Lemma pcmp_trans x y z : pcmp x y = Lt -> pcmp y z = Lt -> pcmp x z = Lt.
Proof.
  unfold pcmp. destruct (bcmp (fst x) (fst y)) eqn:E1; [|intros _|discriminate]; destruct (bcmp (fst y) (fst z)) eqn:E2; try discriminate.
  - apply bcmp_eq in E1, E2. rewrite E1, E2, (proj2 (bcmp_eq _ _) eq_refl). apply bcmp_trans.
  - apply bcmp_eq in E1. rewrite E1, E2. intros _ _; reflexivity.
  - apply bcmp_eq in E2. rewrite <- E2, E1. reflexivity.
  - rewrite (bcmp_trans _ _ _ E1 E2). reflexivity.
Qed.
Lemma lpcmp_op x : forall y, lpcmp y x = CompOpp (lpcmp x y).
Proof.
  induction x as [|a x IH]; intros [|c y]; cbn [lpcmp]; try reflexivity. rewrite (pcmp_op a c). destruct (pcmp a c); cbn; [apply IH|reflexivity|reflexivity].
Qed.
Lemma pcmp_eq' x y : pcmp x y = Eq <-> x = y.
Proof.
  unfold pcmp. destruct x as [a b], y as [c d]; cbn [fst snd]. destruct (bcmp a c) eqn:E.
  - apply bcmp_eq in E as ->. rewrite bcmp_eq. split; congruence.
  - split; [discriminate|]. intros [= -> ->]. rewrite (proj2 (bcmp_eq _ _) eq_refl) in E. discriminate.
  - split; [discriminate|]. intros [= -> ->]. rewrite (proj2 (bcmp_eq _ _) eq_refl) in E. discriminate.
Qed.
Lemma lpcmp_trans x : forall y z, lpcmp x y = Lt -> lpcmp y z = Lt -> lpcmp x z = Lt.
Proof.
  induction x as [|a x IH]; intros [|c y] [|d z]; cbn [lpcmp]; try discriminate; try reflexivity.
  destruct (pcmp a c) eqn:E1; [|intros _|discriminate]; destruct (pcmp c d) eqn:E2; try discriminate.
  - apply pcmp_eq' in E1, E2. subst. rewrite (proj2 (pcmp_eq' _ _) eq_refl). apply IH.
  - apply pcmp_eq' in E1. rewrite E1, E2. reflexivity.
  - apply pcmp_eq' in E2. rewrite <- E2, E1. reflexivity.
  - rewrite (pcmp_trans _ _ _ E1 E2). reflexivity.
Qed.
Lemma tlpcmp_op x y : tlpcmp y x = CompOpp (tlpcmp x y).
Proof. unfold tlpcmp. rewrite (Z.compare_antisym (fst x) (fst y)). destruct (fst x ?= fst y)%Z; cbn; [apply lpcmp_op|reflexivity|reflexivity]. Qed.
Lemma tlpcmp_trans x y z : tlpcmp x y = Lt -> tlpcmp y z = Lt -> tlpcmp x z = Lt.
Proof.
  unfold tlpcmp. destruct (Z.compare_spec (fst x) (fst y)) as [E1|E1|E1]; [|intros _|discriminate];
    destruct (Z.compare_spec (fst y) (fst z)) as [E2|E2|E2]; try discriminate.
  - rewrite E1, E2, Z.compare_refl. apply lpcmp_trans.
  - intros _ _. rewrite E1. destruct (Z.compare_spec (fst y) (fst z)); [lia|reflexivity|lia].
  - intros _. rewrite <- E2. destruct (Z.compare_spec (fst x) (fst y)); [lia|reflexivity|lia].
  - intros _. destruct (Z.compare_spec (fst x) (fst z)); [lia|reflexivity|lia].
Qed.
Definition sorted_tlp (l : list tlp) : Prop := StronglySorted (klt tlpcmp) l.
Lemma sadd_sorted p l : sorted_tlp l -> sorted_tlp (sadd tlpcmp p l).
Proof. apply (sorted_sadd tlpcmp tlpcmp_trans tlpcmp_op) || apply (sorted_sadd tlpcmp tlpcmp_eq tlpcmp_trans tlpcmp_op). Qed.
Lemma sorted_nodup l : sorted_tlp l -> NoDup l.
Proof. apply (sorted_NoDup tlpcmp tlpcmp_eq) || apply (sorted_NoDup tlpcmp tlpcmp_eq tlpcmp_trans). Qed.

(** * Counting *)
Lemma filter_len {A} (f : A -> bool) l : length l = length (filter f l) + length (filter (fun x => negb (f x)) l).
Proof. induction l as [|a l IH]; [reflexivity|]. cbn. destruct (f a); cbn; lia. Qed.
Lemma count_filter_le (f : nat -> bool) l x : count_occ Nat.eq_dec (filter f l) x <= count_occ Nat.eq_dec l x.
Proof. induction l as [|a l IH]; [reflexivity|]. cbn. destruct (f a); cbn; destruct (Nat.eq_dec a x); lia. Qed.
Lemma pigeon cap n : forall l, (forall x, In x l -> x < n) -> (forall x, count_occ Nat.eq_dec l x <= cap) -> length l <= n * cap.
Proof.
  induction n as [|n IH]; intros l L C.
  - destruct l as [|a l]; [cbn; lia|]. specialize (L a (or_introl eq_refl)). lia.
  - rewrite (filter_len (fun x => x =? n) l).
    assert (H1 : length (filter (fun x => x =? n) l) <= cap).
    { specialize (C n). etransitivity; [|exact C]. clear. induction l as [|a l IH]; [reflexivity|]. cbn.
      destruct (Nat.eqb_spec a n), (Nat.eq_dec a n); cbn; lia. }
    assert (H2 : length (filter (fun x => negb (x =? n)) l) <= n * cap).
    { apply IH; [|intros x; etransitivity; [apply count_filter_le|apply C]].
      intros x I. apply filter_In in I as [I N]. specialize (L x I). apply Bool.negb_true_iff, Nat.eqb_neq in N. lia. }
    cbn. lia.
Qed.

Lemma In_insert_arc v a c l : In a (insert_arc v c l) <-> a = c \/ In a l.
Proof.
  induction l as [|d l IH]; cbn [insert_arc]; [cbn; intuition|]. destruct (_ <? _)%N; cbn [In]; [intuition|]. rewrite IH. intuition.
Qed.
Lemma In_sorted_arcs v l a : In a (sorted_arcs v l) <-> In a l.
Proof.
  unfold sorted_arcs. assert (G : forall l acc, In a (fold_left (fun acc a => insert_arc v a acc) l acc) <-> In a l \/ In a acc).
  { clear l. induction l as [|c l IH]; intros acc; cbn [fold_left In]; [intuition|]. rewrite IH, In_insert_arc. intuition. }
  rewrite G. cbn. intuition.
Qed.

Lemma visits_visit_same v s : visits_of (visit v s) s = ((visits_of v s + 1) mod 65536)%N.
Proof. unfold visit, visits_of at 1. rewrite (mget_mset_same _ Nat.compare_eq_iff). reflexivity. Qed.
Lemma visits_visit_other v s x : x <> s -> visits_of (visit v s) x = visits_of v x.
Proof. intros N. unfold visit, visits_of at 1. rewrite (mget_mset_other _ Nat.compare_eq_iff) by auto. reflexivity. Qed.

(** * The callback *)
Fixpoint process (m : Z) (l : list (tlp * bool)) (acc : list tlp) : bool * list tlp :=
  match l with
  | [] => (true, acc)
  | (p, f) :: r => let x := strings_cb m acc p f in if fst (snd x) then process m r (fst x) else (false, fst x)
  end.
Lemma process_app m l1 : forall l2 acc, process m (l1 ++ l2) acc =
  let x := process m l1 acc in if fst x then process m l2 (snd x) else x.
Proof.
  induction l1 as [|[p f] l1 IH]; intros l2 acc; [reflexivity|]. cbn [process app]. cbn zeta.
  destruct (fst (snd (strings_cb m acc p f))); [apply IH|reflexivity].
Qed.
Lemma process_spec m l : forall acc c acc', process m l acc = (c, acc') ->
  incl acc acc' /\ (forall p, In p acc' -> In p acc \/ In (p, true) l) /\
  (sorted_tlp acc -> sorted_tlp acc') /\
  (c = true -> forall p, In (p, true) l -> In p acc') /\
  (c = false -> (1 <= m <= Z.of_nat (length acc'))%Z) /\
  ((Z.of_nat (length acc) < m -> Z.of_nat (length acc') <= m)%Z) /\
  ((1 <= m)%Z -> c = true -> l <> [] -> (Z.of_nat (length acc') < m)%Z).
Proof.
  induction l as [|[p f] l IH]; intros acc c acc' E; cbn [process] in E.
  { injection E as <- <-. repeat split; auto; try discriminate; try easy. intros; lia. }
  unfold strings_cb in E. cbn [fst snd] in E.
  set (a1 := if f then sadd tlpcmp p acc else acc) in *.
  assert (A1 : forall q, In q a1 <-> In q acc \/ f = true /\ q = p).
  { intros q. unfold a1. destruct f; [rewrite (In_sadd tlpcmp tlpcmp_eq)|]; intuition; discriminate. }
  assert (A2 : sorted_tlp acc -> sorted_tlp a1) by (intros S1; unfold a1; destruct f; [apply sadd_sorted|]; exact S1).
  assert (A3 : length a1 <= S (length acc)) by (unfold a1; destruct f; [apply length_sadd|lia]).
  destruct ((m <? 1) || (Z.of_nat (length a1) <? m))%Z eqn:C.
  - destruct (IH _ _ _ E) as (I1 & I2 & I3 & I4 & I5 & I6 & I7).
    apply Bool.orb_true_iff in C. rewrite !Z.ltb_lt in C.
    split; [intros q Q; apply I1, A1; auto|]. split.
    { intros q Q. destruct (I2 q Q) as [K|K]; [apply A1 in K as [K|[-> ->]]; [auto|right; left; reflexivity]|right; right; exact K]. }
    split; [auto|]. split.
    { intros Ct q [Q|Q]; [|auto]. injection Q as -> ->. apply I1, A1. auto. }
    split; [exact I5|]. split.
    + intros Lt0. apply I6. lia.
    + intros Hm Hc _. destruct l as [|x l]; [|apply I7; auto; discriminate]. cbn in E. injection E as <- <-. lia.
  - injection E as <- <-. apply Bool.orb_false_iff in C. rewrite !Z.ltb_ge in C.
    split; [intros q Q; apply A1; auto|]. split.
    { intros q Q. apply A1 in Q as [Q|[-> ->]]; [auto|right; left; reflexivity]. }
    split; [auto|]. split; [discriminate|]. split; [intros; lia|]. split; [intros; lia|discriminate].
Qed.

(** * The search as a list of calls *)
Section Calls.
  Variable t : tfst.
  Variable cycles : Z.
  Variable tab : option fdtable.
  Variable filter_fd : bool.

  Fixpoint calls_loop (rec : larc -> option fdstate -> bstr * bstr -> res (list (tlp * bool))) (fd : option fdstate)
      (l : list larc) : res (list (tlp * bool)) :=
    match l with
    | [] => Ok []
    | a :: r =>
        rbind (follow tab a fd) (fun o =>
          match o with
          | None => calls_loop rec fd r
          | Some fd' =>
              rbind (string_of t tab filter_fd (l_in a)) (fun i => rbind (string_of t tab filter_fd (l_out a)) (fun o' =>
                rbind (rec a fd' (i, o')) (fun x => rbind (calls_loop rec fd r) (fun y => Ok (x ++ y)))))
          end)
    end.
  Fixpoint calls (fuel : nat) (s : nat) (v : visits) (w : Z) (fd : option fdstate) (spv : list (bstr * bstr))
      {struct fuel} : res (list (tlp * bool)) :=
    match fuel with
    | 0 => Diverge
    | S f =>
        if ((0 <=? cycles) && (cycles <? Z.of_N (visits_of v s)))%Z then Ok []
        else
          let v' := visit v s in
          rbind (calls_loop (fun a fd' p => calls f (l_to a) v' (w + l_w a) fd' (spv ++ [p])) fd
              (sorted_arcs v' (t_arcs t s)))
            (fun y => Ok (match spv with
                          | [] => y
                          | _ :: _ => ((w + match t_final t s with Some z => z | None => 0 end)%Z, spv,
                                       match t_final t s with Some _ => true | None => false end) :: y
                          end))
    end.

  Lemma extract_calls m fuel : forall s v w fd spv L acc,
    calls fuel s v w fd spv = Ok L -> extract t (strings_cb m) cycles tab filter_fd fuel s v w fd spv acc = Ok (process m L acc).
  Proof.
    induction fuel as [|f IH]; intros s v w fd spv L acc E; [discriminate|]. cbn [calls extract] in *.
    destruct ((0 <=? cycles) && (cycles <? Z.of_N (visits_of v s)))%Z; [injection E as <-; reflexivity|].
    set (v' := visit v s) in *.
    assert (G : forall l L' acc, calls_loop (fun a fd' p => calls f (l_to a) v' (w + l_w a) fd' (spv ++ [p])) fd l = Ok L' ->
      arc_loop t tab filter_fd (fun a fd' p acc => extract t (strings_cb m) cycles tab filter_fd f (l_to a) v' (w + l_w a) fd' (spv ++ [p]) acc) fd l acc
        = Ok (process m L' acc)).
    { induction l as [|a l IHl]; intros L' acc' E'; cbn [calls_loop arc_loop] in *; [injection E' as <-; reflexivity|].
      destruct (follow tab a fd) as [o| | |]; try discriminate. cbn [rbind] in *. destruct o as [fd'|]; [|apply IHl; exact E'].
      destruct (string_of t tab filter_fd (l_in a)) as [i| | |]; try discriminate. cbn [rbind] in *.
      destruct (string_of t tab filter_fd (l_out a)) as [o'| | |]; try discriminate. cbn [rbind] in *.
      destruct (calls f (l_to a) v' (w + l_w a) fd' (spv ++ [(i, o')])) as [x| | |] eqn:Ex; try discriminate. cbn [rbind] in *.
      destruct (calls_loop _ fd l) as [y| | |] eqn:Ey; try discriminate. cbn [rbind] in E'. injection E' as <-.
      rewrite (IH _ _ _ _ _ _ acc' Ex). cbn [rbind]. rewrite process_app. cbn zeta.
      destruct (process m x acc') as [c acc1] eqn:Ep; cbn [fst snd]. destruct c; [|reflexivity]. apply IHl. reflexivity. }
    destruct (calls_loop _ fd _) as [y| | |] eqn:Ey; try discriminate. cbn [rbind] in E. injection E as <-.
    destruct spv as [|p0 spv']; [apply G; exact Ey|]. cbn [process]. unfold strings_cb at 1 3. cbn [fst snd].
    cbn [negb]. rewrite Bool.orb_false_r.
    destruct ((m <? 1) || (Z.of_nat (length _) <? m))%Z eqn:C; cbn [negb]; [|reflexivity]. apply G. exact Ey.
  Qed.

  (** What the flags do along a path; None: the path is cut. *)
  Fixpoint fd_run (fd : option fdstate) (q : list larc) : option (option fdstate) :=
    match q with
    | [] => Some fd
    | a :: r => match follow tab a fd with Ok (Some fd') => fd_run fd' r | _ => None end
    end.
  Definition str (k : nat) : bstr := match string_of t tab filter_fd k with Ok x => x | _ => [] end.
  Definition strs (q : list larc) : list (bstr * bstr) := map (fun a => (str (l_in a), str (l_out a))) q.
  Definition wsum (q : list larc) : Z := fold_right (fun a z => (l_w a + z)%Z) 0%Z q.

  Hypothesis Hfilter : filter_fd = true -> tab <> None.
  Variable J : option fdstate -> Prop.
  Hypothesis Hsafe : forall s a fd, In a (t_arcs t s) -> J fd ->
    exists o, follow tab a fd = Ok o /\ match o with Some fd' => J fd' | None => True end.

  Lemma string_of_ok k : string_of t tab filter_fd k = Ok (str k).
  Proof.
    unfold str, string_of. destruct filter_fd; [|reflexivity]. destruct tab as [tb|]; [|exfalso; apply (Hfilter eq_refl); reflexivity].
    destruct (mget Nat.compare k (operations tb)); reflexivity.
  Qed.

  Variable s0 : nat.
  Variable cap : nat.
  Hypothesis Hcap16 : (N.of_nat cap <= 65535)%N.
  Hypothesis Hcap : forall q u, tpath t s0 q u -> (0 <= cycles)%Z /\ cap = Z.to_nat cycles + 1 \/
    (cycles < 0)%Z /\ forall x, count_occ Nat.eq_dec (trail s0 q) x <= cap.

  Definition comp (h : list nat) (s : nat) (w : Z) (fd : option fdstate) (spv : list (bstr * bstr)) (r : tlp) : Prop :=
    exists q u z fd', tpath t s q u /\ t_final t u = Some z /\ fd_run fd q = Some fd' /\
      ((0 <= cycles)%Z -> forall x, count_occ Nat.eq_dec (h ++ trail s q) x <= Z.to_nat cycles + 1) /\
      spv ++ strs q <> [] /\ r = ((w + wsum q + z)%Z, spv ++ strs q).

  Lemma tpath_snoc s q u a : tpath t s q u -> In a (t_arcs t u) -> tpath t s (q ++ [a]) (l_to a).
  Proof. induction 1 as [s|s b q u I P IH]; intros Ia; cbn; econstructor; eauto; try constructor. Qed.

  Lemma calls_spec fuel : forall s h v w fd spv q0,
    (forall x, visits_of v x = N.of_nat (count_occ Nat.eq_dec h x)) ->
    (forall x, In x h -> x < length (t_states t)) ->
    (forall x, count_occ Nat.eq_dec h x <= cap) ->
    tpath t s0 q0 s -> h ++ [s] = trail s0 q0 ->
    length (t_states t) * cap + 2 <= length h + fuel -> J fd ->
    exists L, calls fuel s v w fd spv = Ok L /\ forall r, In (r, true) L <-> comp h s w fd spv r.
  Proof.
    induction fuel as [|f IH]; intros s h v w fd spv q0 V Hh Hc P T F HJ.
    { pose proof (pigeon cap _ h Hh Hc). lia. }
    cbn [calls]. rewrite (V s).
    assert (C0 : forall x, count_occ Nat.eq_dec (h ++ [s]) x = count_occ Nat.eq_dec h x + (if Nat.eq_dec s x then 1 else 0)).
    { intros x. rewrite count_occ_app. cbn. destruct (Nat.eq_dec s x); lia. }
    destruct ((0 <=? cycles) && (cycles <? Z.of_N (N.of_nat (count_occ Nat.eq_dec h s))))%Z eqn:Cy.
    { exists []. split; [reflexivity|]. intros r. split; [easy|]. intros (q & u & z & fd' & Pq & _ & _ & B & _).
      apply Bool.andb_true_iff in Cy as [C1 C2]. apply Z.leb_le in C1. apply Z.ltb_lt in C2. specialize (B C1 s).
      unfold trail in B. rewrite count_occ_app in B. cbn [count_occ] in B. destruct (Nat.eq_dec s s); [|congruence]. lia. }
    assert (C1 : forall x, count_occ Nat.eq_dec (h ++ [s]) x <= cap).
    { intros x. destruct (Hcap q0 s P) as [[H1 H2]|[H1 H2]]; [|rewrite T; apply H2].
      rewrite C0. destruct (Nat.eq_dec s x) as [<-|]; [|specialize (Hc x); lia].
      apply Bool.andb_false_iff in Cy as [Cy|Cy]; [apply Z.leb_gt in Cy; lia|]. apply Z.ltb_ge in Cy. lia. }
    assert (C2 : (0 <= cycles)%Z -> forall x, count_occ Nat.eq_dec (h ++ [s]) x <= Z.to_nat cycles + 1).
    { intros H0 x. destruct (Hcap q0 s P) as [[H1 H2]|[H1 H2]]; [|lia]. rewrite <- H2. apply C1. }
    assert (V' : forall x, visits_of (visit v s) x = N.of_nat (count_occ Nat.eq_dec (h ++ [s]) x)).
    { intros x. rewrite C0. destruct (Nat.eq_dec s x) as [<-|N].
      - rewrite visits_visit_same, V. pose proof (C1 s) as K. rewrite C0 in K. destruct (Nat.eq_dec s s); [|congruence].
        rewrite N.mod_small; lia.
      - rewrite visits_visit_other by congruence. rewrite V. f_equal. lia. }
    set (v' := visit v s) in *.
    assert (G : forall l, (forall a, In a l -> In a (t_arcs t s)) ->
      exists L', calls_loop (fun a fd' p => calls f (l_to a) v' (w + l_w a) fd' (spv ++ [p])) fd l = Ok L' /\
        forall r, In (r, true) L' <-> exists a fd', In a l /\ follow tab a fd = Ok (Some fd') /\
          comp (h ++ [s]) (l_to a) (w + l_w a) fd' (spv ++ [(str (l_in a), str (l_out a))]) r).
    { induction l as [|a l IHl]; intros Hl.
      { exists []. split; [reflexivity|]. intros r; split; [easy|]. intros (a & fd' & [] & _). }
      destruct (IHl (fun x I => Hl x (or_intror I))) as (L2 & E2 & S2). clear IHl. cbn [calls_loop].
      pose proof (Hl a (or_introl eq_refl)) as Ia.
      destruct (Hsafe _ a fd Ia HJ) as (o & Eo & Jo). rewrite Eo. cbn [rbind]. destruct o as [fd'|].
      - rewrite !string_of_ok. cbn [rbind].
        assert (Sn : s < length (t_states t)).
        { destruct (Nat.ltb_spec s (length (t_states t))) as [Lt|Ge]; [exact Lt|]. unfold t_arcs in Ia. rewrite nth_overflow in Ia by exact Ge. destruct Ia. }
        destruct (IH (l_to a) (h ++ [s]) v' (w + l_w a)%Z fd' (spv ++ [(str (l_in a), str (l_out a))]) (q0 ++ [a])) as (L1 & E1 & S1).
        + exact V'.
        + intros x I. apply in_app_or in I as [I|[<-|[]]]; [apply Hh; exact I|exact Sn].
        + exact C1.
        + apply tpath_snoc with (u := s); [exact P|exact Ia].
        + rewrite T. unfold trail. rewrite map_app. reflexivity.
        + rewrite app_length. cbn [length]. lia.
        + exact Jo.
        + rewrite E1. cbn [rbind]. rewrite E2. cbn [rbind]. exists (L1 ++ L2). split; [reflexivity|]. intros r. rewrite in_app_iff, S1, S2. split.
          * intros [K|(b & fdb & Ib & K)]; [exists a, fd'; split; [left; reflexivity|]; auto|exists b, fdb; split; [right; exact Ib|]; exact K].
          * intros (b & fdb & [<-|Ib] & K1 & K2); [left; rewrite Eo in K1; injection K1 as <-; exact K2|right; exists b, fdb; auto].
      - exists L2. split; [exact E2|]. intros r. rewrite S2. split; intros (b & fdb & Ib & K1 & K2).
        + exists b, fdb. split; [right; exact Ib|]. auto.
        + destruct Ib as [<-|Ib]; [rewrite Eo in K1; discriminate|]. exists b, fdb. auto. }
    destruct (G (sorted_arcs v' (t_arcs t s))) as (L & E & SL); [intros a I; apply In_sorted_arcs in I; exact I|].
    rewrite E. cbn [rbind]. eexists. split; [reflexivity|]. intros r.
    assert (CA : comp h s w fd spv r <-> (exists z, t_final t s = Some z /\ spv <> [] /\ r = ((w + z)%Z, spv)) \/
      exists a fd', In a (t_arcs t s) /\ follow tab a fd = Ok (Some fd') /\
          comp (h ++ [s]) (l_to a) (w + l_w a) fd' (spv ++ [(str (l_in a), str (l_out a))]) r).
    { split.
      - intros (q & u & z & fd' & Pq & Fz & Rq & B & Ne & ->). inversion Pq as [s' Hs|s' a q' u' I Pq' Hs]; subst.
        + left. exists z. cbn in Ne. cbn [strs map] in *. rewrite app_nil_r in *. split; [exact Fz|]. split; [exact Ne|]. cbn [wsum fold_right]. f_equal. lia.
        + right. cbn [fd_run] in Rq. destruct (follow tab a fd) as [[fd1|]| | |] eqn:Ef; try discriminate.
          exists a, fd1. split; [exact I|]. split; [exact Ef|]. exists q', u, z, fd'. split; [exact Pq'|]. split; [exact Fz|]. split; [exact Rq|].
          split; [intros H0 x; specialize (B H0 x); unfold trail in *; cbn [map] in B; rewrite <- app_assoc; exact B|].
          cbn [strs map]. rewrite <- app_assoc. split; [destruct spv; discriminate|]. cbn [app wsum fold_right]. f_equal. fold (wsum q'). lia.
      - intros [(z & Fz & Ne & ->)|(a & fd1 & I & Ef & q & u & z & fd' & Pq & Fz & Rq & B & Ne & ->)].
        + exists [], s, z, fd. split; [constructor|]. split; [exact Fz|]. split; [reflexivity|]. split.
          * intros H0 x. unfold trail. cbn [map]. apply C2. exact H0.
          * cbn [strs map]. rewrite app_nil_r. split; [exact Ne|]. cbn [wsum fold_right]. f_equal. lia.
        + exists (a :: q), u, z, fd'. split; [econstructor; [exact I|exact Pq]|]. split; [exact Fz|].
          split; [cbn [fd_run]; rewrite Ef; exact Rq|].
          split; [intros H0 x; specialize (B H0 x); unfold trail in *; cbn [map]; rewrite <- app_assoc in B; exact B|].
          cbn [strs map]. rewrite <- app_assoc in *. split; [exact Ne|]. cbn [app wsum fold_right]. f_equal. fold (wsum q). lia. }
    rewrite CA. assert (SL' : In (r, true) L <-> exists a fd', In a (t_arcs t s) /\ follow tab a fd = Ok (Some fd') /\
          comp (h ++ [s]) (l_to a) (w + l_w a) fd' (spv ++ [(str (l_in a), str (l_out a))]) r).
    { rewrite SL. split; intros (a & fd' & I & K); exists a, fd'; rewrite In_sorted_arcs in *; auto. }
    destruct spv as [|p0 spv'].
    - rewrite SL'. split; [auto|]. intros [(z & _ & Ne & _)|K]; [congruence|exact K].
    - cbn [In]. rewrite SL'. split.
      + intros [K|K]; [|auto]. left. destruct (t_final t s) as [z|]; [|congruence]. injection K as <-. exists z. split; [reflexivity|]. split; [discriminate|reflexivity].
      + intros [(z & Fz & _ & ->)|K]; [left; rewrite Fz; reflexivity|auto].
  Qed.
End Calls.
