(** Languages: substitutions, insertions, completion. *)
From Verif Require Import Base Flags_Model BT_Model BT_Spec BT_Proofs BT_Proofs2.
From Coq Require Import Permutation Sorted.

Lemma run_app g s l1 w1 t l2 w2 u : run g s l1 w1 t -> run g t l2 w2 u -> run g s (l1 ++ l2) (w1 + w2) u.
Proof.
  intros H1 H2. induction H1 as [s|s a l w t Ha H1 IH]; [exact H2|]. simpl. rewrite <- Z.add_assoc. constructor; auto.
Qed.
Lemma run_app_inv g l1 : forall s l2 w u, run g s (l1 ++ l2) w u ->
  exists w1 w2 t, run g s l1 w1 t /\ run g t l2 w2 u /\ w = (w1 + w2)%Z.
Proof.
  induction l1 as [|p l1 IH]; intros s l2 w u H; simpl in H.
  - exists 0%Z, w, s. split; [constructor|]. split; [exact H|lia].
  - inversion H as [|s' a l w' t Ha Hr]; subst. apply IH in Hr. destruct Hr as (w1 & w2 & t & R1 & R2 & ->).
    exists (wt a + w1)%Z, w2, t. split; [constructor; assumption|]. split; [exact R2|lia].
Qed.
Lemma run_bound g s l w t : structure_ok g -> run g s l w t -> s < length (sts g) -> t < length (sts g).
Proof. intros (_ & H & _) R. induction R as [s|s a l w t Ha R IH]; [auto|]. intros _. apply IH. exact (H s a Ha). Qed.

Lemma run_ext g g' : sts g' = sts g -> forall s l w t, run g' s l w t <-> run g s l w t.
Proof.
  intros E s l w t. split; intros R; induction R as [s|s a l w t Ha R IH]; try constructor; try exact IH.
  - rewrite <- E. exact Ha.
  - rewrite E. exact Ha.
Qed.
Lemma accepts_ext g g' : sts g' = sts g -> fin g' = fin g -> forall l w, accepts g' l w <-> accepts g l w.
Proof.
  intros E F l w. unfold accepts. rewrite F. split; intros (t & v & f & R & H); exists t, v, f; (split; [|exact H]); apply (run_ext g g' E); exact R.
Qed.

(** * Relabelling *)
Lemma run_mapped (R : bstr * bstr -> bstr * bstr -> Prop) g g' :
  (forall s a', In a' (nth s (sts g') []) <-> exists a q, In a (nth s (sts g) []) /\ R (label a) q /\ a' = relabel a q) ->
  forall s l' w t, run g' s l' w t <-> exists l, run g s l w t /\ mapped R l l'.
Proof.
  intros A s l' w t. split.
  - intros H. induction H as [s|s a' l' w t Ha H (l & IH1 & IH2)].
    + exists []. split; constructor.
    + apply A in Ha. destruct Ha as (a & q & Ha & HR & ->). exists (label a :: l). split.
      * exact (run_cons g s a l w t Ha IH1).
      * constructor; [|exact IH2]. destruct q. exact HR.
  - intros (l & H & M). revert l' M. induction H as [s|s a l w t Ha H IH]; intros l' M; inversion M as [|x q y l2 HR M']; subst.
    + constructor.
    + assert (Hq : In (relabel a q) (nth s (sts g') [])) by (apply A; exists a, q; auto).
      replace q with (isy (relabel a q), osy (relabel a q)) by (destruct q; reflexivity).
      exact (run_cons g' s (relabel a q) l2 w t Hq (IH _ M')).
Qed.
Lemma accepts_mapped R g g' : fin g' = fin g ->
  (forall s a', In a' (nth s (sts g') []) <-> exists a q, In a (nth s (sts g) []) /\ R (label a) q /\ a' = relabel a q) ->
  forall l' w, accepts g' l' w <-> exists l, accepts g l w /\ mapped R l l'.
Proof.
  intros F A l' w. unfold accepts. rewrite F. split.
  - intros (t & v & f & H & Hf & ->). apply (run_mapped R g g' A) in H. destruct H as (l & H & M). exists l. split; [|exact M].
    exists t, v, f. auto.
  - intros (l & (t & v & f & H & Hf & ->) & M). exists t, v, f. split; [|auto]. apply (run_mapped R g g' A). eauto.
Qed.
Lemma mapped_fun (f : bstr * bstr -> bstr * bstr) l l' : mapped (fun p q => q = f p) l l' <-> l' = map f l.
Proof.
  split.
  - intros M. induction M as [|p q l l' E M IH]; simpl; congruence.
  - intros ->. induction l; constructor; auto.
Qed.
Lemma accepts_relabelled (f : bstr * bstr -> bstr * bstr) g g' : fin g' = fin g ->
  (forall s, nth s (sts g') [] = map (fun a => relabel a (f (label a))) (nth s (sts g) [])) ->
  forall l' w, accepts g' l' w <-> exists l, accepts g l w /\ l' = map f l.
Proof.
  intros F A l' w. rewrite (accepts_mapped (fun p q => q = f p) g g' F).
  - split; intros (l & H & M); exists l; split; auto; apply mapped_fun; exact M.
  - intros s a'. rewrite A, in_map_iff. split; [intros (a & <- & Ha); eauto 6|]. intros (a & q & Ha & -> & ->). eauto.
Qed.
Lemma arc_eta a : Arc (tgt a) (isy a) (osy a) (wt a) = a.
Proof. destruct a; reflexivity. Qed.
Lemma relabel_label a : relabel a (label a) = a.
Proof. destruct a; reflexivity. Qed.

(** * insert_freely *)
Lemma run_inserted ps w0 g g' : structure_ok g -> insert_freely ps w0 g = Ok g' ->
  forall s l' w t, s < length (sts g) ->
   (run g' s l' w t <-> exists l v u, run g s l v t /\
      inserted_path (fun m x => exists p, In p ps /\ m = [p] /\ x = w0) l l' u /\ w = (v + u)%Z).
Proof.
  intros G E. unfold insert_freely in E. destruct (existsb _ _); [discriminate|]. injection E as <-.
  set (g' := with_sts _ _). destruct (add_pairs_sts g ps) as [Es _].
  assert (A : forall s, s < length (sts g) -> nth s (sts g') [] = nth s (sts g) [] ++ map (fun p => Arc s (fst p) (snd p) w0) ps).
  { intros s Hs. unfold g'. cbn [sts with_sts]. rewrite add_loops_nth, Es. apply Nat.ltb_lt in Hs. rewrite Hs. reflexivity. }
  intros s l' w t Hs. split.
  - intros H. induction H as [s|s a l' w t Ha H IH].
    + exists [], 0%Z, 0%Z. repeat constructor.
    + rewrite A in Ha by exact Hs. apply in_app_iff in Ha. destruct Ha as [Ha|Ha].
      * destruct (IH (proj1 (proj2 G) s a Ha)) as (l & v & u & R & I & ->).
        exists ((isy a, osy a) :: l), (wt a + v)%Z, u. split; [constructor; assumption|]. split; [constructor; exact I|lia].
      * apply in_map_iff in Ha. destruct Ha as (p & <- & Hp). simpl in *. destruct (IH Hs) as (l & v & u & R & I & ->).
        exists l, v, (w0 + u)%Z. split; [exact R|]. split; [|lia].
        apply (ins_more _ [(fst p, snd p)] w0 l l' u); [|exact I]. exists p. destruct p; auto.
  - intros (l & v & u & R & I & ->). revert s v t R Hs. induction I as [|q l l' u I IH|m x l l' u (p & Hp & -> & ->) I IH]; intros s v t R Hs.
    + inversion R; subst. constructor.
    + inversion R as [|s' a l0 v' t' Ha R']; subst. rewrite <- Z.add_assoc. constructor.
      * rewrite A by exact Hs. apply in_app_iff. auto.
      * apply IH; [exact R'|]. exact (proj1 (proj2 G) s a Ha).
    + simpl. replace (v + (w0 + u))%Z with (w0 + (v + u))%Z by lia. destruct p as [i o].
      apply (run_cons g' s (Arc s i o w0)); [|apply IH; assumption].
      rewrite A by exact Hs. apply in_app_iff. right. apply in_map_iff. exists (i, o). auto.
Qed.
Lemma structure_zero g : structure_ok g -> 0 < length (sts g).
Proof. intros (H & _). destruct (sts g); [congruence|simpl; lia]. Qed.

(** * add_substitution *)
Lemma arcs_fold_add k : forall l (f : arc -> arc) g t,
  arcs (fold_left (fun g a => add_transition g k (f a) true) l g) t = if t =? k then arcs g k ++ map f l else arcs g t.
Proof.
  induction l as [|a l IH]; intros f g t; simpl.
  - destruct (Nat.eqb_spec t k) as [->|]; rewrite ?app_nil_r; reflexivity.
  - rewrite IH. rewrite !arcs_add_transition, Nat.eqb_refl. destruct (t =? k); [rewrite <- app_assoc|]; reflexivity.
Qed.
Definition shift (n : nat) (a : arc) : arc := Arc (tgt a + n) (isy a) (osy a) (wt a).
Lemma arcs_copy_arcs ls : forall g off k t,
  arcs (copy_arcs g off k ls) t =
  arcs g t ++ (if k + off <=? t then map (shift off) (nth (t - (k + off)) ls []) else []).
Proof.
  induction ls as [|l ls IH]; intros g off k t; cbn [copy_arcs].
  - destruct (_ <=? t); [|symmetry; apply app_nil_r]. destruct (t - _); simpl; symmetry; apply app_nil_r.
  - rewrite IH. rewrite (arcs_fold_add (k + off) l (shift off)). destruct (Nat.eqb_spec t (k + off)) as [->|N].
    + rewrite Nat.leb_refl, Nat.sub_diag. destruct (Nat.leb_spec (S k + off) (k + off)); [lia|]. apply app_nil_r.
    + f_equal. destruct (Nat.leb_spec (S k + off) t), (Nat.leb_spec (k + off) t); try lia; [|reflexivity].
      replace (t - (k + off)) with (S (t - (S k + off))) by lia. reflexivity.
Qed.
Definition leaving (t : nat) (f : list (nat * Z)) (k : nat) : list arc :=
  flat_map (fun '(s, w) => if s =? k then [Arc t EPS EPS w] else []) f.
Lemma arcs_leave_arcs f : forall g off tg t,
  arcs (leave_arcs g off tg f) t = arcs g t ++ (if off <=? t then leaving tg f (t - off) else []).
Proof.
  unfold leave_arcs. induction f as [|[s w] f IH]; intros g off tg t; cbn [fold_left].
  - destruct (off <=? t); symmetry; apply app_nil_r.
  - rewrite IH, arcs_add_transition. unfold leaving at 2. cbn [flat_map].
    destruct (Nat.eqb_spec t (s + off)) as [->|N].
    + destruct (Nat.leb_spec off (s + off)); [|lia]. replace (s + off - off) with s by lia. rewrite Nat.eqb_refl, <- app_assoc. reflexivity.
    + f_equal. destruct (Nat.leb_spec off t); [|reflexivity]. destruct (Nat.eqb_spec s (t - off)); [lia|]. reflexivity.
Qed.
Lemma fin_fold {A} (f : graph -> A -> graph) l : (forall g x, fin (f g x) = fin g) -> forall g, fin (fold_left f l g) = fin g.
Proof. intros H. induction l as [|x l IH]; intros g; simpl; [reflexivity|]. rewrite IH. apply H. Qed.
Lemma fin_copy_arcs ls : forall g off k, fin (copy_arcs g off k ls) = fin g.
Proof. induction ls as [|l ls IH]; intros g off k; simpl; [reflexivity|]. rewrite IH. apply fin_fold. reflexivity. Qed.
Lemma fin_leave_arcs f g off t : fin (leave_arcs g off t f) = fin g.
Proof. apply fin_fold. intros g' [s w]. reflexivity. Qed.
Lemma fin_add_substitution g s : fin (add_substitution g s) = fin g.
Proof. unfold add_substitution. destruct (add_state g) eqn:E. injection E as <- <-. rewrite fin_leave_arcs, fin_copy_arcs. reflexivity. Qed.
Lemma arcs_add_substitution g s t : s_origin s < length (sts g) ->
  arcs (add_substitution g s) t =
  if t <? length (sts g)
  then arcs g t ++ (if t =? s_origin s then [Arc (length (sts g)) EPS EPS (s_weight s)] else [])
  else map (shift (length (sts g))) (arcs (s_graph s) (t - length (sts g))) ++
       leaving (s_target s) (fin (s_graph s)) (t - length (sts g)).
Proof.
  intros L. unfold add_substitution, add_state. set (n := length (sts g)) in *. set (g1 := with_sts g (sts g ++ [[]])).
  assert (A1 : forall u, arcs g1 u = arcs g u) by (intros u; exact (arcs_add_state g u)).
  rewrite arcs_leave_arcs, arcs_copy_arcs, arcs_add_transition, !A1. simpl (0 + n).
  destruct (Nat.ltb_spec t n) as [K|K].
  - destruct (Nat.leb_spec n t); [lia|]. rewrite !app_nil_r. destruct (Nat.eqb_spec t (s_origin s)) as [->|]; [reflexivity|symmetry; apply app_nil_r].
  - destruct (Nat.leb_spec n t); [|lia]. destruct (Nat.eqb_spec t (s_origin s)); [lia|].
    assert (E : arcs g t = []) by (unfold arcs; apply nth_overflow; exact K). rewrite E. reflexivity.
Qed.
Lemma length_fold_add k : forall l (f : arc -> arc) g, length (sts g) <= length (sts (fold_left (fun g a => add_transition g k (f a) true) l g)).
Proof. induction l as [|a l IH]; intros f g; simpl; [lia|]. eapply Nat.le_trans; [|apply IH]. rewrite length_add_transition. lia. Qed.
Lemma length_copy_arcs ls : forall g off k, length (sts g) <= length (sts (copy_arcs g off k ls)).
Proof.
  induction ls as [|l ls IH]; intros g off k; cbn [copy_arcs]; [lia|]. eapply Nat.le_trans; [|apply IH]. apply (length_fold_add _ l (shift off)).
Qed.
Lemma length_leave_arcs f : forall g off t, length (sts g) <= length (sts (leave_arcs g off t f)).
Proof.
  unfold leave_arcs. induction f as [|[s w] f IH]; intros g off t; cbn [fold_left]; [lia|].
  eapply Nat.le_trans; [|apply IH]. rewrite length_add_transition. lia.
Qed.
Lemma length_add_substitution g s : length (sts g) <= length (sts (add_substitution g s)).
Proof.
  unfold add_substitution, add_state. eapply Nat.le_trans; [|apply length_leave_arcs]. eapply Nat.le_trans; [|apply length_copy_arcs].
  rewrite length_add_transition. simpl. rewrite app_length. lia.
Qed.
Lemma leaving_In t f k a : map_ok (Graph [] f []) -> (In a (leaving t f k) <-> exists w, mget Nat.compare k f = Some w /\ a = Arc t EPS EPS w).
Proof.
  unfold map_ok. cbn [fin]. induction f as [|[s w] f IH]; intros M.
  - simpl. split; [tauto|]. intros (w & E & _). discriminate.
  - unfold leaving. cbn [flat_map mget]. rewrite in_app_iff. fold (leaving t f k). inversion M as [|x y M1 M2]; subst. rewrite (IH M1).
    rewrite (Nat.eqb_sym s k). destruct (Nat.compare k s) eqn:C.
    + apply Nat.compare_eq_iff in C. subst k. rewrite Nat.eqb_refl. simpl. split.
      * intros [[<-|[]]|(v & E & _)]; [eauto|]. exfalso.
        apply (mget_In Nat.compare Nat.compare_eq_iff) in E. rewrite Forall_forall in M2. apply (in_map fst) in E. apply M2 in E. simpl in E. lia.
      * intros (v & E & ->). injection E as ->. auto.
    + apply Nat.compare_lt_iff in C. destruct (Nat.eqb_spec k s); [lia|]. simpl. tauto.
    + apply Nat.compare_gt_iff in C. destruct (Nat.eqb_spec k s); [lia|]. simpl. tauto.
Qed.

(** Runs that may also use pending substitutions. *)
Inductive hrun (g : graph) (H : list substitution) : nat -> list (bstr * bstr) -> Z -> nat -> Prop :=
| hr_nil s : hrun g H s [] 0 s
| hr_arc s a l w t : In a (arcs g s) -> hrun g H (tgt a) l w t -> hrun g H s (label a :: l) (wt a + w) t
| hr_sub x m v l w t : In x H -> padded (s_graph x) m v -> hrun g H (s_target x) l w t ->
    hrun g H (s_origin x) (m ++ l) (s_weight x + v + w) t.
Definition sub_ok (n : nat) (x : substitution) : Prop :=
  s_origin x < n /\ s_target x < n /\ map_ok (s_graph x) /\ structure_ok (s_graph x).
Definition EE : bstr * bstr := (EPS, EPS).

Lemma run_shifted g x H k m v k' : s_origin x < length (sts g) -> run (s_graph x) k m v k' ->
  forall l w t, hrun (add_substitution g x) H (k' + length (sts g)) l w t ->
  hrun (add_substitution g x) H (k + length (sts g)) (m ++ l) (v + w) t.
Proof.
  intros L R. induction R as [k|k a m v k' Ha R IH]; intros l w t Hr; [exact Hr|]. simpl. rewrite <- Z.add_assoc.
  apply (hr_arc (add_substitution g x) H (k + length (sts g)) (shift (length (sts g)) a)).
  - rewrite arcs_add_substitution by exact L. destruct (Nat.ltb_spec (k + length (sts g)) (length (sts g))); [lia|].
    apply in_app_iff. left. replace (k + length (sts g) - length (sts g)) with k by lia. apply in_map. exact Ha.
  - apply IH. exact Hr.
Qed.
Lemma hrun_add_substitution g x H : structure_ok g -> sub_ok (length (sts g)) x -> Forall (sub_ok (length (sts g))) H ->
  forall s l w t, s < length (sts g) -> t < length (sts g) ->
  (hrun (add_substitution g x) H s l w t <-> hrun g (x :: H) s l w t).
Proof.
  intros G (X1 & X2 & X3 & X4) HH s l w t Hs Ht. set (n := length (sts g)) in *. set (g' := add_substitution g x). split.
  - intros R. enough (K : (s < n -> hrun g (x :: H) s l w t) /\
      (forall k, s = k + n -> exists m v f k' l2 w2, run (s_graph x) k m v k' /\ mget Nat.compare k' (fin (s_graph x)) = Some f /\
         l = m ++ EE :: l2 /\ w = (v + f + w2)%Z /\ hrun g (x :: H) (s_target x) l2 w2 t)) by (apply K; exact Hs).
    clear Hs. induction R as [s|s a l w t Ha R IH|y m v l w t Hy P R IH].
    + split; [intros; constructor|]. intros k ->. lia.
    + specialize (IH Ht). destruct IH as [IH1 IH2]. unfold g' in Ha. rewrite arcs_add_substitution in Ha by exact X1. fold n in Ha. split.
      * intros Hs. destruct (Nat.ltb_spec s n); [|lia]. apply in_app_iff in Ha. destruct Ha as [Ha|Ha].
        -- apply hr_arc; [exact Ha|]. apply IH1. exact (proj1 (proj2 G) s a Ha).
        -- destruct (Nat.eqb_spec s (s_origin x)) as [->|]; [|destruct Ha]. destruct Ha as [<-|[]].
           cbn [tgt wt] in *. change (label _) with (EPS, EPS). destruct (IH2 0 eq_refl) as (m & v & f & k' & l2 & w2 & R1 & F & -> & -> & R2).
           replace (s_weight x + (v + f + w2))%Z with (s_weight x + (v + f) + w2)%Z by lia.
           replace ((EPS, EPS) :: m ++ EE :: l2) with ((EE :: m ++ [EE]) ++ l2)
             by (rewrite <- app_comm_cons, <- app_assoc; reflexivity).
           apply (hr_sub g (x :: H) x); [left; reflexivity| |exact R2].
           exists m. split; [|reflexivity]. exists k', v, f. auto.
      * intros k ->. destruct (Nat.ltb_spec (k + n) n); [lia|]. replace (k + n - n) with k in Ha by lia.
        apply in_app_iff in Ha. destruct Ha as [Ha|Ha].
        -- apply in_map_iff in Ha. destruct Ha as (b & <- & Hb). destruct (IH2 (tgt b) eq_refl) as (m & v & f & k' & l2 & w2 & R1 & F & -> & -> & R2).
           exists (label b :: m), (wt b + v)%Z, f, k', l2, w2. split; [constructor; assumption|]. split; [exact F|]. split; [reflexivity|].
           split; [simpl; lia|exact R2].
        -- apply leaving_In in Ha; [|exact X3]. destruct Ha as (f & F & ->). cbn [tgt wt label isy osy] in *.
           exists [], 0%Z, f, k, l, w. split; [constructor|]. split; [exact F|]. split; [reflexivity|]. split; [lia|]. apply IH1. exact X2.
    + specialize (IH Ht). destruct IH as [IH1 _]. rewrite Forall_forall in HH. destruct (HH y Hy) as (Y1 & Y2 & _). split.
      * intros _. apply hr_sub; [right; exact Hy|exact P|]. apply IH1. exact Y2.
      * intros k E. lia.
  - intros R. induction R as [s|s a l w t Ha R IH|y m v l w t Hy P R IH].
    + constructor.
    + apply hr_arc.
      * unfold g'. rewrite arcs_add_substitution by exact X1. fold n. destruct (Nat.ltb_spec s n); [|lia]. apply in_app_iff. auto.
      * apply IH; [|exact Ht]. exact (proj1 (proj2 G) s a Ha).
    + destruct Hy as [<-|Hy].
      * destruct P as (m0 & (k' & v0 & f & R0 & F & ->) & ->).
        change (EE :: m0 ++ [EE]) with ([EE] ++ m0 ++ [EE]). 
        replace (s_weight x + (v0 + f) + w)%Z with (s_weight x + (v0 + (f + w)))%Z by lia.
        change (hrun g' H (s_origin x) (((label (Arc n EPS EPS (s_weight x))) :: m0 ++ [EE]) ++ l) (wt (Arc n EPS EPS (s_weight x)) + (v0 + (f + w))) t).
        rewrite <- app_comm_cons, <- app_assoc. apply hr_arc.
        -- unfold g'. rewrite arcs_add_substitution by exact X1. fold n. destruct (Nat.ltb_spec (s_origin x) n); [|lia].
           apply in_app_iff. right. rewrite Nat.eqb_refl. left. reflexivity.
        -- cbn [tgt]. apply (run_shifted g x H 0 m0 v0 k' X1 R0 ([EE] ++ l) (f + w)%Z t).
           apply (hr_arc g' H (k' + n) (Arc (s_target x) EPS EPS f)); [|apply IH; [exact X2|exact Ht]].
           unfold g'. rewrite arcs_add_substitution by exact X1. fold n. destruct (Nat.ltb_spec (k' + n) n); [lia|].
           apply in_app_iff. right. apply leaving_In; [exact X3|]. exists f. replace (k' + n - n) with k' by lia. auto.
      * rewrite Forall_forall in HH. destruct (HH y Hy) as (Y1 & Y2 & _). apply hr_sub; [exact Hy|exact P|]. apply IH; [exact Y2|exact Ht].
Qed.
Lemma hrun_nil g s l w t : hrun g [] s l w t <-> run g s l w t.
Proof.
  split.
  - intros R. induction R as [s|s a l w t Ha R IH|y m v l w t [] P R IH]; constructor; assumption.
  - intros R. induction R as [s|s a l w t Ha R IH]; [constructor|]. apply (hr_arc g [] s a); assumption.
Qed.
Lemma sub_ok_mono n n' x : n <= n' -> sub_ok n x -> sub_ok n' x.
Proof. unfold sub_ok. intros L (H1 & H2 & H3). repeat split; try lia; apply H3. Qed.
Lemma run_substs subs : forall g, structure_ok g -> Forall (sub_ok (length (sts g))) subs ->
  forall s l w t, s < length (sts g) -> t < length (sts g) ->
  (run (fold_left add_substitution subs g) s l w t <-> hrun g subs s l w t).
Proof.
  induction subs as [|x subs IH]; intros g G HS s l w t Hs Ht; cbn [fold_left].
  - symmetry. apply hrun_nil.
  - inversion HS as [|y z HX HR]; subst. pose proof (length_add_substitution g x) as L. rewrite IH.
    + apply hrun_add_substitution; assumption.
    + apply structure_add_substitution. exact G.
    + eapply Forall_impl; [|exact HR]. intros y. apply sub_ok_mono. exact L.
    + lia.
    + lia.
Qed.
Lemma fin_substs subs g : fin (fold_left add_substitution subs g) = fin g.
Proof. apply fin_fold. intros g' x. apply fin_add_substitution. Qed.

(** Collected substitutions against the original graph. *)
Lemma collect_In f : forall ls k x, In x (collect f k ls) <->
  exists s a h, In a (nth s ls []) /\ f a = Some h /\ x = Subst (k + s) (tgt a) (wt a) h.
Proof.
  induction ls as [|l ls IH]; intros k x; cbn [collect].
  - split; [intros []|]. intros (s & a & h & Ha & _). destruct s; destruct Ha.
  - rewrite in_app_iff, IH, in_flat_map. split.
    + intros [(a & Ha & Hx)|(s & a & h & Ha & Ef & ->)].
      * destruct (f a) as [h|] eqn:Ef; [|destruct Hx]. destruct Hx as [<-|[]]. exists 0, a, h. rewrite Nat.add_0_r. auto.
      * exists (S s), a, h. replace (k + S s) with (S k + s) by lia. auto.
    + intros ([|s] & a & h & Ha & Ef & ->).
      * left. exists a. rewrite Ef, Nat.add_0_r. simpl. auto.
      * right. exists s, a, h. replace (S k + s) with (k + S s) by lia. auto.
Qed.
Lemma hrun_collect (F : bstr * bstr -> option graph) (f : arc -> option graph) g g1 : (forall a, In a (concat (sts g)) -> f a = F (label a)) ->
  (forall s a, In a (arcs g1 s) <-> In a (arcs g s) /\ f a = None) ->
  forall s l' w t, hrun g1 (collect f 0 (sts g)) s l' w t <->
    exists l v u, run g s l v t /\ replaced_path F l l' u /\ w = (v + u)%Z.
Proof.
  intros EF A s l' w t. split.
  - intros R. induction R as [s|s a l' w t Ha R (l & v & u & R1 & P & ->)|y m x l' w t Hy P R (l & v & u & R1 & P1 & ->)].
    + exists [], 0%Z, 0%Z. repeat constructor.
    + apply A in Ha. destruct Ha as [Ha Ef]. exists (label a :: l), (wt a + v)%Z, u. split; [constructor; assumption|]. split; [|lia].
      constructor; [|exact P]. rewrite <- EF; [exact Ef|]. apply In_concat_nth. exists s. exact Ha.
    + apply collect_In in Hy. destruct Hy as (s & a & h & Ha & Ef & ->). cbn [s_graph s_target s_weight s_origin] in *.
      exists (label a :: l), (wt a + v)%Z, (x + u)%Z. split; [constructor; assumption|]. split; [|lia].
      apply (rpl_subst F (label a) h); [|exact P|exact P1]. rewrite <- EF; [exact Ef|]. apply In_concat_nth. exists s. exact Ha.
  - intros (l & v & u & R & P & ->). revert s v t R. induction P as [|q l l' u Fq P IH|q h m x l l' u Fq Pm P IH]; intros s v t R.
    + inversion R; subst. constructor.
    + inversion R as [|s' a l0 v' t' Ha R']; subst. rewrite <- Z.add_assoc. apply (hr_arc g1 _ s a).
      * apply A. split; [exact Ha|]. rewrite EF; [exact Fq|]. apply In_concat_nth. exists s. exact Ha.
      * apply IH. exact R'.
    + inversion R as [|s' a l0 v' t' Ha R']; subst. replace (wt a + v' + (x + u))%Z with (wt a + x + (v' + u))%Z by lia.
      apply (hr_sub g1 _ (Subst s (tgt a) (wt a) h)).
      * apply collect_In. exists s, a, h. split; [exact Ha|]. split; [|reflexivity]. rewrite EF; [exact Fq|]. apply In_concat_nth. exists s. exact Ha.
      * exact Pm.
      * apply IH. exact R'.
Qed.
Lemma collect_ok f g : structure_ok g -> (forall a h, In a (concat (sts g)) -> f a = Some h -> map_ok h /\ structure_ok h) ->
  Forall (sub_ok (length (sts g))) (collect f 0 (sts g)).
Proof.
  intros G Hh. apply Forall_forall. intros x Hx. apply collect_In in Hx. destruct Hx as (s & a & h & Ha & Ef & ->).
  assert (Hc : In a (concat (sts g))) by (apply In_concat_nth; eauto).
  destruct (Hh a h Hc Ef) as [M S]. split; [|split; [|split; assumption]]; cbn [s_origin s_target].
  - simpl. apply (arcs_In_length g s a). exact Ha.
  - exact (proj1 (proj2 G) s a Ha).
Qed.
(** Substituting and adding: the common core of the two substitutions by transducers. *)
Lemma accepts_substs F f g g1 : structure_ok g -> fin g1 = fin g -> length (sts g1) = length (sts g) ->
  (forall a, In a (concat (sts g)) -> f a = F (label a)) ->
  (forall a h, In a (concat (sts g)) -> f a = Some h -> map_ok h /\ structure_ok h) ->
  (forall s a, In a (arcs g1 s) <-> In a (arcs g s) /\ f a = None) ->
  forall l' w, accepts (fold_left add_substitution (collect f 0 (sts g)) g1) l' w <->
    exists l v u, accepts g l v /\ replaced_path F l l' u /\ w = (v + u)%Z.
Proof.
  intros G Fi L EF Hh A l' w.
  assert (G1 : structure_ok g1).
  { apply (structure_same g); [exact G|exact L|exact Fi|]. intros s a Ha. apply A in Ha. exists a. tauto. }
  pose proof (structure_zero g1 G1) as Z0. unfold accepts at 1. rewrite fin_substs, Fi. split.
  - intros (t & v & x & R & Hf & ->). apply run_substs in R;
      [|exact G1|rewrite L; apply collect_ok; assumption|exact Z0|rewrite L; exact (proj2 (proj2 G) t x Hf)].
    apply (hrun_collect F f g g1 EF A) in R. destruct R as (l & v1 & u & R & P & ->). exists l, (v1 + x)%Z, u. split; [|split; [exact P|lia]].
    exists t, v1, x. auto.
  - intros (l & v & u & (t & v1 & x & R & Hf & ->) & P & ->). exists t, (v1 + u)%Z, x. split; [|split; [exact Hf|lia]].
    apply run_substs; [exact G1|rewrite L; apply collect_ok; assumption|exact Z0|rewrite L; exact (proj2 (proj2 G) t x Hf)|].
    apply (hrun_collect F f g g1 EF A). exists l, v1, u. auto.
Qed.

(** * map_ok over histories *)
Lemma map_ok_mset (f : list (nat * Z)) s w : StronglySorted lt (map fst f) -> StronglySorted lt (map fst (mset Nat.compare s w f)).
Proof.
  induction f as [|[k v] f IH]; intros M; cbn [mset map fst].
  - repeat constructor.
  - inversion M as [|x y M1 M2]; subst. destruct (Nat.compare s k) eqn:C; cbn [map fst].
    + apply Nat.compare_eq_iff in C. subst. constructor; assumption.
    + apply Nat.compare_lt_iff in C. constructor; [exact M|]. constructor; [exact C|]. eapply Forall_impl; [|exact M2]. intros z Hz. simpl in *. lia.
    + apply Nat.compare_gt_iff in C. constructor; [apply IH; exact M1|]. apply Forall_forall. intros z Hz. apply in_map_iff in Hz.
      destruct Hz as ([z1 z2] & <- & Hz). apply In_mset in Hz. destruct Hz as [E|Hz]; [injection E as -> ->; exact C|].
      rewrite Forall_forall in M2. apply M2. apply in_map_iff. exists (z1, z2). auto.
Qed.
Lemma map_ok_mdel (f : list (nat * Z)) s : StronglySorted lt (map fst f) -> StronglySorted lt (map fst (mdel Nat.compare s f)).
Proof.
  assert (I : forall (f : list (nat * Z)) x, In x (mdel Nat.compare s f) -> In x f).
  { clear f. induction f as [|[k v] f IH]; intros x; cbn [mdel]; [tauto|]. destruct (Nat.compare s k); simpl; firstorder. }
  induction f as [|[k v] f IH]; intros M; cbn [mdel map fst]; [constructor|].
  inversion M as [|x y M1 M2]; subst. destruct (Nat.compare s k); [auto| |]; cbn [map fst];
    (constructor; [apply IH; exact M1|]; apply Forall_forall; intros z Hz; apply in_map_iff in Hz; destruct Hz as (q & <- & Hz);
     apply I in Hz; rewrite Forall_forall in M2; apply M2; apply in_map; exact Hz).
Qed.
