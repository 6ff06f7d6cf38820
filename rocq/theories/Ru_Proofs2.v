(** Proofs about the rule functions: the public restrictions and the unconditional replacement. *)
From Coq Require Import Lia.
From Verif Require Import Base BT_Model Ru_Model Ru_Spec Ru_Proofs.

Lemma never_any al p : ~ In p al -> never p (l_any al).
Proof. intros N w (v & F & ->) H. apply filter_In in H. destruct H as (H & _). rewrite Forall_forall in F. auto. Qed.
Lemma combine_fst_snd (w : list pair) : combine (map fst w) (map snd w) = w.
Proof. induction w as [|[a b] w IH]; [reflexivity|]. cbn. f_equal. exact IH. Qed.
Lemma input_surface mapping al w : ~ In EE al -> no_epsilons mapping ->
  (l_comp (l_input mapping) (l_any al) w <-> over al w /\ same_input mapping w).
Proof.
  intros Na Ne. assert (F : forall v, mapping v -> filter keep (map (fun p : pair => (fst p, fst p)) v) = map (fun p => (fst p, fst p)) v).
  { intros v V. apply filter_out_id. intros H. apply in_map_iff in H. destruct H as (p & E & Hp).
    apply (Ne v p) in Hp; [|exact V]. apply (proj1 Hp). injection E as E. exact E. }
  split.
  - intros (v1 & v2 & (v & V & ->) & V2 & E & ->). rewrite F in * by exact V. apply l_any_over in V2; [|exact Na].
    rewrite map_map in *. cbn [fst snd] in *. rewrite E. rewrite combine_fst_snd. split; [exact V2|]. exists v. auto.
  - intros (O & v & V & E). exists (map (fun p => (fst p, fst p)) v), w. split; [exists v; split; [exact V|symmetry; apply F; exact V]|].
    split; [apply l_any_over; assumption|]. rewrite !map_map. cbn [fst snd]. split; [exact E|]. etransitivity; [symmetry; apply combine_fst_snd|]. f_equal. symmetry. exact E.
Qed.
Lemma output_deep mapping al w : ~ In EE al -> no_epsilons mapping ->
  (l_comp (l_any al) (l_output mapping) w <-> over al w /\ same_output mapping w).
Proof.
  intros Na Ne. assert (F : forall v, mapping v -> filter keep (map (fun p : pair => (snd p, snd p)) v) = map (fun p => (snd p, snd p)) v).
  { intros v V. apply filter_out_id. intros H. apply in_map_iff in H. destruct H as (p & E & Hp).
    apply (Ne v p) in Hp; [|exact V]. apply (proj2 Hp). injection E as E. exact E. }
  split.
  - intros (v1 & v2 & V1 & (v & V & ->) & E & ->). rewrite F in * by exact V. apply l_any_over in V1; [|exact Na].
    rewrite map_map in *. cbn [fst snd] in *. rewrite <- E. rewrite combine_fst_snd. split; [exact V1|]. exists v. auto.
  - intros (O & v & V & E). exists w, (map (fun p => (snd p, snd p)) v). split; [apply l_any_over; assumption|].
    split; [exists v; split; [exact V|symmetry; apply F; exact V]|]. rewrite !map_map. cbn [fst snd]. split; [symmetry; exact E|].
    etransitivity; [symmetry; apply combine_fst_snd|]. f_equal. symmetry. exact E.
Qed.

(** What each kind of rule says, given which strings of the right place trigger it. *)
Definition rule_says (ty : twol_type) contexts trigger mapping w : Prop :=
  match ty with
  | twol_right => restricted contexts mapping w
  | twol_left => coerced contexts trigger mapping w
  | twol_both => restricted contexts mapping w /\ coerced contexts trigger mapping w
  end.
Definition trigger_of (direction : Z) (mapping : plang) : plang :=
  if (direction =? 0)%Z then fun _ => True else if (direction =? 1)%Z then same_input mapping else same_output mapping.
Lemma coerced_ext contexts t1 t2 mapping al w : over al w -> (forall m, over al m -> (t1 m <-> t2 m)) ->
  coerced contexts t1 mapping w <-> coerced contexts t2 mapping w.
Proof.
  intros O E. unfold coerced. split; intros H x m y -> C T; (apply (H x m y eq_refl C)); apply E; try exact T;
    apply over_app in O; destruct O as (_ & O); apply over_app in O; apply O.
Qed.
Lemma restriction_iff contexts mapping al ty direction : contexts <> [] -> ~ In EE al -> ~ In MM al -> never MM mapping ->
  (forall c, In c contexts -> never MM (fst c) /\ never MM (snd c)) ->
  (forall c, In c contexts -> decided (fst c) /\ decided (snd c)) -> decided mapping ->
  (direction <> 0%Z -> no_epsilons mapping) ->
  exists r after, restriction contexts mapping al ty direction = Ok (r, after) /\
    forall w, r w <-> over al w /\ rule_says ty contexts (trigger_of direction mapping) mapping w.
Proof.
  intros Nc Na Ma Mm Mc Dc Dm Ne. unfold restriction. destruct contexts as [|c0 cs]; [contradiction|]. set (contexts := c0 :: cs) in *.
  set (tm := if (direction =? 0)%Z then (l_any al, mapping) else if (direction =? 1)%Z then (l_comp (l_input mapping) (l_any al), l_comp (l_input mapping) (l_any al))
    else (l_comp (l_any al) (l_output mapping), l_output mapping)).
  assert (T : forall m, fst tm m <-> over al m /\ trigger_of direction mapping m).
  { intros m. unfold tm, trigger_of. destruct (direction =? 0)%Z eqn:E0; [cbn [fst]; rewrite l_any_over by exact Na; tauto|].
    apply Z.eqb_neq in E0. destruct (direction =? 1)%Z; cbn [fst]; [apply input_surface|apply output_deep]; auto. }
  destruct tm as (tmp & after) eqn:Et. cbn [fst] in T.
  assert (Mt : never MM tmp).
  { intros w W H. apply T in W. apply Ma. apply (proj1 W). exact H. }
  assert (R : forall w, l_sub (l_any al) (l_erase MARK (l_sub (restriction_center mapping al)
      (fold_left (fun acc c => l_or acc (restriction_context tmp al c)) contexts l_none))) w <-> over al w /\ restricted contexts mapping w).
  { intros w. apply right_iff; try assumption. intros m O M. apply T. split; [exact O|]. unfold trigger_of.
    destruct (direction =? 0)%Z; [exact I|]. destruct (direction =? 1)%Z; exists m; auto. }
  assert (L : forall w, l_sub (l_any al) (l_erase MARK (l_sub (fold_left (fun acc c => l_or acc (restriction_context tmp al c)) contexts l_none)
      (restriction_center mapping al))) w <-> over al w /\ coerced contexts (trigger_of direction mapping) mapping w).
  { intros w. rewrite left_iff by assumption. split; (intros (O & C); split; [exact O|]);
      (eapply coerced_ext; [exact O| |exact C]); intros m Om; rewrite T; tauto. }
  eexists. eexists. split; [reflexivity|]. intros w. destruct ty; cbn [rule_says].
  - apply R.
  - apply L.
  - unfold l_and. rewrite R, L. tauto.
Qed.

(** * Replacement *)
Definition ids (x : list bstr) : list pair := map (fun a => (a, a)) x.
Lemma ids_app x y : ids (x ++ y) = ids x ++ ids y.
Proof. apply map_app. Qed.
Lemma ids_inj x y : ids x = ids y -> x = y.
Proof. revert y; induction x as [|a x IH]; intros [|b y] E; try discriminate; [reflexivity|]. cbn in E. injection E as -> _ E. f_equal. apply IH. exact E. Qed.
Lemma ids_split x u v : ids x = u ++ v -> exists x1 x2, x = x1 ++ x2 /\ u = ids x1 /\ v = ids x2.
Proof. intros E. apply map_eq_app in E. destruct E as (x1 & x2 & -> & <- & <-). exists x1, x2. auto. Qed.
Lemma over_ids al w : over (ids al) w <-> exists x, w = ids x /\ incl x al.
Proof.
  split.
  - induction w as [|p w IH]; intros O; [exists []; split; [reflexivity|intros a []]|].
    destruct IH as (x & -> & I); [intros q Hq; apply O; right; exact Hq|]. assert (H : In p (ids al)) by (apply O; left; reflexivity).
    apply in_map_iff in H. destruct H as (a & <- & Ha). exists (a :: x). split; [reflexivity|]. intros b [<-|Hb]; [exact Ha|apply I; exact Hb].
  - intros (x & -> & I) p H. apply in_map_iff in H. destruct H as (a & <- & Ha). apply (in_map (fun a : bstr => (a, a))). apply I. exact Ha.
Qed.
Lemma no_EE_ids al : ~ In EPS al -> ~ In EE (ids al).
Proof. intros N H. apply in_map_iff in H. destruct H as (a & E & Ha). injection E as ->. auto. Qed.
Lemma filter_pairs (f : pair -> bstr) m : filter keep (map (fun p => (f p, f p)) m) = ids (filter (fun x => negb (bstr_eqb x EPS)) (map f m)).
Proof.
  induction m as [|p m IH]; [reflexivity|]. cbn [map filter]. unfold pair_eqb at 1. cbn [fst snd]. rewrite andb_diag.
  destruct (bstr_eqb (f p) EPS); cbn [negb]; [exact IH|]. unfold ids in *. cbn [map]. f_equal. exact IH.
Qed.
Definition side_of (ty : replace_type) : list pair -> list bstr := match ty with REPL_UP => read | REPL_DOWN => written end.
Lemma proj_iff t ty w : (match ty with REPL_UP => l_input t | REPL_DOWN => l_output t end) w <-> exists m, t m /\ w = ids (side_of ty m).
Proof.
  destruct ty; split.
  - intros (v & V & ->). exists v. split; [exact V|]. apply (filter_pairs fst).
  - intros (v & V & ->). exists v. split; [exact V|]. symmetry. apply (filter_pairs fst).
  - intros (v & V & ->). exists v. split; [exact V|]. apply (filter_pairs snd).
  - intros (v & V & ->). exists v. split; [exact V|]. symmetry. apply (filter_pairs snd).
Qed.
Lemma tc_neg_iff t ty al w : ~ In EPS al ->
  let t_proj := match ty with REPL_UP => l_input t | REPL_DOWN => l_output t end in
  let pi_star := l_any (ids al) in
  (l_sub pi_star (l_cat (l_cat pi_star t_proj) pi_star) w <-> exists x, w = ids x /\ incl x al /\ nothing_in (side_of ty) t x).
Proof.
  intros N. cbn zeta. assert (Na := no_EE_ids al N). unfold l_sub. rewrite l_any_over, over_ids by exact Na. split.
  - intros ((x & -> & I) & H). exists x. split; [reflexivity|]. split; [exact I|]. intros m M (y & z & ->). apply H.
    exists (ids (y ++ side_of ty m)), (ids z). split; [rewrite app_assoc; apply ids_app|]. split.
    + exists (ids y), (ids (side_of ty m)). split; [apply ids_app|]. split; [|apply proj_iff; exists m; auto].
      apply l_any_over; [exact Na|]. apply over_ids. exists y. split; [reflexivity|]. intros a Ha. apply I. apply in_app_iff. auto.
    + apply l_any_over; [exact Na|]. apply over_ids. exists z. split; [reflexivity|]. intros a Ha. apply I. rewrite !in_app_iff. auto.
  - intros (x & -> & I & H). split; [exists x; auto|]. intros (a & b & E & (c & d & -> & _ & D) & _). apply proj_iff in D. destruct D as (m & M & ->).
    apply ids_split in E. destruct E as (x1 & x2 & -> & E & ->). symmetry in E. apply ids_split in E. destruct E as (x3 & x4 & -> & -> & E).
    apply ids_inj in E. subst x4. apply (H m M). exists x3, x2. rewrite app_assoc. reflexivity.
Qed.
Lemma replace_iff t ty al w : ~ In EPS al -> (replace t ty false (ids al) w <-> replacing (side_of ty) t al w).
Proof.
  intros N. unfold replace. cbn zeta. pose proof (tc_neg_iff t ty al) as G. cbn zeta in G.
  set (neg := l_sub _ _) in *. assert (G' : forall w, neg w <-> exists x, w = ids x /\ incl x al /\ nothing_in (side_of ty) t x) by (intros v; apply G; exact N).
  split.
  - intros (u & v & -> & U & V). apply G' in V. destruct V as (x & -> & I & H).
    induction U as [|u v (p & m & -> & P & M) U IH].
    + apply rp_end; assumption.
    + apply G' in P. destruct P as (y & -> & Iy & Hy). rewrite <- !app_assoc. apply rp_more; assumption.
  - intros R. induction R as [x I H|x m w I H M R IH].
    + exists [], (ids x). split; [reflexivity|]. split; [constructor|]. apply G'. exists x. auto.
    + destruct IH as (u & v & -> & U & V). exists ((ids x ++ m) ++ u), v. split; [unfold ids; rewrite <- !app_assoc; reflexivity|].
      split; [|exact V]. constructor; [|exact U]. exists (ids x), m. split; [reflexivity|]. split; [apply G'; exists x; auto|exact M].
Qed.
Definition noeps (x : list bstr) := filter (fun a => negb (bstr_eqb a EPS)) x.
Lemma noeps_id x : ~ In EPS x -> noeps x = x.
Proof.
  induction x as [|a x IH]; intros N; [reflexivity|]. unfold noeps. cbn [filter]. destruct (bstr_eqb a EPS) eqn:E.
  - apply bstr_eqb_eq in E. subst. exfalso. apply N. left. reflexivity.
  - cbn [negb]. f_equal. apply IH. intros H. apply N. right. exact H.
Qed.
Lemma side_app ty u v : side_of ty (u ++ v) = side_of ty u ++ side_of ty v.
Proof. destruct ty; cbn [side_of]; unfold read, written; rewrite map_app, filter_app; reflexivity. Qed.
Lemma side_ids ty x : ~ In EPS x -> side_of ty (ids x) = x.
Proof. intros N. destruct ty; cbn [side_of]; unfold read, written, ids; rewrite map_map; cbn [fst snd]; rewrite map_id; apply (noeps_id x N). Qed.
Lemma no_eps_incl (x al : list bstr) : ~ In EPS al -> incl x al -> ~ In EPS x.
Proof. intros N I H. auto. Qed.
(** A string with an occurrence has a part without one followed by an occurrence. *)
Section First.
  Variable P : list bstr -> Prop.
  Hypothesis D : forall u, P u \/ ~ P u.
  Hypothesis Ne : ~ P [].
  Lemma suffix_dec u : (exists x y, u = x ++ y /\ P y) \/ (forall x y, u = x ++ y -> ~ P y).
  Proof.
    induction u as [|a u IH].
    - right. intros x y E. symmetry in E. apply app_eq_nil in E. destruct E as (-> & ->). exact Ne.
    - destruct IH as [(x & y & -> & H)|H]; [left; exists (a :: x), y; auto|].
      destruct (D (a :: u)) as [K|K]; [left; exists [], (a :: u); auto|].
      right. intros [|b x] y E; [cbn in E; subst y; exact K|]. injection E as -> E. exact (H x y E).
  Qed.
  Lemma first_occurrence u : (forall y, P y -> ~ factor y u) \/
    exists x y z, u = x ++ y ++ z /\ P y /\ forall y', P y' -> ~ factor y' x.
  Proof.
    induction u as [|a u IH] using rev_ind.
    - left. intros y Hy (x & z & E). symmetry in E. apply app_eq_nil in E. destruct E as (_ & E). apply app_eq_nil in E. destruct E as (-> & _). auto.
    - destruct IH as [IH|(x & y & z & -> & Hy & H)].
      + destruct (suffix_dec (u ++ [a])) as [(x & y & E & Hy)|N].
        * right. exists x, y, []. rewrite app_nil_r. split; [exact E|]. split; [exact Hy|].
          intros y' Hy' (v & w & ->). destruct y as [|b y] using rev_ind; [contradiction|clear IHy].
          rewrite !app_assoc in E. apply app_inj_tail in E. destruct E as (E & ->).
          apply (IH y' Hy'). exists v, (w ++ y). rewrite E, <- !app_assoc. reflexivity.
        * left. intros y Hy (v & w & E). destruct w as [|b w] using rev_ind.
          -- rewrite app_nil_r in E. exact (N v y E Hy).
          -- clear IHw. rewrite !app_assoc in E. apply app_inj_tail in E. destruct E as (E & ->). apply (IH y Hy). exists v, w. rewrite E, <- app_assoc. reflexivity.
      + right. exists x, y, (z ++ [a]). rewrite <- !app_assoc. auto.
  Qed.
End First.
Lemma replacing_total t ty al : ~ In EPS al -> (forall u, (exists m, t m /\ side_of ty m = u) \/ ~ (exists m, t m /\ side_of ty m = u)) ->
  (forall m, t m -> side_of ty m <> []) ->
  forall u, incl u al -> exists w, replacing (side_of ty) t al w /\ side_of ty w = u.
Proof.
  intros N D Ne u. remember (length u) as n eqn:En. revert u En. induction n as [n IH] using lt_wf_ind. intros u -> I.
  destruct (first_occurrence (fun v => exists m, t m /\ side_of ty m = v) D) with (u := u) as [H|(x & y & z & -> & (m & M & E) & H)].
  - intros (m & M & E). exact (Ne m M E).
  - exists (ids u). split; [|apply side_ids; exact (no_eps_incl u al N I)]. apply rp_end; [exact I|]. intros m M. apply (H (side_of ty m)). exists m. auto.
  - assert (Ix : incl x al) by (intros a Ha; apply I; apply in_app_iff; auto).
    assert (Iz : incl z al) by (intros a Ha; apply I; rewrite !in_app_iff; auto).
    destruct (IH (length z)) with (u := z) as (w & W & Ew); [|reflexivity|exact Iz|].
    + rewrite !app_length. assert (y <> []) by (rewrite <- E; apply Ne; exact M). destruct y; [contradiction|]. cbn [length]. lia.
    + exists (ids x ++ m ++ w). split.
      * apply rp_more; [exact Ix| |exact M|exact W]. intros m' M'. apply H. exists m'. auto.
      * rewrite !side_app, E, Ew, side_ids by exact (no_eps_incl x al N Ix). reflexivity.
Qed.
Lemma replacing_unchanged t ty al w : ~ In EPS al -> replacing (side_of ty) t al w -> nothing_in (side_of ty) t (side_of ty w) ->
  w = ids (side_of ty w).
Proof.
  intros N R. destruct R as [x I H|x m w I H M R]; intros F.
  - fold (ids x). rewrite side_ids by exact (no_eps_incl x al N I). reflexivity.
  - exfalso. rewrite !side_app in F. apply (F m M). exists (side_of ty (map (fun a => (a, a)) x)), (side_of ty w). reflexivity.
Qed.
Lemma replacing_empty (t : plang) ty al w m : t m -> side_of ty m = [] -> ~ replacing (side_of ty) t al w.
Proof.
  intros M E R. assert (X : forall x, ~ nothing_in (side_of ty) t x) by (intros x H; apply (H m M); rewrite E; exists [], x; reflexivity).
  destruct R; eapply X; eassumption.
Qed.

Notation swap := (map (fun p : pair => (snd p, fst p))).
Lemma swap_swap w : swap (swap w) = w.
Proof. rewrite map_map. cbn [fst snd]. induction w as [|[a b] w IH]; [reflexivity|]. cbn. f_equal. exact IH. Qed.
Lemma written_swap w : written (swap w) = read w.
Proof. unfold written, read. rewrite map_map. reflexivity. Qed.
Lemma read_swap w : read (swap w) = written w.
Proof. unfold written, read. rewrite map_map. reflexivity. Qed.
Lemma swap_ids x : swap (map (fun a : bstr => (a, a)) x) = map (fun a => (a, a)) x.
Proof. rewrite map_map. reflexivity. Qed.
Lemma replacing_swap (t : plang) al w : replacing read t al (swap w) <-> replacing written (fun v => t (swap v)) al w.
Proof.
  assert (Nt : forall x, nothing_in read t x <-> nothing_in written (fun v => t (swap v)) x).
  { intros x. split; intros H m M.
    - specialize (H _ M). rewrite read_swap in H. exact H.
    - specialize (H (swap m)). cbn beta in H. rewrite swap_swap, written_swap in H. exact (H M). }
  split.
  - intros R. remember (swap w) as v eqn:Ev. revert w Ev. induction R as [x I H|x m v I H M R IH]; intros w Ev.
    + apply (f_equal swap) in Ev. rewrite swap_swap, swap_ids in Ev. subst w. apply rp_end; [exact I|]. apply Nt. exact H.
    + apply (f_equal swap) in Ev. rewrite swap_swap, !map_app, swap_ids in Ev. subst w.
      apply rp_more; [exact I|apply Nt; exact H|rewrite swap_swap; exact M|]. apply IH. symmetry. apply swap_swap.
  - intros R. induction R as [x I H|x m v I H M R IH].
    + rewrite swap_ids. apply rp_end; [exact I|]. apply Nt. exact H.
    + rewrite !map_app, swap_ids. apply rp_more; [exact I|apply Nt; exact H|exact M|exact IH].
Qed.
