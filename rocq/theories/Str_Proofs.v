(** Proofs about the string utilities. *)
From Coq Require Import Permutation.
From Verif Require Import Base Str_Model Str_Spec.

(** * replace_all *)
Lemma find_at_spec n r h p : n <> [] ->
  match find_at n h p with
  | None => replaced n r h h
  | Some q => exists a b, h = a ++ n ++ b /\ q = p + length a /\
      (forall x, replaced n r b x -> replaced n r h (a ++ r ++ x))
  end.
Proof.
  intros Hn. revert p. induction h as [|c h IH]; intros p; simpl.
  - destruct n as [|x n]; [congruence|]. simpl. constructor.
  - destruct (is_prefix n (c :: h)) eqn:E.
    + apply is_prefix_spec in E. destruct E as [b E]. exists [], b. rewrite E. simpl.
      split; [reflexivity|]. split; [lia|]. intros x Hx. constructor. exact Hx.
    + assert (Hm : forall t, c :: h <> n ++ t).
      { intros t K. assert (K2 : is_prefix n (c :: h) = true) by (apply is_prefix_spec; exists t; exact K). congruence. }
      specialize (IH (S p)). destruct (find_at n h (S p)) as [q|].
      * destruct IH as (a & b & -> & -> & Hr). exists (c :: a), b. simpl. split; [reflexivity|].
        split; [lia|]. intros x Hx. apply rp_miss; auto.
      * apply rp_miss; auto.
Qed.

Lemma find_pos_app n pre rest : find_pos n (pre ++ rest) (length pre) = find_at n rest (length pre).
Proof.
  unfold find_pos. rewrite app_length.
  destruct (Nat.ltb_spec (length pre + length rest) (length pre)); [lia|].
  rewrite skipn_app, skipn_all, Nat.sub_diag. reflexivity.
Qed.

Lemma splice_app pre a n b r : splice (pre ++ a ++ n ++ b) (length pre + length a) (length n) r = pre ++ a ++ r ++ b.
Proof.
  unfold splice.
  replace (pre ++ a ++ n ++ b) with ((pre ++ a) ++ n ++ b) by (rewrite <- app_assoc; reflexivity).
  rewrite <- app_length. rewrite firstn_app, firstn_all, Nat.sub_diag. simpl. rewrite app_nil_r.
  replace (length (pre ++ a) + length n) with (length ((pre ++ a) ++ n)) by (rewrite !app_length; lia).
  rewrite (app_assoc (pre ++ a) n b), skipn_app, skipn_all, Nat.sub_diag. simpl.
  rewrite <- app_assoc. reflexivity.
Qed.

Lemma replace_loop_spec n r : n <> [] -> forall f pre rest, length rest < f ->
  exists rest', replace_loop f n r (pre ++ rest) (find_at n rest (length pre)) = Ok (pre ++ rest') /\
    replaced n r rest rest'.
Proof.
  intros Hn. induction f as [|f IH]; intros pre rest Hf; [lia|].
  pose proof (find_at_spec n r rest (length pre) Hn) as H. simpl.
  destruct (find_at n rest (length pre)) as [q|].
  - destruct H as (a & b & -> & -> & Hr). rewrite splice_app.
    replace (pre ++ a ++ r ++ b) with ((pre ++ a ++ r) ++ b) by (rewrite <- !app_assoc; reflexivity).
    replace (length pre + length a + length r) with (length (pre ++ a ++ r)) by (rewrite !app_length; lia).
    rewrite find_pos_app. destruct (IH (pre ++ a ++ r) b) as (b' & E & Hb).
    { rewrite !app_length in Hf. destruct n; [congruence|]. simpl in Hf. lia. }
    rewrite E. exists (a ++ r ++ b'). split; [rewrite <- !app_assoc; reflexivity|]. auto.
  - exists rest. auto.
Qed.

Lemma replace_all_replaced h n r : n <> [] -> exists x, replace_all h n r = Ok x /\ replaced n r h x.
Proof.
  intros Hn. unfold replace_all. destruct (replace_loop_spec n r Hn (S (length h)) [] h) as (x & E & H); [lia|].
  exists x. split; [exact E|exact H].
Qed.

Lemma replaced_fun n r h x : n <> [] -> replaced n r h x -> forall y, replaced n r h y -> x = y.
Proof.
  intros Hn H. induction H as [|h h' H IH|c h h' Hm H IH]; intros y Hy.
  - inversion Hy as [E|h0 h0' H0 E|]; subst; [congruence|].
    destruct n; [congruence|discriminate].
  - inversion Hy as [E|h0 h0' H0 E E2|c h0 h0' Hm H0 E E2]; subst.
    + destruct n; [congruence|discriminate].
    + apply app_inv_head in E. subst. f_equal. auto.
    + exfalso. exact (Hm _ E).
  - inversion Hy as [E|h0 h0' H0 E E2|c' h0 h0' Hm' H0 E E2]; subst.
    + exfalso. apply (Hm h0). symmetry; exact E.
    + f_equal; auto.
Qed.

Lemma replace_all_eq h n r x : n <> [] -> replaced n r h x -> replace_all h n r = Ok x.
Proof.
  intros Hn H. destruct (replace_all_replaced h n r Hn) as (y & E & Hy).
  rewrite E. f_equal. symmetry. eapply replaced_fun; eauto.
Qed.

Lemma replaced_not_occurs n r s : ~ occurs n s -> replaced n r s s.
Proof.
  induction s as [|c s IH]; intros H; [constructor|]. apply rp_miss.
  - intros t E. apply H. exists [], t. exact E.
  - apply IH. intros (a & b & E). apply H. exists (c :: a), b. rewrite E. reflexivity.
Qed.

Definition sub1 (c : ascii) (r : bstr) (s : bstr) : bstr :=
  flat_map (fun x => if Ascii.eqb x c then r else [x]) s.

Lemma replaced_one c r s : replaced [c] r s (sub1 c r s).
Proof.
  induction s as [|x s IH]; [constructor|]. simpl. destruct (Ascii.eqb_spec x c) as [->|N].
  - apply (rp_hit [c] r s _ IH).
  - apply rp_miss; [|exact IH]. intros t E. injection E as E _. congruence.
Qed.

Lemma replace_all_one c r s : replace_all s [c] r = Ok (sub1 c r s).
Proof. apply replace_all_eq; [discriminate|apply replaced_one]. Qed.

(** Scanning past bytes that cannot start the needle. *)
Lemma replaced_skip x n r w h h' : (forall c, In c w -> c <> x) ->
  replaced (x :: n) r h h' -> replaced (x :: n) r (w ++ h) (w ++ h').
Proof.
  intros Hw H. induction w as [|c w IH]; [exact H|]. simpl. apply rp_miss.
  - intros t E. injection E as E _. apply (Hw c); [left; reflexivity|exact E].
  - apply IH. intros c' Hc. apply Hw. right; exact Hc.
Qed.
(** ... and past a closing byte x whose successor is not y. *)
Lemma replaced_close x y n r w h h' : (forall c, In c w -> c <> x) ->
  (forall t, h <> y :: t) ->
  replaced (x :: y :: n) r h h' -> replaced (x :: y :: n) r (w ++ x :: h) (w ++ x :: h').
Proof.
  intros Hw Hh H. apply replaced_skip; [exact Hw|]. apply rp_miss; [|exact H].
  intros t E. injection E as E. exact (Hh _ E).
Qed.

(** * Symbol numbering *)
Lemma NoDup_snoc {A} (l : list A) x : NoDup l -> ~ In x l -> NoDup (l ++ [x]).
Proof.
  intros H N. apply (Permutation.Permutation_NoDup (l := x :: l)); [apply Permutation.Permutation_cons_append|].
  constructor; assumption.
Qed.
Definition num_ok (t : numbering) : Prop :=
  NoDup (n2s t) /\ length (n2s t) = S (max_number t) /\ ~ In [] (n2s t) /\
  forall s n, mget bcmp s (s2n t) = Some n <-> nth_error (n2s t) n = Some s.

Lemma num_ok_init : num_ok numbering_init.
Proof.
  split; [|split; [reflexivity|split]].
  - repeat constructor; simpl; intuition discriminate.
  - simpl. intuition discriminate.
  - intros s n. unfold numbering_init. cbn [s2n n2s].
    destruct (bstr_eq_dec s (B "@_IDENTITY_SYMBOL_@")) as [->|N2].
    { rewrite (mget_mset_same bcmp bcmp_eq). split; [intros E; injection E as <-; reflexivity|].
      destruct n as [|[|[|n]]]; simpl; intros E; try discriminate; [reflexivity|]. destruct n; discriminate. }
    rewrite (mget_mset_other bcmp bcmp_eq) by exact N2.
    destruct (bstr_eq_dec s (B "@_UNKNOWN_SYMBOL_@")) as [->|N1].
    { rewrite (mget_mset_same bcmp bcmp_eq). split; [intros E; injection E as <-; reflexivity|].
      destruct n as [|[|[|n]]]; simpl; intros E; try discriminate; [reflexivity|]. destruct n; discriminate. }
    rewrite (mget_mset_other bcmp bcmp_eq) by exact N1.
    destruct (bstr_eq_dec s (B "@_EPSILON_SYMBOL_@")) as [->|N0].
    { rewrite (mget_mset_same bcmp bcmp_eq). split; [intros E; injection E as <-; reflexivity|].
      destruct n as [|[|[|n]]]; simpl; intros E; try discriminate; [reflexivity|]. destruct n; discriminate. }
    rewrite (mget_mset_other bcmp bcmp_eq) by exact N0. simpl. split; [discriminate|].
    destruct n as [|[|[|n]]]; simpl; intros E; try (injection E as E; symmetry in E; contradiction).
    destruct n; discriminate.
Qed.

Lemma get_number_ok t s t' n : num_ok t -> get_number t s = Ok (t', n) ->
  num_ok t' /\ nth_error (n2s t') n = Some s /\
  exists ext, n2s t' = n2s t ++ ext /\ (forall x, In x ext -> x = s).
Proof.
  intros (Hd & Hl & He & Hm) H.
  assert (Hs : s <> []) by (intros ->; discriminate).
  assert (G : get_number t s = match mget bcmp s (s2n t) with
      | Some n => Ok (t, n)
      | None => Ok ({| s2n := mset bcmp s (max_number t + 1) (s2n t); n2s := n2s t ++ [s];
                       max_number := max_number t + 1 |}, max_number t + 1) end)
    by (destruct s; [congruence|reflexivity]).
  rewrite G in H. clear G.
  destruct (mget bcmp s (s2n t)) as [k|] eqn:E.
  - injection H as <- <-. split; [repeat split; auto; apply Hm|]. split; [apply Hm; exact E|].
    exists []. rewrite app_nil_r. simpl. tauto.
  - injection H as <- <-. cbn [n2s].
    assert (Hnew : ~ In s (n2s t)).
    { intros K. apply In_nth_error in K. destruct K as [k K]. apply Hm in K. congruence. }
    assert (Hat : nth_error (n2s t ++ [s]) (max_number t + 1) = Some s).
    { rewrite nth_error_app2 by lia. rewrite Hl. replace (max_number t + 1 - S (max_number t)) with 0 by lia. reflexivity. }
    split; [|split; [exact Hat|exists [s]; split; [reflexivity|simpl; intuition]]].
    split; [|split; [|split]]; cbn [n2s s2n max_number].
    + apply NoDup_snoc; assumption.
    + rewrite app_length, Hl. simpl. lia.
    + rewrite in_app_iff. simpl. intuition congruence.
    + intros x k. destruct (bstr_eq_dec x s) as [->|N].
      * rewrite (mget_mset_same bcmp bcmp_eq). split.
        -- intros E2. injection E2 as <-. exact Hat.
        -- intros K. destruct (Nat.eq_dec k (max_number t + 1)) as [->|Nk]; [reflexivity|].
           assert (k < length (n2s t ++ [s])) as Hk by (apply nth_error_Some; congruence).
           rewrite app_length in Hk. simpl in Hk. rewrite nth_error_app1 in K by lia.
           apply nth_error_In in K. contradiction.
      * rewrite (mget_mset_other bcmp bcmp_eq) by exact N. rewrite Hm. split; intros K.
        -- rewrite nth_error_app1; [exact K|]. apply nth_error_Some. congruence.
        -- destruct (Nat.lt_ge_cases k (length (n2s t))); [rewrite nth_error_app1 in K by lia; exact K|].
           rewrite nth_error_app2 in K by lia. destruct (k - length (n2s t)) as [|d]; simpl in K; [|destruct d; discriminate].
           congruence.
Qed.

Lemma requests_ok ss : forall t t' ns, num_ok t -> requests t ss = Ok (t', ns) ->
  num_ok t' /\ Forall2 (fun s n => nth_error (n2s t') n = Some s) ss ns /\
  exists ext, n2s t' = n2s t ++ ext /\ (forall x, In x ext -> In x ss).
Proof.
  induction ss as [|s ss IH]; intros t t' ns Ht H; simpl in H.
  - injection H as <- <-. split; [exact Ht|]. split; [constructor|]. exists []. rewrite app_nil_r. simpl. tauto.
  - destruct (get_number t s) as [[t1 n]| | |] eqn:E; try discriminate. simpl in H.
    destruct (requests t1 ss) as [[t2 ns2]| | |] eqn:E2; try discriminate. simpl in H. injection H as <- <-.
    destruct (get_number_ok t s t1 n Ht E) as (H1 & H2 & e1 & H3 & H4).
    destruct (IH t1 t2 ns2 H1 E2) as (H5 & H6 & e2 & H7 & H8).
    split; [exact H5|]. split.
    + constructor; [|exact H6]. rewrite H7. rewrite nth_error_app1; [exact H2|]. apply nth_error_Some. congruence.
    + exists (e1 ++ e2). rewrite H7, H3, <- app_assoc. split; [reflexivity|]. intros x Hx.
      apply in_app_iff in Hx. destruct Hx as [Hx|Hx]; [left; symmetry; auto|right; auto].
Qed.

Lemma requests_total ss : forall t, Forall (fun s => s <> []) ss -> exists t' ns, requests t ss = Ok (t', ns).
Proof.
  induction ss as [|s ss IH]; intros t H; simpl; [eexists _, _; reflexivity|].
  inversion H as [|? ? Hs H']; subst. unfold get_number. destruct s as [|c s]; [congruence|].
  destruct (mget bcmp (c :: s) (s2n t)); cbn [rbind].
  - destruct (IH t H') as (t' & ns & ->). cbn [rbind]. eexists _, _; reflexivity.
  - match goal with |- context [requests ?T ss] => destruct (IH T H') as (t' & ns & ->) end.
    cbn [rbind]. eexists _, _; reflexivity.
Qed.

Lemma requests_app ss1 : forall t ss2,
  requests t (ss1 ++ ss2) =
  rbind (requests t ss1) (fun '(t1, n1) => rmap (fun '(t2, n2) => (t2, n1 ++ n2)) (requests t1 ss2)).
Proof.
  induction ss1 as [|s ss1 IH]; intros t ss2; simpl.
  - destruct (requests t ss2) as [[t2 n2]| | |]; reflexivity.
  - destruct (get_number t s) as [[t1 n]| | |]; simpl; try reflexivity. rewrite IH.
    destruct (requests t1 ss1) as [[t2 n2]| | |]; simpl; try reflexivity.
    destruct (requests t2 ss2) as [[t3 n3]| | |]; simpl; reflexivity.
Qed.

(** * AT&T *)
Definition SP := B "@_SPACE_@".
Definition TB := B "@_TAB_@".
Definition EPS := B "@_EPSILON_SYMBOL_@".

Lemma sub1_no c r s : ~ In c r -> ~ In c (sub1 c r s).
Proof.
  intros Hr K. unfold sub1 in K. apply in_flat_map in K. destruct K as (x & _ & K).
  destruct (Ascii.eqb_spec x c) as [E|N]; [contradiction|]. destruct K as [K|[]]. congruence.
Qed.

Lemma replaced_not_in c n r h x : ~ In c h -> ~ In c r -> replaced n r h x -> ~ In c x.
Proof.
  intros Hh Hr H. revert Hh. induction H as [|h h' H IH|c' h h' Hm H IH]; intros Hh K; simpl in *; [contradiction| |].
  - apply in_app_iff in K. rewrite in_app_iff in Hh. tauto.
  - tauto.
Qed.

Lemma att_escape_total s : exists e, att_escape s = Ok e /\ Forall (fun c => ~ blank c) e.
Proof.
  unfold att_escape. cbn [replaces]. change (B " ") with [" "%char]. rewrite replace_all_one. cbn [rbind].
  destruct (replace_all_replaced (sub1 " " (B "@_SPACE_@") s) (B "@_EPSILON_SYMBOL_@") (B "@0@")) as (x & -> & Hx); [discriminate|].
  cbn [rbind]. rewrite replace_all_one. cbn [rbind]. eexists. split; [reflexivity|].
  apply Forall_forall. intros c Hc [->| ->].
  - apply (replaced_not_in " " _ _ _ (sub1 tab (B "@_TAB_@") x)) with (4 := Hc) (3 := replaced_one tab (B "@_TAB_@") x).
    + eapply (replaced_not_in " "); [| |exact Hx].
      * apply sub1_no. simpl. intuition discriminate.
      * simpl. intuition discriminate.
    + simpl. intuition discriminate.
  - revert Hc. apply (sub1_no tab). simpl. intuition discriminate.
Qed.

(** Strings in which no blank is followed by _ or 0 *)
Definition blankb (c : ascii) : bool := Ascii.eqb c " " || Ascii.eqb c tab.
Fixpoint ok3 (s : bstr) : Prop :=
  match s with
  | [] => True
  | c :: r => c <> "@"%char /\ (blankb c = true -> forall y t, r = y :: t -> y <> "_"%char /\ y <> "0"%char) /\ ok3 r
  end.

Lemma blankb_spec c : blankb c = true <-> blank c.
Proof.
  unfold blankb, blank. rewrite orb_true_iff, !Ascii.eqb_eq. reflexivity.
Qed.

Lemma ok3_of s : ~ In "@"%char s ->
  (forall a x y b, s = a ++ x :: y :: b -> blank x -> y <> "_"%char /\ y <> "0"%char) -> ok3 s.
Proof.
  induction s as [|c s IH]; intros H1 H2; simpl; [exact I|]. split; [intros ->; apply H1; left; reflexivity|].
  split.
  - intros Hb y t ->. apply (H2 [] c y t eq_refl). apply blankb_spec. exact Hb.
  - apply IH; [intros K; apply H1; right; exact K|]. intros a x y b -> Hx. apply (H2 (c :: a) x y b eq_refl Hx).
Qed.

(** f replaces blanks by groups @...@ *)
Definition fm (fs ft : bstr) (s : bstr) : bstr :=
  flat_map (fun c => if Ascii.eqb c " " then fs else if Ascii.eqb c tab then ft else [c]) s.

Lemma fm_head fs ft s y : fs <> [] -> ft <> [] -> (forall t, fs <> y :: t) -> (forall t, ft <> y :: t) ->
  (forall t, s <> y :: t) -> forall t, fm fs ft s <> y :: t.
Proof.
  intros Fs Ft H1 H2 H3 t. destruct s as [|c s]; simpl; [discriminate|].
  destruct (Ascii.eqb c " ") eqn:E1.
  - destruct fs as [|x fs]; [congruence|]. simpl. intros K. injection K as -> K. exact (H1 fs eq_refl).
  - destruct (Ascii.eqb c tab).
    + destruct ft as [|x ft]; [congruence|]. simpl. intros K. injection K as -> K. exact (H2 ft eq_refl).
    + simpl. intros K. injection K as -> K. exact (H3 s eq_refl).
Qed.

(** A needle @y... that is different from the groups in use is not found. *)
Lemma fm_replaced y n r (fs ft gs gt : bstr) s : (y = "_"%char \/ y = "0"%char) ->
  ((fs = [" "%char] /\ gs = fs) \/
   (fs = "@"%char :: y :: n /\ gs = r) \/
   (exists w, fs = "@"%char :: w ++ ["@"%char] /\ gs = fs /\ ~ In "@"%char w /\ forall t u, fs ++ t <> ("@"%char :: y :: n) ++ u)) ->
  ((ft = [tab] /\ gt = ft) \/
   (ft = "@"%char :: y :: n /\ gt = r) \/
   (exists w, ft = "@"%char :: w ++ ["@"%char] /\ gt = ft /\ ~ In "@"%char w /\ forall t u, ft ++ t <> ("@"%char :: y :: n) ++ u)) ->
  ok3 s -> replaced ("@"%char :: y :: n) r (fm fs ft s) (fm gs gt s).
Proof.
  intros Hy Hs Ht. 
  assert (Fs : fs <> [] /\ forall t, fs <> y :: t).
  { destruct Hs as [[-> _]|[[-> _]|(w & -> & _)]]; (split; [discriminate|]); intros t K; injection K as K _; destruct Hy; subst; discriminate. }
  assert (Ft : ft <> [] /\ forall t, ft <> y :: t).
  { destruct Ht as [[-> _]|[[-> _]|(w & -> & _)]]; (split; [discriminate|]); intros t K; injection K as K _; destruct Hy; subst; discriminate. }
  induction s as [|c s IH]; intros Hok; simpl; [constructor|].
  destruct Hok as (Hc & Hb & Hok). specialize (IH Hok).
  assert (Hnext : blankb c = true -> forall t, fm fs ft s <> y :: t).
  { intros Hbl. apply fm_head; try tauto. intros t ->. destruct (Hb Hbl y t eq_refl). destruct Hy; contradiction. }
  assert (Group : forall fx gx, blankb c = true ->
    ((exists x, x <> "@"%char /\ fx = [x] /\ gx = fx) \/
     (fx = "@"%char :: y :: n /\ gx = r) \/
     (exists w, fx = "@"%char :: w ++ ["@"%char] /\ gx = fx /\ ~ In "@"%char w /\ forall t u, fx ++ t <> ("@"%char :: y :: n) ++ u)) ->
    replaced ("@"%char :: y :: n) r (fx ++ fm fs ft s) (gx ++ fm gs gt s)).
  { intros fx gx Hbl [(x & Nx & -> & ->)|[[-> ->]|(w & -> & -> & Nw & Hd)]].
    - apply (replaced_skip "@" (y :: n) r [x]); [|exact IH]. intros c' [->|[]]. exact Nx.
    - apply (rp_hit ("@"%char :: y :: n) r). exact IH.
    - cbn [app]. apply rp_miss.
      + intros t K. apply (Hd (fm fs ft s) t). exact K.
      + rewrite <- !app_assoc. cbn [app]. apply replaced_close; [|apply Hnext; exact Hbl|exact IH].
        intros c' Hin ->. contradiction. }
  destruct (Ascii.eqb c " ") eqn:E1.
  - apply Group; [unfold blankb; rewrite E1; reflexivity|].
    destruct Hs as [[-> ->]|Hs]; [left; exists " "%char; split; [discriminate|auto]|right; exact Hs].
  - destruct (Ascii.eqb c tab) eqn:E2.
    + apply Group; [unfold blankb; rewrite E2; apply orb_true_r|].
      destruct Ht as [[-> ->]|Ht]; [left; exists tab; split; [discriminate|auto]|right; exact Ht].
    + apply (replaced_skip "@" (y :: n) r [c]); [|exact IH]. intros c' [->|[]]. exact Hc.
Qed.

Lemma fm_id s : fm [" "%char] [tab] s = s.
Proof.
  induction s as [|c s IH]; [reflexivity|]. simpl.
  destruct (Ascii.eqb_spec c " ") as [->|]; [simpl; f_equal; exact IH|].
  destruct (Ascii.eqb_spec c tab) as [->|]; simpl; f_equal; exact IH.
Qed.
Lemma sub1_space s : sub1 " " SP s = fm SP [tab] s.
Proof.
  unfold sub1, fm. apply flat_map_ext. intros c. destruct (Ascii.eqb_spec c " "); [reflexivity|].
  destruct (Ascii.eqb_spec c tab) as [->|]; reflexivity.
Qed.
Lemma sub1_tab s : sub1 tab TB (fm SP [tab] s) = fm SP TB s.
Proof.
  unfold sub1, fm. induction s as [|c s IH]; [reflexivity|]. simpl. rewrite flat_map_app, IH. f_equal.
  destruct (Ascii.eqb_spec c " ") as [->|N]; [reflexivity|].
  destruct (Ascii.eqb_spec c tab) as [->|N2]; [reflexivity|]. simpl.
  destruct (Ascii.eqb_spec c tab) as [->|_]; [congruence|reflexivity].
Qed.

Ltac group_tac :=
  first [ left; split; reflexivity
        | right; left; split; reflexivity
        | right; right; eexists; split; [|split; [reflexivity|split]] ].

Lemma att_roundtrip s : att_reversible s -> exists e, att_escape s = Ok e /\ att_unescape e = Ok s.
Proof.
  intros [->|[(Hb & H1 & H2 & H3 & H4 & H5)|(Ha & Hn)]].
  - exists (B "@0@"). split; vm_compute; reflexivity.
  - exists s.
    assert (N : forall n r, n <> [] -> ~ occurs n s -> replace_all s n r = Ok s).
    { intros n r Hn H. apply replace_all_eq; [exact Hn|apply replaced_not_occurs; exact H]. }
    rewrite Forall_forall in Hb.
    split.
    + unfold att_escape. cbn [replaces]. rewrite N; [cbn [rbind]|discriminate|].
      2:{ intros (a & b & E). apply (Hb " "%char); [rewrite E; apply in_elt|left; reflexivity]. }
      rewrite N by (discriminate || exact H1). cbn [rbind]. rewrite N; [reflexivity|discriminate|].
      intros (a & b & E). apply (Hb tab); [rewrite E; apply in_elt|right; reflexivity].
    + unfold att_unescape. cbn [replaces].
      rewrite N by (discriminate || assumption). cbn [rbind]. rewrite N by (discriminate || assumption). cbn [rbind].
      rewrite N by (discriminate || assumption). cbn [rbind]. rewrite N by (discriminate || assumption). reflexivity.
  - pose proof (ok3_of s Ha Hn) as Hok. exists (fm SP TB s). split.
    + unfold att_escape. cbn [replaces]. change (B " ") with [" "%char]. rewrite replace_all_one. cbn [rbind].
      change (B "@_SPACE_@") with SP. rewrite sub1_space.
      rewrite (replace_all_eq (fm SP [tab] s) (B "@_EPSILON_SYMBOL_@") (B "@0@") (fm SP [tab] s)); [|discriminate|].
      * cbn [rbind]. rewrite replace_all_one. cbn [rbind]. change (B "@_TAB_@") with TB. rewrite sub1_tab. reflexivity.
      * apply fm_replaced; [left; reflexivity| |left; split; reflexivity|exact Hok].
        right; right. exists (B "_SPACE_"). split; [reflexivity|]. split; [reflexivity|].
        split; [simpl; intuition discriminate|]. intros t u K. discriminate K.
    + unfold att_unescape. cbn [replaces].
      rewrite (replace_all_eq (fm SP TB s) (B "@_SPACE_@") (B " ") (fm (B " ") TB s)); [|discriminate|].
      2:{ apply fm_replaced; [left; reflexivity|right; left; split; reflexivity| |exact Hok].
          right; right. exists (B "_TAB_"). split; [reflexivity|]. split; [reflexivity|].
          split; [simpl; intuition discriminate|]. intros t u K. discriminate K. }
      cbn [rbind].
      rewrite (replace_all_eq (fm (B " ") TB s) (B "@0@") (B "@_EPSILON_SYMBOL_@") (fm (B " ") TB s)); [|discriminate|].
      2:{ apply fm_replaced; [right; reflexivity|left; split; reflexivity| |exact Hok].
          right; right. exists (B "_TAB_"). split; [reflexivity|]. split; [reflexivity|].
          split; [simpl; intuition discriminate|]. intros t u K. discriminate K. }
      cbn [rbind].
      rewrite (replace_all_eq (fm (B " ") TB s) (B "@_TAB_@") [tab] (fm (B " ") [tab] s)); [|discriminate|].
      2:{ apply fm_replaced; [left; reflexivity|left; split; reflexivity|right; left; split; reflexivity|exact Hok]. }
      cbn [rbind]. change (B " ") with [" "%char]. rewrite fm_id.
      rewrite (replace_all_eq s (B "@_COLON_@") (B ":") s); [reflexivity|discriminate|].
      apply replaced_not_occurs. intros (a & b & E). apply Ha. rewrite E. apply in_elt.
Qed.

(** * Prolog *)
Definition pq (c : ascii) : bstr :=
  if Ascii.eqb c bsl then [bsl; bsl] else if Ascii.eqb c dq then [bsl; dq] else [c].
Definition pq1 (c : ascii) : bstr := if Ascii.eqb c bsl then [bsl; bsl] else [c].

Lemma prolog_quote s : replaces [([bsl], [bsl; bsl]); ([dq], [bsl; dq])] s = Ok (flat_map pq s).
Proof.
  cbn [replaces]. rewrite replace_all_one. cbn [rbind]. rewrite replace_all_one. cbn [rbind]. f_equal.
  unfold sub1. induction s as [|c s IH]; [reflexivity|]. simpl. rewrite flat_map_app, IH. f_equal.
  unfold pq. destruct (Ascii.eqb_spec c bsl) as [->|N]; [reflexivity|]. simpl.
  destruct (Ascii.eqb c dq); reflexivity.
Qed.

Lemma prolog_unquote s : replaces [([bsl; dq], [dq]); ([bsl; bsl], [bsl])] (flat_map pq s) = Ok s.
Proof.
  cbn [replaces].
  assert (Hd : forall s t, flat_map pq s <> dq :: t).
  { intros [|c s0] t; simpl; [discriminate|]. unfold pq. destruct (Ascii.eqb_spec c bsl) as [->|N]; [discriminate|].
    destruct (Ascii.eqb_spec c dq) as [->|N2]; [discriminate|]. simpl. intros K. injection K as K _. contradiction. }
  assert (E1 : replaced [bsl; dq] [dq] (flat_map pq s) (flat_map pq1 s)).
  { induction s as [|c s IH]; [constructor|]. simpl. unfold pq at 1, pq1 at 1.
    destruct (Ascii.eqb_spec c bsl) as [->|N].
    - simpl. apply rp_miss; [intros t K; unfold bsl, dq in K; discriminate K|]. apply rp_miss; [|exact IH].
      intros t K. simpl in K. injection K as K. exact (Hd _ _ K).
    - destruct (Ascii.eqb_spec c dq) as [->|N2].
      + exact (rp_hit [bsl; dq] [dq] _ _ IH).
      + simpl. apply rp_miss; [|exact IH]. intros t K. injection K as K _. congruence. }
  rewrite (fun Hn => replace_all_eq _ _ _ _ Hn E1) by discriminate. cbn [rbind].
  assert (E2 : replaced [bsl; bsl] [bsl] (flat_map pq1 s) s).
  { clear. induction s as [|c s IH]; [constructor|]. simpl. unfold pq1 at 1. destruct (Ascii.eqb_spec c bsl) as [->|N].
    - exact (rp_hit [bsl; bsl] [bsl] _ _ IH).
    - simpl. apply rp_miss; [|exact IH]. intros t K. injection K as K _. congruence. }
  rewrite (fun Hn => replace_all_eq _ _ _ _ Hn E2) by discriminate. reflexivity.
Qed.

Lemma pq_not_special s w : flat_map pq s = w -> (forall c, In c w -> c <> bsl) -> s = w.
Proof.
  revert w. induction s as [|c s IH]; intros w E H; [exact E|]. simpl in E. unfold pq in E at 1.
  destruct (Ascii.eqb_spec c bsl) as [->|N].
  { exfalso. apply (H bsl); [rewrite <- E; left; reflexivity|reflexivity]. }
  destruct (Ascii.eqb_spec c dq) as [->|N2].
  { exfalso. apply (H bsl); [rewrite <- E; left; reflexivity|reflexivity]. }
  simpl in E. destruct w as [|c' w]; [discriminate|]. injection E as -> E. f_equal. apply IH; [exact E|].
  intros x Hx. apply H. right; exact Hx.
Qed.

Definition prolog_ok (s : bstr) : Prop := s <> B "%0" /\ s <> B "%?".
Lemma prologize_spec s : exists e, prologize_symbol s = Ok e /\
  (s <> B "0" /\ s <> B "?" /\ s <> EPS /\ s <> B "@_UNKNOWN_SYMBOL_@" /\ s <> B "@_IDENTITY_SYMBOL_@" -> e = flat_map pq s) /\
  (prolog_ok s -> deprologize_symbol e =
     Ok (if bstr_eqb s (B "@_IDENTITY_SYMBOL_@") then B "@_UNKNOWN_SYMBOL_@" else s)).
Proof.
  unfold prologize_symbol.
  destruct (bstr_eqb_spec s (B "0")) as [->|N0]; [eexists; split; [reflexivity|split; [tauto|intros _; vm_compute; reflexivity]]|].
  destruct (bstr_eqb_spec s (B "?")) as [->|N1]; [eexists; split; [reflexivity|split; [tauto|intros _; vm_compute; reflexivity]]|].
  destruct (bstr_eqb_spec s (B "@_EPSILON_SYMBOL_@")) as [->|N2]; [eexists; split; [reflexivity|split; [unfold EPS; tauto|intros _; vm_compute; reflexivity]]|].
  destruct (bstr_eqb_spec s (B "@_UNKNOWN_SYMBOL_@")) as [->|N3]; [eexists; split; [reflexivity|split; [tauto|intros _; vm_compute; reflexivity]]|].
  destruct (bstr_eqb_spec s (B "@_IDENTITY_SYMBOL_@")) as [->|N4]; [eexists; split; [reflexivity|split; [tauto|intros _; vm_compute; reflexivity]]|].
  rewrite prolog_quote. eexists; split; [reflexivity|]. split; [reflexivity|]. intros [N5 N6].
  unfold deprologize_symbol.
  destruct (bstr_eqb_spec (flat_map pq s) (B "%0")) as [E|_].
  { exfalso. apply N5. apply (pq_not_special s _ E). intros c Hc. simpl in Hc. intuition (subst; discriminate). }
  destruct (bstr_eqb_spec (flat_map pq s) (B "%?")) as [E|_].
  { exfalso. apply N6. apply (pq_not_special s _ E). intros c Hc. simpl in Hc. intuition (subst; discriminate). }
  destruct (bstr_eqb_spec (flat_map pq s) (B "0")) as [E|_].
  { exfalso. apply N0. apply (pq_not_special s _ E). intros c Hc. simpl in Hc. intuition (subst; discriminate). }
  destruct (bstr_eqb_spec (flat_map pq s) (B "?")) as [E|_].
  { exfalso. apply N1. apply (pq_not_special s _ E). intros c Hc. simpl in Hc. intuition (subst; discriminate). }
  rewrite prolog_unquote. reflexivity.
Qed.

(** Quotes inside a quoted symbol are all escaped, those around it are found. *)
Definition ends_bsl (prev : option ascii) : bool := match prev with Some p => Ascii.eqb p bsl | None => false end.
Lemma quote_positions_app s : forall i prev t,
  quote_positions (s ++ t) i prev =
  quote_positions s i prev ++ quote_positions t (i + length s)
    (match rev s with c :: _ => Some c | [] => prev end).
Proof.
  induction s as [|c s IH]; intros i prev t; simpl; [rewrite Nat.add_0_r; reflexivity|].
  rewrite IH. replace (S i + length s) with (i + S (length s)) by lia.
  assert (E : match rev s ++ [c] with c0 :: _ => Some c0 | [] => prev end = match rev s with c0 :: _ => Some c0 | [] => Some c end).
  { destruct (rev s); reflexivity. }
  rewrite E. destruct (Ascii.eqb c dq); [|reflexivity].
  destruct prev as [p|]; [destruct (Ascii.eqb p bsl)|]; reflexivity.
Qed.

Lemma quote_positions_pq s : forall i prev, quote_positions (flat_map pq s) i prev = [].
Proof.
  induction s as [|c s IH]; intros i prev; [reflexivity|]. simpl. unfold pq at 1.
  destruct (Ascii.eqb_spec c bsl) as [->|N]; [simpl; apply IH|].
  destruct (Ascii.eqb_spec c dq) as [->|N2]; [simpl; apply IH|]. cbn [app quote_positions].
  destruct (Ascii.eqb_spec c dq) as [E|_]; [congruence|apply IH].
Qed.

Lemma pq_last s : (forall r, s <> r ++ [bsl]) ->
  forall p, p <> bsl -> exists q, match rev (flat_map pq s) with c :: _ => Some c | [] => Some p end = Some q /\ q <> bsl.
Proof.
  intros H p Np. destruct (rev s) as [|c r] eqn:E.
  - apply (f_equal (@rev ascii)) in E. rewrite rev_involutive in E. subst. exists p. auto.
  - apply (f_equal (@rev ascii)) in E. rewrite rev_involutive in E. simpl in E. subst s.
    assert (Nc : c <> bsl) by (intros ->; exact (H _ eq_refl)).
    rewrite flat_map_app, rev_app_distr. simpl. unfold pq at 1.
    destruct (Ascii.eqb_spec c bsl); [contradiction|]. destruct (Ascii.eqb_spec c dq) as [->|]; simpl; eexists; split; try reflexivity; congruence.
Qed.

Lemma prologize_quotes s e : prologize_symbol s = Ok e -> (forall r, s <> r ++ [bsl]) ->
  (forall i prev, quote_positions e i prev = []) /\
  (forall p, p <> bsl -> exists q, match rev e with c :: _ => Some c | [] => Some p end = Some q /\ q <> bsl).
Proof.
  intros H Hs. unfold prologize_symbol in H.
  destruct (bstr_eqb s (B "0")); [injection H as <-; split; [reflexivity|intros; eexists; split; [reflexivity|discriminate]]|].
  destruct (bstr_eqb s (B "?")); [injection H as <-; split; [reflexivity|intros; eexists; split; [reflexivity|discriminate]]|].
  destruct (bstr_eqb s (B "@_EPSILON_SYMBOL_@")); [injection H as <-; split; [reflexivity|intros; eexists; split; [reflexivity|discriminate]]|].
  destruct (bstr_eqb s (B "@_UNKNOWN_SYMBOL_@")); [injection H as <-; split; [reflexivity|intros; eexists; split; [reflexivity|discriminate]]|].
  destruct (bstr_eqb s (B "@_IDENTITY_SYMBOL_@")); [injection H as <-; split; [reflexivity|intros; eexists; split; [reflexivity|discriminate]]|].
  rewrite prolog_quote in H. injection H as <-. split; [apply quote_positions_pq|apply pq_last; exact Hs].
Qed.

Lemma quote_positions_q e i prev p t : (forall i prev, quote_positions e i prev = []) ->
  prev <> Some bsl -> (match rev e with c :: _ => Some c | [] => Some dq end = Some p /\ p <> bsl) ->
  quote_positions (dq :: e ++ dq :: t) i prev = i :: (i + S (length e)) :: quote_positions t (S (i + S (length e))) (Some dq).
Proof.
  intros He Hp [E Np]. cbn [quote_positions]. rewrite Ascii.eqb_refl.
  rewrite quote_positions_app, He. cbn [app quote_positions]. rewrite Ascii.eqb_refl, E.
  destruct (Ascii.eqb_spec p bsl); [contradiction|]. replace (S i + length e) with (i + S (length e)) by lia.
  destruct prev as [q|]; [|reflexivity]. destruct (Ascii.eqb_spec q bsl); [congruence|reflexivity].
Qed.

Lemma slice_mid x e y : slice (x ++ dq :: e ++ y) (length x) (length x + S (length e)) = e.
Proof.
  unfold slice. replace (length x + S (length e) - length x - 1) with (length e) by lia.
  replace (length x + 1) with (length (x ++ [dq])) by (rewrite app_length; reflexivity).
  replace (x ++ dq :: e ++ y) with ((x ++ [dq]) ++ e ++ y) by (rewrite <- app_assoc; reflexivity).
  rewrite skipn_app, skipn_all, Nat.sub_diag. simpl. rewrite firstn_app, firstn_all, Nat.sub_diag. simpl. apply app_nil_r.
Qed.

Lemma prolog_arc_roundtrip i o :
  prolog_ok i -> prolog_ok o -> (forall r, i <> r ++ [bsl]) -> (forall r, o <> r ++ [bsl]) ->
  (i = B "@_IDENTITY_SYMBOL_@" <-> o = B "@_IDENTITY_SYMBOL_@") ->
  exists e, print_prolog_arc_symbols i o = Ok e /\ get_prolog_arc_symbols e = Ok (Some (i, o)).
Proof.
  intros Hi Ho Bi Bo Hid. unfold print_prolog_arc_symbols.
  destruct (prologize_spec i) as (ei & Ei & _ & Di). destruct (prologize_spec o) as (eo & Eo & _ & Do).
  specialize (Di Hi). specialize (Do Ho).
  destruct (prologize_quotes i ei Ei Bi) as [Qi Li]. destruct (prologize_quotes o eo Eo Bo) as [Qo Lo].
  destruct (Li dq ltac:(discriminate)) as [pi Pi]. destruct (Lo dq ltac:(discriminate)) as [po Po].
  rewrite Ei. cbn [rbind].
  destruct (negb (bstr_eqb i o) || bstr_eqb i (B "@_UNKNOWN_SYMBOL_@")) eqn:C.
  - rewrite Eo. cbn [rmap]. eexists; split; [reflexivity|]. cbn [app].
    unfold get_prolog_arc_symbols.
    set (S0 := dq :: ei ++ dq :: B ":" ++ dq :: eo ++ [dq]).
    assert (EQ : quote_positions S0 0 None = [0; S (length ei); S (length ei) + 2; S (length ei) + 2 + S (length eo)]).
    { unfold S0. rewrite (quote_positions_q ei 0 None pi _ Qi ltac:(discriminate) Pi). simpl (0 + _).
      assert (K2 : quote_positions (":"%char :: dq :: eo ++ [dq]) (S (S (length ei))) (Some dq) =
        quote_positions (dq :: eo ++ [dq]) (S (S (S (length ei)))) (Some ":"%char)) by reflexivity.
      change (B ":" ++ dq :: eo ++ [dq]) with (":"%char :: dq :: eo ++ [dq]). rewrite K2.
      rewrite (quote_positions_q eo (S (S (S (length ei)))) (Some ":"%char) po [] Qo ltac:(discriminate) Po).
      cbn [quote_positions]. repeat f_equal; lia. }
    rewrite EQ.
    assert (Hlen : length S0 = S (S (length ei) + 2 + S (length eo))).
    { unfold S0. simpl. rewrite app_length. simpl. rewrite app_length. simpl. lia. }
    rewrite Hlen. 
    replace (negb (0 =? 0)) with false by reflexivity.
    replace (S (S (length ei) + 2 + S (length eo)) - 1) with (S (length ei) + 2 + S (length eo)) by lia.
    rewrite Nat.eqb_refl. cbn [negb orb]. replace (S (length ei) + 2 - S (length ei)) with 2 by lia. cbn [Nat.eqb negb].
    assert (Hcol : nth_error S0 (S (length ei) + 1) = Some ":"%char).
    { unfold S0. simpl. rewrite nth_error_app2 by lia. replace (length ei + 1 - length ei) with 1 by lia. reflexivity. }
    rewrite Hcol. change (Ascii.eqb ":" ":") with true. cbn [negb].
    assert (S1 : slice S0 0 (S (length ei)) = ei).
    { unfold S0. exact (slice_mid [] ei _). }
    assert (S2 : slice S0 (S (length ei) + 2) (S (length ei) + 2 + S (length eo)) = eo).
    { unfold S0. replace (S (length ei) + 2) with (length (dq :: ei ++ [dq; ":"%char])) by (simpl; rewrite app_length; simpl; lia).
      replace (dq :: ei ++ dq :: B ":" ++ dq :: eo ++ [dq]) with ((dq :: ei ++ [dq; ":"%char]) ++ dq :: eo ++ [dq])
        by (simpl; rewrite <- app_assoc; reflexivity).
      apply slice_mid. }
    rewrite S1, S2, Di, Do. cbn [rbind rmap].
    assert (NI : i <> B "@_IDENTITY_SYMBOL_@").
    { intros Ki. pose proof (proj1 Hid Ki) as Ko. rewrite Ki, Ko in C. vm_compute in C. discriminate. }
    assert (NO : o <> B "@_IDENTITY_SYMBOL_@") by (intros Ko; apply NI, Hid, Ko).
    apply bstr_eqb_neq in NI. apply bstr_eqb_neq in NO. rewrite NI, NO. reflexivity.
  - apply orb_false_iff in C. destruct C as [C1 C2]. apply negb_false_iff in C1. apply bstr_eqb_eq in C1. subst o.
    eexists; split; [reflexivity|]. cbn [app]. unfold get_prolog_arc_symbols.
    rewrite (quote_positions_q ei 0 None pi [] Qi ltac:(discriminate) Pi). cbn [quote_positions].
    replace (0 + S (length ei)) with (S (length ei)) by lia.
    replace (length (dq :: ei ++ [dq]) - 1) with (S (length ei)) by (simpl; rewrite app_length; simpl; lia).
    rewrite !Nat.eqb_refl. cbn [negb orb].
    replace (slice (dq :: ei ++ [dq]) 0 (S (length ei))) with ei by (symmetry; exact (slice_mid [] ei _)).
    rewrite Di. cbn [rmap].
    destruct (bstr_eqb_spec i (B "@_IDENTITY_SYMBOL_@")) as [->|N]; [reflexivity|].
    rewrite C2. reflexivity.
Qed.
