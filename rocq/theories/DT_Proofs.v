(** Proofs about the edges of print_dot. *)
From Verif Require Import Base MD_Spec DT_Spec DT_Model.
From Coq Require Import NArith Lia.

(** * Characters *)
Lemma bits_low c : within 0 191 (N_of_ascii c) = true -> has_bits 192 c = false /\ has_bits 224 c = false /\ has_bits 240 c = false.
Proof. destruct c as [[] [] [] [] [] [] [] []]; vm_compute; intros H; try discriminate H; auto. Qed.
Lemma bits_2 c : within 192 223 (N_of_ascii c) = true -> has_bits 192 c = true /\ has_bits 224 c = false /\ has_bits 240 c = false.
Proof. destruct c as [[] [] [] [] [] [] [] []]; vm_compute; intros H; try discriminate H; auto. Qed.
Lemma bits_3 c : within 224 239 (N_of_ascii c) = true -> has_bits 192 c = true /\ has_bits 224 c = true /\ has_bits 240 c = false.
Proof. destruct c as [[] [] [] [] [] [] [] []]; vm_compute; intros H; try discriminate H; auto. Qed.
Lemma bits_4 c : within 240 255 (N_of_ascii c) = true -> has_bits 192 c = true /\ has_bits 224 c = true /\ has_bits 240 c = true.
Proof. destruct c as [[] [] [] [] [] [] [] []]; vm_compute; intros H; try discriminate H; auto. Qed.
Lemma within_spec lo hi x : within lo hi x = true <-> (lo <= x <= hi)%N.
Proof. unfold within. rewrite andb_true_iff, N.leb_le, N.leb_le. reflexivity. Qed.
Lemma cut_low i c : within 0 191 (N_of_ascii c) = true -> cut_here i c = false.
Proof. intros H. apply bits_low in H. destruct H as (A & Bb & C). unfold cut_here. rewrite A, Bb, C, !andb_false_r. reflexivity. Qed.
Lemma cut_tail i c : tail_byte (N_of_ascii c) = true -> cut_here i c = false.
Proof. intros H. apply cut_low. unfold tail_byte in H. apply within_spec in H. apply within_spec. lia. Qed.

Lemma shape d : character d = true -> exists a r, d = a :: r /\ length d <= 4 /\
  (forall i, 1 <= i <= 3 -> cut_here i a = (i <? length d)) /\ Forall (fun x => forall i, cut_here i x = false) r.
Proof.
  unfold character. destruct d as [|a [|x [|y [|z [|w d]]]]]; cbn [map]; intros H; try discriminate H.
  - exists a, []. split; [reflexivity|]. split; [cbn; lia|]. split; [|constructor]. intros i I.
    rewrite cut_low; [destruct i as [|i]; [lia|reflexivity]|]. apply within_spec in H. apply within_spec. lia.
  - apply andb_true_iff in H. destruct H as [A X]. exists a, [x]. split; [reflexivity|]. split; [cbn; lia|]. split.
    + intros i I. destruct (bits_2 a) as (P & Q & R); [apply within_spec in A; apply within_spec; lia|].
      unfold cut_here. rewrite P, Q, R. assert (i = 1 \/ i = 2 \/ i = 3) as [->|[->| ->]] by lia; reflexivity.
    + constructor; [intros i; apply cut_tail, X|constructor].
  - apply andb_true_iff in H. destruct H as [A Y]. rewrite !orb_true_iff, !andb_true_iff, !N.eqb_eq in A. unfold tail_byte in A. rewrite !within_spec in A.
    exists a, [x; y]. split; [reflexivity|]. split; [cbn; lia|]. split.
    + intros i I. destruct (bits_3 a) as (P & Q & R); [apply within_spec; lia|].
      unfold cut_here. rewrite P, Q, R. assert (i = 1 \/ i = 2 \/ i = 3) as [->|[->| ->]] by lia; reflexivity.
    + constructor; [intros i; apply cut_tail, within_spec; lia|]. constructor; [intros i; apply cut_tail, Y|constructor].
  - apply andb_true_iff in H. destruct H as [A Z]. apply andb_true_iff in A. destruct A as [A Y]. rewrite !orb_true_iff, !andb_true_iff, !N.eqb_eq in A. unfold tail_byte in A. rewrite !within_spec in A.
    exists a, [x; y; z]. split; [reflexivity|]. split; [cbn; lia|]. split.
    + intros i I. destruct (bits_4 a) as (P & Q & R); [apply within_spec; lia|].
      unfold cut_here. rewrite P, Q, R. assert (i = 1 \/ i = 2 \/ i = 3) as [->|[->| ->]] by lia; reflexivity.
    + constructor; [intros i; apply cut_tail, within_spec; lia|]. constructor; [intros i; apply cut_tail, Y|]. constructor; [intros i; apply cut_tail, Z|constructor].
Qed.

(** * trim_to_valid_utf8 *)
Notation nul := "000"%char.
Lemma cut_mono i j c : i <= j -> cut_here i c = false -> cut_here j c = false.
Proof.
  intros L. unfold cut_here. destruct (has_bits 192 c), (has_bits 224 c), (has_bits 240 c); rewrite ?andb_false_r, ?andb_true_r, ?orb_false_r; try reflexivity;
  rewrite ?orb_false_iff, ?Nat.ltb_ge; lia.
Qed.
Lemma cut_complete ds : Forall (fun c => character c = true) ds -> forall i, 1 <= i <= 3 -> i <= length (concat ds) ->
  cut_here i (nth (length (concat ds) - i) (concat ds) nul) = false.
Proof.
  induction ds as [|d ds IH] using rev_ind; intros F i I L; [cbn in L; lia|].
  apply Forall_app in F. destruct F as [F1 F2]. apply Forall_inv in F2. rewrite concat_app in *. cbn [concat] in *. rewrite app_nil_r in *. rewrite app_length in *.
  destruct (shape d F2) as (a & r & E & L4 & C & T). destruct (le_lt_dec i (length d)) as [LE|GT].
  - rewrite app_nth2 by lia. replace (length (concat ds) + length d - i - length (concat ds)) with (length d - i) by lia.
    destruct (Nat.eq_dec i (length d)) as [EQ|NE].
    + rewrite <- EQ, Nat.sub_diag, E. cbn [nth]. rewrite C by exact I. apply Nat.ltb_ge. lia.
    + rewrite E in *. cbn [length] in *. replace (S (length r) - i) with (S (length r - i)) by lia. cbn [nth].
      rewrite Forall_forall in T. apply T, nth_In. lia.
  - rewrite app_nth1 by lia. replace (length (concat ds) + length d - i) with (length (concat ds) - (i - length d)) by lia.
    assert (length d >= 1) by (rewrite E; cbn; lia). apply (cut_mono (i - length d)); [lia|]. apply IH; [exact F1|lia|lia].
Qed.
Lemma trim_none is s : (forall i, In i is -> i <= length s -> cut_here i (nth (length s - i) s nul) = false) -> trim_loop is s = s.
Proof.
  induction is as [|i is IH]; intros H; [reflexivity|]. cbn [trim_loop]. destruct (Nat.ltb_spec i (length s)) as [L|L]; [|reflexivity].
  rewrite H by (cbn; auto; lia). apply IH. intros j J. apply H. right. exact J.
Qed.
Lemma trim_complete ds : Forall (fun c => character c = true) ds -> trim_loop [1; 2; 3] (concat ds) = concat ds.
Proof. intros F. apply trim_none. intros i I L. apply cut_complete; [exact F| |exact L]. cbn in I. lia. Qed.
Lemma trim_hit is s j : In j is -> j < length s -> cut_here j (nth (length s - j) s nul) = true ->
  (forall i, In i is -> i <> j -> i < j -> cut_here i (nth (length s - i) s nul) = false) -> Sorted.StronglySorted lt is ->
  trim_loop is s = firstn (length s - j) s.
Proof.
  induction is as [|i is IH]; intros I L C N S; [destruct I|]. cbn [trim_loop]. inversion S as [|? ? S1 S2]; subst. destruct I as [->|I].
  - rewrite (proj2 (Nat.ltb_lt _ _) L), C. reflexivity.
  - rewrite Forall_forall in S2. pose proof (S2 j I). rewrite (proj2 (Nat.ltb_lt i (length s))) by lia.
    rewrite N by (cbn; auto; lia). apply IH; auto. intros k K. apply N. right. exact K.
Qed.
Lemma trim_partial x t u : x <> [] -> character (t ++ u) = true -> t <> [] -> u <> [] -> trim_loop [1; 2; 3] (x ++ t) = x.
Proof.
  intros X C T U. destruct (shape _ C) as (a & r & E & L4 & H & F). destruct t as [|b t]; [contradiction|]. injection E as -> E.
  assert (LU : length u >= 1) by (destruct u; [contradiction|cbn; lia]). assert (LX : length x >= 1) by (destruct x; [contradiction|cbn; lia]).
  rewrite app_length in L4. cbn [length] in L4.
  rewrite (trim_hit _ _ (S (length t))).
  - rewrite app_length. cbn [length]. replace (length x + S (length t) - S (length t)) with (length x) by lia. rewrite firstn_app, Nat.sub_diag, firstn_all. cbn. apply app_nil_r.
  - cbn. lia.
  - rewrite app_length. cbn. lia.
  - rewrite app_length. cbn [length]. replace (length x + S (length t) - S (length t)) with (length x) by lia. rewrite app_nth2, Nat.sub_diag by lia. cbn [nth].
    rewrite H by lia. apply Nat.ltb_lt. rewrite app_length. cbn. lia.
  - intros i I NE LT. assert (i >= 1) by (cbn in I; lia). rewrite app_length. cbn [length]. rewrite app_nth2 by lia.
    replace (length x + S (length t) - i - length x) with (S (length t - i)) by lia. cbn [nth].
    rewrite Forall_forall in F. apply F. rewrite <- E. apply in_or_app. left. apply nth_In. lia.
  - repeat constructor.
Qed.

Lemma firstn_chars n : forall cs, exists k t, firstn n (concat cs) = concat (firstn k cs) ++ t /\ fitting n cs (firstn k cs) /\
  (t = [] \/ exists c u, In c cs /\ c = t ++ u /\ u <> []).
Proof.
  intros cs. revert n. induction cs as [|c cs IH]; intros n.
  - exists 0, []. cbn. rewrite firstn_nil. split; [reflexivity|]. split; [exists []; cbn; split; [reflexivity|split; [lia|exact I]]|left; reflexivity].
  - cbn [concat]. rewrite firstn_app. destruct (le_lt_dec (length c) n) as [L|L].
    + destruct (IH (n - length c)) as (k & t & E & (rest & R1 & R2 & R3) & T). exists (S k), t. cbn [firstn concat]. rewrite (firstn_all2 c) by exact L. rewrite E, app_assoc.
      split; [reflexivity|]. split.
      * exists rest. cbn [app concat]. rewrite <- R1, app_length. split; [reflexivity|]. split; [lia|]. destruct rest; [exact I|lia].
      * destruct T as [T|(d & u & I & T)]; [left; exact T|]. right. exists d, u. split; [right; exact I|exact T].
    + exists 0, (firstn n c). cbn [firstn concat app]. replace (n - length c) with 0 by lia. rewrite firstn_O, app_nil_r. split; [reflexivity|]. split.
      * exists (c :: cs). cbn. split; [reflexivity|]. split; lia.
      * right. exists c, (skipn n c). split; [left; reflexivity|]. split; [symmetry; apply firstn_skipn|]. intros E. apply (f_equal (@length _)) in E. rewrite skipn_length in E. cbn in E. lia.
Qed.
Lemma char_pos d : character d = true -> 1 <= length d <= 4.
Proof. intros H. destruct (shape d H) as (a & r & -> & L & _). cbn in *. lia. Qed.
Lemma trim_fitting n cs : 4 <= n -> cs <> [] -> Forall (fun c => character c = true) cs ->
  exists ds, trim_to_valid_utf8 (firstn n (concat cs)) = Ok (concat ds) /\ fitting n cs ds.
Proof.
  intros N NE F. destruct (firstn_chars n cs) as (k & t & E & FT & T). exists (firstn k cs). split; [|exact FT].
  destruct FT as (rest & R1 & R2 & R3).
  assert (Fk : Forall (fun c => character c = true) (firstn k cs)).
  { rewrite R1 in F. apply Forall_app in F. apply F. }
  assert (X : concat (firstn k cs) <> []).
  { intros X. destruct (firstn k cs) as [|d ds] eqn:K.
    - unfold bstr in *. rewrite K in R1. rewrite K in R3. cbn in R1. destruct cs as [|c cs]; [contradiction|]. rewrite <- R1 in R3. apply Forall_inv in F. apply char_pos in F. cbn in R3. lia.
    - apply Forall_inv in Fk. apply char_pos in Fk. cbn in X. destruct d; [cbn in Fk; lia|discriminate X]. }
  rewrite E. assert (TR : forall s, s <> [] -> trim_to_valid_utf8 s = Ok (trim_loop [1; 2; 3] s)) by (intros [|]; [contradiction|reflexivity]).
  rewrite TR by (intros S; apply app_eq_nil in S; destruct S; contradiction). f_equal.
  destruct t as [|b' t']; [rewrite app_nil_r; apply trim_complete, Fk|]. destruct T as [T|(c & u & I & -> & U)]; [discriminate T|].
  apply (trim_partial _ _ u); [exact X| |discriminate|exact U]. rewrite Forall_forall in F. apply F, I.
Qed.

(** * Labels *)
From Verif Require Import BT_Model Str_Model Str_Proofs.
From Coq Require Import ZArith.
Definition text_of (price : Z -> bstr) (a : arc) : bstr :=
  let first := dot_symbol (B "?1") (isy a) in let second := dot_symbol (B "?2") (osy a) in
  (if bstr_eqb first second then first else first ++ B ":" ++ second) ++ (if (0 <? wt a)%Z then B "/" ++ price (wt a) else []).
Lemma drawn_fun u x w : drawn u x w <-> w = dot_symbol u x.
Proof.
  unfold drawn, dot_symbol. destruct (bstr_eqb x BT_Model.EPS) eqn:E1; [apply bstr_eqb_eq in E1; subst x|].
  { split; [intros [[_ H]|[[H _]|[[H _]|(H & _)]]]; [exact H|discriminate H|discriminate H|congruence]|auto]. }
  destruct (bstr_eqb x BT_Model.IDN) eqn:E2; [apply bstr_eqb_eq in E2; subst x|].
  { split; [intros [[H _]|[[_ H]|[[H _]|(_ & H & _)]]]; [discriminate H|exact H|discriminate H|congruence]|auto]. }
  destruct (bstr_eqb x BT_Model.UNK) eqn:E3; [apply bstr_eqb_eq in E3; subst x|].
  { split; [intros [[H _]|[[H _]|[[_ H]|(_ & _ & H & _)]]]; [discriminate H|discriminate H|exact H|congruence]|auto 6]. }
  assert (x <> BT_Model.EPS) by (intros ->; vm_compute in E1; discriminate E1). assert (x <> BT_Model.IDN) by (intros ->; vm_compute in E2; discriminate E2).
  assert (x <> BT_Model.UNK) by (intros ->; vm_compute in E3; discriminate E3).
  split; [intros [[H' _]|[[H' _]|[[H' _]|(_ & _ & _ & H')]]]; [contradiction|contradiction|contradiction|exact H']|auto 8].
Qed.
Lemma text_fun price a t : transition_text price a t <-> t = text_of price a.
Proof.
  unfold transition_text, text_of. split.
  - intros (i & o & I & O & p & w & P & W & ->). apply drawn_fun in I. apply drawn_fun in O. subst i o. f_equal.
    + destruct (bstr_eqb _ _) eqn:E.
      * apply bstr_eqb_eq in E. destruct P as [[_ P]|[N _]]; [exact P|contradiction].
      * destruct P as [[Q _]|[_ P]]; [apply bstr_eqb_eq in Q; congruence|exact P].
    + destruct (Z.ltb_spec 0 (wt a)) as [L|L]; destruct W as [[K W]|[K W]]; try lia; exact W.
  - intros ->. do 2 eexists. split; [apply drawn_fun; reflexivity|]. split; [apply drawn_fun; reflexivity|]. do 2 eexists. split; [|split; [|reflexivity]].
    + destruct (bstr_eqb _ _) eqn:E; [left; apply bstr_eqb_eq in E; auto|right]. split; [|reflexivity]. intros Q. apply bstr_eqb_eq in Q. congruence.
    + destruct (Z.ltb_spec 0 (wt a)) as [L|L]; auto.
Qed.

Lemma sub1_none c r s : ~ In c s -> sub1 c r s = s.
Proof.
  intros N. unfold sub1. induction s as [|x s IH]; [reflexivity|]. cbn. destruct (Ascii.eqb_spec x c) as [->|D]; [exfalso; apply N; left; reflexivity|].
  cbn. f_equal. apply IH. intros I. apply N. right. exact I.
Qed.
Lemma add_label_eq price old a : add_label price old a =
  rbind (trim_to_valid_utf8 (firstn 63 (match old with [] => text_of price a | _ => old ++ B ", " ++ text_of price a end)))
    (fun l => Ok (sub1 "034"%char ["092"%char; "034"%char] l)).
Proof.
  unfold add_label. change LABEL_BYTES with 63. unfold text_of. destruct (trim_to_valid_utf8 _); cbn [rbind]; [apply replace_all_one|reflexivity|reflexivity|reflexivity].
Qed.
Lemma add_label_fits price old a u : u = match old with [] => text_of price a | _ => old ++ B ", " ++ text_of price a end ->
  u <> [] -> well_formed u -> length u <= 63 -> ~ In "034"%char u -> add_label price old a = Ok u.
Proof.
  intros E N (cs & F & C) L Q. rewrite add_label_eq. unfold bstr in *. rewrite <- E, firstn_all2 by exact L. unfold trim_to_valid_utf8. destruct u as [|b u]; [contradiction|].
  cbn [rbind]. rewrite C, trim_complete, sub1_none; [reflexivity| |exact F]. rewrite <- C. exact Q.
Qed.
Lemma listed_snoc ts x : ts <> [] -> listed (ts ++ [x]) = listed ts ++ B ", " ++ x.
Proof.
  induction ts as [|t ts IH]; [contradiction|]. intros _. destruct ts as [|t' ts]; [reflexivity|].
  cbn [app] in *. change (listed (t :: t' :: ts ++ [x])) with (t ++ B ", " ++ listed (t' :: ts ++ [x])). rewrite IH by discriminate.
  change (listed (t :: t' :: ts)) with (t ++ B ", " ++ listed (t' :: ts)). rewrite <- !app_assoc. reflexivity.
Qed.
Lemma wf_app x y : well_formed x -> well_formed y -> well_formed (x ++ y).
Proof. intros (a & F & ->) (b & G & ->). exists (a ++ b). split; [apply Forall_app; auto|symmetry; apply concat_app]. Qed.
Lemma wf_comma : well_formed (B ", ").
Proof. exists [B ","; B " "]. split; [repeat constructor|reflexivity]. Qed.
Definition good (t : bstr) : Prop := t <> [] /\ well_formed t /\ ~ In "034"%char t.
Lemma listed_good ts : ts <> [] -> Forall good ts -> good (listed ts).
Proof.
  induction ts as [|t ts IH]; [contradiction|]. intros _ F. inversion F as [|? ? G F']; subst. destruct ts as [|t' ts]; [exact G|].
  change (listed (t :: t' :: ts)) with (t ++ B ", " ++ listed (t' :: ts)). destruct IH as (A & W & Q); [discriminate|exact F'|]. destruct G as (A' & W' & Q').
  split; [intros E; apply app_eq_nil in E; destruct E; contradiction|]. split; [apply wf_app; [exact W'|apply wf_app; [apply wf_comma|exact W]]|].
  intros I. apply in_app_or in I. destruct I as [I|I]; [contradiction|]. cbn in I. destruct I as [I|[I|I]]; [discriminate I|discriminate I|contradiction].
Qed.
Lemma listed_length_le ts us : length (listed ts) <= length (listed (ts ++ us)).
Proof.
  induction ts as [|t ts IH]; [cbn; lia|]. destruct ts as [|t' ts].
  - destruct us as [|u us]; [cbn; lia|]. change (listed ([t] ++ u :: us)) with (t ++ B ", " ++ listed (u :: us)). rewrite app_length. cbn [listed]. lia.
  - change (listed (t :: t' :: ts)) with (t ++ B ", " ++ listed (t' :: ts)). change (listed ((t :: t' :: ts) ++ us)) with (t ++ B ", " ++ listed ((t' :: ts) ++ us)).
    rewrite !app_length. lia.
Qed.

Definition sel (l : list arc) (t : nat) : list arc := filter (fun a => tgt a =? t) l.
Definition represents (price : Z -> bstr) (pre : list arc) (m : list (nat * bstr)) : Prop :=
  Sorted.StronglySorted lt (map fst m) /\
  forall t, mget Nat.compare t m = match sel pre t with [] => None | _ => Some (listed (map (text_of price) (sel pre t))) end.
Lemma sel_app p q t : sel (p ++ q) t = sel p t ++ sel q t.
Proof. apply filter_app. Qed.
Lemma mset_lt (f : list (nat * bstr)) s w : Sorted.StronglySorted lt (map fst f) -> Sorted.StronglySorted lt (map fst (mset Nat.compare s w f)).
Proof.
  induction f as [|[k v] f IH]; intros M; cbn [mset map fst].
  - repeat constructor.
  - inversion M as [|x y M1 M2]; subst. destruct (Nat.compare s k) eqn:C; cbn [map fst].
    + apply Nat.compare_eq_iff in C. subst. constructor; assumption.
    + apply Nat.compare_lt_iff in C. constructor; [exact M|]. constructor; [exact C|]. eapply Forall_impl; [|exact M2]. intros z Hz. simpl in *. lia.
    + apply Nat.compare_gt_iff in C. constructor; [apply IH; exact M1|]. apply Forall_forall. intros z Hz. apply in_map_iff in Hz.
      destruct Hz as ([z1 z2] & <- & Hz). apply In_mset in Hz. destruct Hz as [E|Hz]; [injection E as -> ->; exact C|].
      rewrite Forall_forall in M2. apply M2. apply in_map_iff. exists (z1, z2). auto.
Qed.
Lemma labels_run price l : forall pre m, represents price pre m ->
  (forall a, In a (pre ++ l) -> good (text_of price a)) ->
  (forall t, length (listed (map (text_of price) (sel (pre ++ l) t))) <= 63) ->
  exists m', target_labels price l m = Ok m' /\ represents price (pre ++ l) m'.
Proof.
  induction l as [|a l IH]; intros pre m R G L.
  - exists m. rewrite app_nil_r. split; [reflexivity|exact R].
  - assert (AS : pre ++ a :: l = (pre ++ [a]) ++ l) by (rewrite <- app_assoc; reflexivity).
    assert (SA : sel (pre ++ [a]) (tgt a) = sel pre (tgt a) ++ [a]) by (rewrite sel_app; unfold sel at 2; cbn [filter]; rewrite Nat.eqb_refl; reflexivity).
    assert (GA : Forall good (map (text_of price) (sel pre (tgt a) ++ [a]))).
    { apply Forall_map, Forall_forall. intros b I. apply G. apply in_app_or in I. apply in_or_app. destruct I as [I|[<-|[]]]; [left; apply filter_In in I; apply I|right; left; reflexivity]. }
    set (u := listed (map (text_of price) (sel pre (tgt a) ++ [a]))).
    assert (GU : good u) by (apply listed_good; [destruct (sel pre (tgt a)); discriminate|exact GA]).
    destruct GU as (U1 & U2 & U3). cbn [target_labels].
    rewrite (add_label_fits price _ a u); [|  |exact U1|exact U2| |exact U3].
    + cbn [rbind]. rewrite AS. apply IH; [|rewrite <- AS; exact G|intros t; rewrite <- AS; apply L].
      destruct R as [S R]. split; [apply mset_lt, S|]. intros t. destruct (Nat.eq_dec t (tgt a)) as [->|N].
      * rewrite mget_mset_same by apply Nat.compare_eq_iff. rewrite SA. fold u. destruct (sel pre (tgt a)); reflexivity.
      * rewrite mget_mset_other by (apply Nat.compare_eq_iff || exact N). rewrite R, sel_app.
        assert (sel [a] t = []) as -> by (unfold sel; cbn [filter]; destruct (Nat.eqb_spec (tgt a) t); [congruence|reflexivity]). rewrite app_nil_r. reflexivity.
    + unfold u. rewrite (proj2 R (tgt a)). rewrite map_app in *. destruct (sel pre (tgt a)) as [|b bs] eqn:E; [reflexivity|].
      change (map (text_of price) [a]) with [text_of price a]. rewrite listed_snoc by discriminate. assert (NN : listed (map (text_of price) (b :: bs)) <> []).
      { apply listed_good; [discriminate|]. apply Forall_app in GA. apply GA. }
      destruct (listed (map (text_of price) (b :: bs))); [contradiction|reflexivity].
    + eapply Nat.le_trans; [|apply (L (tgt a))]. rewrite AS, sel_app, SA, map_app. apply listed_length_le.
Qed.
Lemma mget_of_In (m : list (nat * bstr)) : Sorted.StronglySorted lt (map fst m) -> forall t x, In (t, x) m <-> mget Nat.compare t m = Some x.
Proof.
  intros S t x. split; [|apply mget_In; apply Nat.compare_eq_iff]. induction m as [|[k v] m IH]; [intros []|]. cbn in S. inversion S as [|? ? S1 S2]; subst.
  intros [E|I]; cbn.
  - injection E as -> ->. rewrite Nat.compare_refl. reflexivity.
  - destruct (Nat.compare t k) eqn:C; [|apply IH; assumption|apply IH; assumption]. apply Nat.compare_eq_iff in C. subst k.
    rewrite Forall_forall in S2. assert (In t (map fst m)) by (apply in_map_iff; exists (t, x); auto). apply S2 in H. lia.
Qed.
Lemma lists_fun price l t x : lists_transitions price l t x <-> x = listed (map (text_of price) (sel l t)).
Proof.
  unfold lists_transitions. fold (sel l t). split.
  - intros (ts & F & ->). f_equal. induction F as [|a y l' ts' H F IH]; [reflexivity|]. cbn. apply text_fun in H. congruence.
  - intros ->. eexists. split; [|reflexivity]. induction (sel l t) as [|a l' IH]; constructor; [apply text_fun; reflexivity|exact IH].
Qed.
