(** Properties C133-C137: the flag diacritics of two transducers that are combined. *)
From Verif Require Import Base Flags_Model Flags_Spec Flags_Proofs BT_Model BT_Spec BT_Proofs BT_Proofs5 BT_Props Harm_Model Harm_Spec Harm_Proofs Harm_Props Co_Spec Co_Model Co_Proofs Co_Proofs4 Co_Props
  PU_Spec PU_Model PU_Proofs PU_Proofs4 PU_Props Cr_Proofs FH_Spec FH_Model FH_Proofs FH_Proofs2 FH_Proofs3 FH_Proofs4 FH_Proofs5 FH_Proofs6.

(** C133: renaming the flags of a transducer adds the suffix to the feature of every flag on its
    paths and changes nothing else about them. *)
Theorem C133_renamed suf g l w : accepts (rename_flag_diacritics suf g) l w <-> exists k, accepts g k w /\ Forall2 (pair_suffix suf) k l.
Proof.
  rewrite rename_accepts. split; intros (k & A & H); exists k; (split; [exact A|]); apply pair_suffix_map; exact H.
Qed.
Print Assumptions C133_renamed.

(** C133: without insertion, harmonizing renames the flags of both transducers if both have
    some in their alphabets, and leaves both alone otherwise. *)
Theorem C133_harmonized t a :
  (forall r a', harmonize_flag_diacritics false t a r a' ->
     exists h, r = Ok h /\
     ((exists s, In s (alpha t) /\ is_flag s) /\ (exists s, In s (alpha a) /\ is_flag s) ->
        (forall l w, accepts h l w <-> exists k, accepts t k w /\ Forall2 (pair_suffix (B "_1")) k l) /\
        (forall l w, accepts a' l w <-> exists k, accepts a k w /\ Forall2 (pair_suffix (B "_2")) k l)) /\
     (~ (exists s, In s (alpha t) /\ is_flag s) \/ ~ (exists s, In s (alpha a) /\ is_flag s) -> h = t /\ a' = a)) /\
  exists r a', harmonize_flag_diacritics false t a r a'.
Proof.
  assert (F : forall g, has_flags g = true <-> exists s, In s (alpha g) /\ is_flag s).
  { intros g. unfold has_flags. rewrite existsb_exists. split; intros (s & Hs & Q); exists s; (split; [exact Hs|]); apply flag_iff; exact Q. }
  pose proof (F t) as Ft. pose proof (F a) as Fa. unfold harmonize_flag_diacritics. split.
  - intros r a'. destruct (has_flags t) eqn:Et, (has_flags a) eqn:Ea; intros (-> & ->); eexists; (split; [reflexivity|]); (split; [intros [H1 H2]|intros H]).
    + split; intros l w; apply C133_renamed.
    + destruct H as [H|H]; destruct H; [apply Ft|apply Fa]; reflexivity.
    + apply Fa in H2. discriminate H2.
    + auto.
    + apply Ft in H1. discriminate H1.
    + auto.
    + apply Ft in H1. discriminate H1.
    + auto.
  - destruct (has_flags t), (has_flags a); do 2 eexists; split; reflexivity.
Qed.
Print Assumptions C133_harmonized.

(** C133: after the renaming the flags of the two no longer disturb each other: however the two
    sequences of symbols are mixed, the mixed sequence is accepted by the flags if and only if
    each was accepted alone under its old names. *)
Theorem C133_apart a a' b b' c xs ys zs :
  Forall2 (with_suffix (B "_1")) a a' -> Forall2 (with_suffix (B "_2")) b b' -> mixed a' b' c ->
  Forall2 reads a xs -> Forall2 reads b ys -> Forall2 reads c zs ->
  accepted zs = accepted xs && accepted ys.
Proof.
  intros A Bb M X Y Z. pose proof (mixed_reads _ _ _ _ _ _ _ _ _ _ nd1 nd2 M A Bb X Y Z) as Mx.
  apply (mixed_allowed (B "_1") (B "_2") suffixes_apart xs ys zs Mx env0 env0 env0). intros f. split; reflexivity.
Qed.
Print Assumptions C133_apart.

(** C133: with identity and unknown standing for the symbols outside the alphabet.  Partial: each
    ordinary symbol of the alphabet is on a transition (C133_alphabet_refuted). *)
Theorem C133_relation_partial suf g l w : no_dot suf -> sound g -> (forall s, In s (alpha g) -> ordinary s -> used g s) ->
  relation (rename_flag_diacritics suf g) l w <-> exists k, relation g k w /\ Forall2 (pair_suffix suf) k l.
Proof.
  intros N S U. rewrite (rename_relation suf g l w N S U). split; intros (k & R & H); exists k; (split; [exact R|]); apply pair_suffix_map; exact H.
Qed.
Print Assumptions C133_relation_partial.

(** Examples: t reads a flag that sets F to A and rewrites a as b; a reads a flag that requires
    A and rewrites b as c. *)
Definition pf : bstr := B "@P.F.A@". Definition rf : bstr := B "@R.F.A@".
Definition ext : graph := of_ops [OAddTransition 0 (Arc 1 pf pf 0); OAddTransition 1 (Arc 2 xa xb 2); OSetFinal 2 1].
Definition exta : graph := of_ops [OAddTransition 0 (Arc 1 rf rf 0); OAddTransition 1 (Arc 2 xb xc 0); OSetFinal 2 0].
Definition exid : graph := of_ops [OAddTransition 0 (Arc 1 pf pf 0); OAddTransition 1 (Arc 2 IDN IDN 0); OSetFinal 2 0; OAddSymbol xb].
Lemma sound_ext : sound ext. Proof. apply sound_ops; vm_compute; reflexivity. Qed.
Lemma sound_exta : sound exta. Proof. apply sound_ops; vm_compute; reflexivity. Qed.
Lemma sound_exid : sound exid. Proof. apply sound_ops; vm_compute; reflexivity. Qed.
Lemma accepts_ext : accepts ext [(pf, pf); (xa, xb)] 3.
Proof.
  exists 2, 2%Z, 1%Z. split; [|split; reflexivity]. change 2%Z with (0 + (2 + 0))%Z. apply (run_cons _ 0 (Arc 1 pf pf 0)); [left; reflexivity|].
  apply (run_cons _ 1 (Arc 2 xa xb 2)); [left; reflexivity|constructor].
Qed.
Lemma relation_ext : relation ext [(pf, pf); (xa, xb)] 3.
Proof.
  exists [(pf, pf); (xa, xb)]. split; [exact accepts_ext|]. constructor; [|constructor; [|constructor]]; apply means_itself; try discriminate; intros [K _]; discriminate.
Qed.
Lemma flag_pf : is_flag pf. Proof. apply flag_iff. reflexivity. Qed.
Lemma flag_rf : is_flag rf. Proof. apply flag_iff. reflexivity. Qed.
Lemma plain_flag s : is_diacritic s = false -> ~ is_flag s. Proof. intros H F. apply flag_iff in F. congruence. Qed.

Example C133_witness :
  accepts (rename_flag_diacritics (B "_1") ext) [(B "@P.F_1.A@", B "@P.F_1.A@"); (xa, xb)] 3 /\
  (forall a', ~ exists k, relation (rename_flag_diacritics (B "_1") ext) ((pf, pf) :: a') k) /\
  (accepted [Some (FP (B "F") (B "A")); Some (FR (B "F") (Some (B "A")))] = true /\
   exists zs, Forall2 reads [B "@P.F_1.A@"; B "@R.F_2.A@"] zs /\ accepted zs = false).
Proof.
  split; [|split; [|split]].
  - apply C133_renamed. exists [(pf, pf); (xa, xb)]. split; [exact accepts_ext|]. apply pair_suffix_map. reflexivity.
  - intros a' (k & R). apply (C133_relation_partial (B "_1") ext) in R; [|exact nd1|exact sound_ext|].
    + destruct R as (l & _ & F). inversion F as [|p q ? ? [H _] ? Ea Eb]; subst. cbn [fst] in H. apply with_suffix_fun in H. assert (N : pf <> rename_symbol (B "_1") (fst p)).
      { unfold rename_symbol. destruct (is_diacritic (fst p)) eqn:D; [|intros E; rewrite <- E in D; discriminate D]. intros E.
        pose proof (rename_with_suffix (B "_1") (fst p)) as W. unfold rename_symbol in W. rewrite D in W. rewrite <- E in W.
        remember pf as y eqn:Ey. destruct W as [o f O Nf Df|o f v O Df|s Ns].
        - unfold form1 in Ey. destruct O as [<-|[<-|[<-|[]]]]; discriminate Ey.
        - unfold form2 in Ey. destruct O as [<-|[<-|[<-|[<-|[<-|[<-|[]]]]]]]; try discriminate Ey. apply (f_equal (skipn 3)) in Ey. cbn [B app skipn] in Ey.
          destruct f as [|c0 f]; [discriminate Ey|]. injection Ey as _ Ey. destruct f as [|c1 f]; [discriminate Ey|]. injection Ey as -> Ey. apply Df. right. left. reflexivity.
        - exact (Ns (proj1 (flag_iff _) D)). }
      contradiction.
    + clear R. intros s Hs O. assert (Q : s = EPS \/ s = IDN \/ s = UNK \/ s = pf \/ s = xa \/ s = xb) by (clear O; revert Hs; vm_compute; intuition auto).
      destruct Q as [->|[->|[->|[->|[->| ->]]]]].
      * destruct O as [N _]; destruct N; left; reflexivity.
      * destruct O as [N _]; destruct N; right; right; reflexivity.
      * destruct O as [N _]; destruct N; right; left; reflexivity.
      * destruct O as (_ & D & _); discriminate D.
      * exists 1, (Arc 2 xa xb 2). split; left; reflexivity.
      * exists 1, (Arc 2 xa xb 2). split; [left; reflexivity|right; reflexivity].
  - reflexivity.
  - exists [Some (FP (B "F_1") (B "A")); Some (FR (B "F_2") (Some (B "A")))]. split; [|reflexivity]. constructor; [|constructor; [|constructor]].
    + apply (den_P (B "F_1") (B "A")). intros [K|[K|[K|[]]]]; discriminate K.
    + apply (den_Rv (B "F_2") (B "A")). intros [K|[K|[K|[]]]]; discriminate K.
Qed.

Lemma means_identity_inv al q : means al (IDN, IDN) q -> exists x, q = (x, x) /\ outside al x.
Proof.
  remember (IDN, IDN) as p eqn:E. intros M. destruct M as [x O|x y O O' N|x o O N|i y O N|i o N1 N2 N3]; pose proof (f_equal fst E) as E1; pose proof (f_equal snd E) as E2; cbn [fst snd] in E1, E2.
  - exists x. auto.
  - discriminate E1.
  - discriminate E1.
  - discriminate E2.
  - subst. destruct N3. auto.
Qed.
(** C133: a symbol that is only in the alphabet is forgotten: identity stands for it in the
    renamed transducer. *)
Theorem C133_alphabet_refuted : ~ forall suf g l w, no_dot suf -> sound g ->
  relation (rename_flag_diacritics suf g) l w <-> exists k, relation g k w /\ Forall2 (pair_suffix suf) k l.
Proof.
  intros H. set (pf1 := B "@P.F_1.A@"). destruct (proj1 (H (B "_1") exid [(pf1, pf1); (xb, xb)] 0%Z nd1 sound_exid)) as (k & (m & A & M) & F).
  - exists [(pf1, pf1); (IDN, IDN)]. split.
    + apply C133_renamed. exists [(pf, pf); (IDN, IDN)]. split; [|apply pair_suffix_map; reflexivity]. exists 2, 0%Z, 0%Z. split; [|split; reflexivity].
      change 0%Z with (0 + (0 + 0))%Z. apply (run_cons _ 0 (Arc 1 pf pf 0)); [left; reflexivity|]. apply (run_cons _ 1 (Arc 2 IDN IDN 0)); [left; reflexivity|constructor].
    + constructor; [apply means_itself; try discriminate; intros [K _]; discriminate K|]. constructor; [|constructor]. apply means_identity, outside_b. vm_compute. intuition discriminate.
  - destruct A as (s & v & f & R & Fi & E). inversion R as [|s0 b l' v' u Ha R' Es El]; subst; [discriminate Fi|]. destruct Ha as [<-|[]]. cbn [tgt] in R'.
    inversion R' as [|s0 b l'' v'' u' Hb R'' Es El]; subst; [discriminate Fi|]. destruct Hb as [<-|[]]. inversion M as [|p q ? c' Mp M']; subst. inversion M' as [|p' q' ? c'' Mp' M'']; subst.
    inversion F as [|? ? ? ? [F1 _] F']; subst. inversion F' as [|? ? ? ? [F2 _] F'']; subst. cbn [fst snd] in F2. apply with_suffix_fun in F2.
    cbn [label isy osy] in Mp'. apply means_identity_inv in Mp'. destruct Mp' as (x & -> & (Ox & Nx)). cbn [fst] in F2. rewrite rename_other in F2 by (apply Ox). subst x. apply Nx. vm_compute. intuition auto.
Qed.
Print Assumptions C133_alphabet_refuted.

(** C134: inserting the missing flags adds each flag of the other alphabet that the transducer
    does not know, anywhere and any number of times, at no weight; nothing else changes. *)
Definition missing (another t : graph) (p : bstr * bstr) : Prop := fst p = snd p /\ is_flag (fst p) /\ In (fst p) (alpha another) /\ ~ In (fst p) (alpha t).
Lemma missing_pair_iff another t p : missing_pair another t p <-> missing another t p.
Proof. unfold missing_pair, missing. rewrite missing_In. tauto. Qed.
Theorem C134_missing_flags another t : structure_ok t ->
  (forall l w, accepts (insert_freely_missing_flags_from another t) l w <-> exists k, accepts t k w /\ with_added (missing another t) k l) /\
  (forall l w, relation (insert_freely_missing_flags_from another t) l w <-> exists k, relation t k w /\ with_added (missing another t) k l) /\
  (forall s, In s (alpha (insert_freely_missing_flags_from another t)) <-> In s (alpha t) \/ is_flag s /\ In s (alpha another)).
Proof.
  intros S. assert (Q : forall k l, with_added (missing_pair another t) k l <-> with_added (missing another t) k l) by (intros k l; split; apply added_mono; intros p; apply missing_pair_iff).
  split; [|split].
  - intros l w. rewrite missing_accepts by exact S. split; intros (k & A & W); exists k; (split; [exact A|]); apply Q; exact W.
  - intros l w. rewrite missing_relation by exact S. split; intros (k & A & W); exists k; (split; [exact A|]); apply Q; exact W.
  - intros s. rewrite missing_alpha, missing_In. split; [tauto|]. intros [H|[F H]]; [auto|]. destruct (in_dec (list_eq_dec ascii_dec) s (alpha t)); tauto.
Qed.
Print Assumptions C134_missing_flags.

(** C134: harmonizing with insertion when only one transducer has flags: the other gets them,
    the one that has them stays. *)
Theorem C134_harmonized t a r a' : structure_ok t -> structure_ok a -> harmonize_flag_diacritics true t a r a' ->
  ~ ((exists s, In s (alpha t) /\ is_flag s) /\ (exists s, In s (alpha a) /\ is_flag s)) ->
  exists h, r = Ok h /\
    (forall l w, relation h l w <-> exists k, relation t k w /\ with_added (missing a t) k l) /\
    (forall l w, relation a' l w <-> exists k, relation a k w /\ with_added (missing t a) k l).
Proof.
  intros St Sa H N. assert (F : forall g, has_flags g = true <-> exists s, In s (alpha g) /\ is_flag s).
  { intros g. unfold has_flags. rewrite existsb_exists. split; intros (s & Hs & Q); exists s; (split; [exact Hs|]); apply flag_iff; exact Q. }
  assert (No : forall g g', has_flags g = false -> forall l w, relation g' l w <-> exists k, relation g' k w /\ with_added (missing g g') k l).
  { intros g g' E l w. split; [intros R; exists l; split; [exact R|clear; induction l; constructor; assumption]|]. intros (k & R & W).
    assert (Q : k = l); [|subst; exact R]. clear R. induction W as [|p k l W IH|p k l Hp W IH]; [reflexivity|congruence|]. exfalso. destruct Hp as (_ & Fp & Hp & _).
    assert (K : has_flags g = true) by (apply F; exists (fst p); auto). congruence. }
  revert H. unfold harmonize_flag_diacritics. destruct (has_flags t) eqn:Et, (has_flags a) eqn:Ea.
  - destruct N. split; apply F; assumption.
  - intros (-> & ->). exists t. split; [reflexivity|]. split; [apply No; exact Ea|]. apply C134_missing_flags, Sa.
  - intros (-> & ->). eexists. split; [reflexivity|]. split; [apply C134_missing_flags, St|apply No; exact Et].
  - intros (-> & ->). exists t. split; [reflexivity|]. split; apply No; assumption.
Qed.
Print Assumptions C134_harmonized.

Definition explain : graph := of_ops [OAddTransition 0 (Arc 1 xb xc 0); OSetFinal 1 0].
Example C134_witness : relation (insert_freely_missing_flags_from ext explain) [(pf, pf); (xb, xc); (pf, pf)] 0 /\ missing ext explain (pf, pf).
Proof.
  assert (Mi : missing ext explain (pf, pf)).
  { split; [reflexivity|]. split; [exact flag_pf|]. split; [vm_compute; auto 10|vm_compute; intuition discriminate]. }
  split; [|exact Mi]. apply C134_missing_flags; [apply structure_of|]. exists [(xb, xc)]. split.
  - exists [(xb, xc)]. split; [|constructor; [apply means_itself; try discriminate; intros [K _]; discriminate K|constructor]].
    exists 1, 0%Z, 0%Z. split; [|split; reflexivity]. change 0%Z with (0 + 0)%Z. apply (run_cons _ 0 (Arc 1 xb xc 0)); [left; reflexivity|constructor].
  - apply wa_add; [exact Mi|]. apply wa_keep. apply wa_add; [exact Mi|constructor].
Qed.

(** C135: removing the illegal flag paths keeps just the results in which no flag of the first
    transducer stands directly after one of the second.
    Partial: every flag of the alphabet is on a transition and has a value and one of the two
    suffixes (C135_no_value_refuted); no symbol is a flag written between dollar signs; results
    with pattern matching symbols are left out; the alphabet has no symbols of the form @_..._@
    besides the three reserved ones; of several weights the lightest need be kept. *)
Theorem C135_illegal_partial g : sound g -> no_internal_symbols g ->
  (forall s, In s (alpha g) -> is_flag s -> used g s /\ (contains (B "_1.") s \/ contains (B "_2.") s) /\ ~ (contains (B "_1.") s /\ contains (B "_2.") s)) ->
  (forall s, In s (alpha g) -> ~ dollar_form s) ->
  (exists r, remove_illegal_flag_paths g r) /\
  forall r, remove_illegal_flag_paths g r -> exists h, r = Ok h /\
    (forall x z w, related h x z w -> related g x z w /\ legal z) /\
    (forall x z w, related g x z w -> legal z -> Forall (fun s => ordinary s \/ is_flag s) z -> (forall s, In s x \/ In s z -> ~ dollar_form s) ->
       exists w', related h x z w' /\ (w' <= w)%Z).
Proof. intros S NI HF HD. exact (illegal_whole g S NI HF HD). Qed.
Print Assumptions C135_illegal_partial.

(** Two flags of the two kinds in both orders; and a flag without a value. *)
Definition p1 : bstr := B "@P.F_1.A@". Definition p2 : bstr := B "@P.F_2.A@". Definition d1 : bstr := B "@D.F_1@".
Definition exil : graph := of_ops [OAddTransition 0 (Arc 0 p1 p1 0); OAddTransition 0 (Arc 0 p2 p2 0); OAddTransition 0 (Arc 1 xa xb 1); OSetFinal 1 0].
Definition exnv : graph := of_ops [OAddTransition 0 (Arc 0 p1 p1 0); OAddTransition 0 (Arc 0 p2 p2 0); OAddTransition 0 (Arc 1 d1 d1 0); OSetFinal 1 0].
Lemma sound_exil : sound exil. Proof. apply sound_ops; vm_compute; reflexivity. Qed.
Lemma sound_exnv : sound exnv. Proof. apply sound_ops; vm_compute; reflexivity. Qed.
Lemma alpha_exil s : In s (alpha exil) -> s = EPS \/ s = IDN \/ s = UNK \/ s = p1 \/ s = p2 \/ s = xa \/ s = xb.
Proof. vm_compute. intuition auto. Qed.
Lemma not_dollar (c : ascii) r : c <> "$"%char -> ~ dollar_form (c :: r).
Proof. intros N (m & E & _). injection E as E _. congruence. Qed.
Lemma no_dollars l : forallb (fun s => match s with c :: _ => negb (Ascii.eqb c "$") | [] => false end) l = true -> forall s, In s l -> ~ dollar_form s.
Proof.
  intros H s Hs. rewrite forallb_forall in H. specialize (H s Hs). destruct s as [|c r]; [discriminate H|]. apply not_dollar. intros ->. discriminate H.
Qed.
Example C135_witness : exists h, remove_illegal_flag_paths exil (Ok h) /\
  (exists w, related h [p1; p2; xa] [p1; p2; xb] w) /\ (forall x w, ~ related h x [p2; p1; xb] w) /\ related exil [p2; p1; xa] [p2; p1; xb] 1.
Proof.
  assert (HF : forall s, In s (alpha exil) -> is_flag s -> used exil s /\ (contains (B "_1.") s \/ contains (B "_2.") s) /\ ~ (contains (B "_1.") s /\ contains (B "_2.") s)).
  { intros s Hs F. apply alpha_exil in Hs. destruct Hs as [->|[->|[->|[->|[->|[->| ->]]]]]]; try (apply flag_iff in F; discriminate F); rewrite <- !occurs_iff.
    - split; [exists 0, (Arc 0 p1 p1 0); split; left; reflexivity|]. vm_compute. intuition discriminate.
    - split; [exists 0, (Arc 0 p2 p2 0); split; [right; left; reflexivity|left; reflexivity]|]. vm_compute. intuition discriminate. }
  destruct (C135_illegal_partial exil sound_exil ltac:(apply plainly_ok; vm_compute; reflexivity) HF ltac:(apply no_dollars; vm_compute; reflexivity)) as ((r & Hr) & T).
  destruct (T r Hr) as (h & -> & T1 & T2). exists h. split; [exact Hr|].
  assert (Fo : ordinary xb) by exact ordinary_b.
  assert (Rel : forall s1 s2, (s1 = p1 /\ s2 = p2) \/ (s1 = p2 /\ s2 = p1) -> related exil [s1; s2; xa] [s1; s2; xb] 1).
  { assert (Me : forall i o, i <> UNK -> o <> UNK -> i <> IDN -> means (alpha exil) (i, o) (i, o)) by (intros i o N1 N2 N3; apply means_itself; [exact N1|exact N2|intros [K _]; exact (N3 K)]).
    intros s1 s2 [[-> ->]|[-> ->]].
    - exists [(p1, p1); (p2, p2); (xa, xb)]. split; [|split; reflexivity]. exists [(p1, p1); (p2, p2); (xa, xb)]. split; [|repeat (constructor; [apply Me; discriminate|]); constructor].
      exists 1, 1%Z, 0%Z. split; [|split; reflexivity]. change 1%Z with (0 + (0 + (1 + 0)))%Z. apply (run_cons _ 0 (Arc 0 p1 p1 0)); [left; reflexivity|].
      apply (run_cons _ 0 (Arc 0 p2 p2 0)); [right; left; reflexivity|]. apply (run_cons _ 0 (Arc 1 xa xb 1)); [right; right; left; reflexivity|constructor].
    - exists [(p2, p2); (p1, p1); (xa, xb)]. split; [|split; reflexivity]. exists [(p2, p2); (p1, p1); (xa, xb)]. split; [|repeat (constructor; [apply Me; discriminate|]); constructor].
      exists 1, 1%Z, 0%Z. split; [|split; reflexivity]. change 1%Z with (0 + (0 + (1 + 0)))%Z. apply (run_cons _ 0 (Arc 0 p2 p2 0)); [right; left; reflexivity|].
      apply (run_cons _ 0 (Arc 0 p1 p1 0)); [left; reflexivity|]. apply (run_cons _ 0 (Arc 1 xa xb 1)); [right; right; left; reflexivity|constructor]. }
  assert (C1 : contains (B "_1.") p1) by (exists (B "@P.F"), (B "A@"); reflexivity). assert (C2 : contains (B "_2.") p2) by (exists (B "@P.F"), (B "A@"); reflexivity).
  assert (F1 : is_flag p1) by (apply flag_iff; reflexivity). assert (F2 : is_flag p2) by (apply flag_iff; reflexivity).
  split; [|split; [|apply Rel; auto]].
  - destruct (T2 [p1; p2; xa] [p1; p2; xb] 1%Z (Rel p1 p2 ltac:(auto))) as (w & R & _); [..|exists w; exact R].
    + apply legal_cons. split; [apply legal_cons; split; [apply legal_cons; split; [exact legal_nil|discriminate]|]|].
      * intros t b E _ [F _]. injection E as <- _. revert F. apply plain_flag. reflexivity.
      * intros t b E [_ C] _. apply occurs_iff in C. discriminate C.
    + constructor; [auto|constructor; [auto|constructor; [auto|constructor]]].
    + intros s Hs. assert (Hs' : In s [p1; p2; xa; xb]) by (simpl in *; intuition auto). clear Hs. revert s Hs'. apply no_dollars. vm_compute. reflexivity.
  - intros x w R. destruct (T1 _ _ _ R) as [_ L]. apply (L [] p2 p1 [xb] eq_refl); split; assumption.
Qed.

(** C135: a flag without a value is not recognized by its suffix, and all results with it are
    lost. *)
Theorem C135_no_value_refuted : exists g h x w, sound g /\ no_internal_symbols g /\ (forall s, In s (alpha g) -> ~ dollar_form s) /\
  (forall s, In s (alpha g) -> is_flag s -> used g s /\ exists y, y <> s /\ (with_suffix (B "_1") y s \/ with_suffix (B "_2") y s)) /\
  remove_illegal_flag_paths g (Ok h) /\ related g x x w /\ legal x /\ Forall is_flag x /\ ~ exists w', related h x x w'.
Proof.
  destruct (illegal_exists exnv sound_exnv ltac:(vm_compute; discriminate) ltac:(vm_compute; discriminate)) as (h & Hh). exists exnv, h, [d1], 0%Z. split; [exact sound_exnv|].
  assert (NI : no_internal_symbols exnv) by (apply plainly_ok; vm_compute; reflexivity). split; [exact NI|]. split; [apply no_dollars; vm_compute; reflexivity|]. split.
  { intros s Hs F. assert (Q : s = EPS \/ s = IDN \/ s = UNK \/ s = p1 \/ s = p2 \/ s = d1) by (clear F; revert Hs; vm_compute; intuition auto).
    destruct Q as [->|[->|[->|[->|[->| ->]]]]]; try (apply flag_iff in F; discriminate F).
    - split; [exists 0, (Arc 0 p1 p1 0); split; left; reflexivity|]. exists pf. split; [discriminate|]. left. exact (rename_with_suffix (B "_1") pf).
    - split; [exists 0, (Arc 0 p2 p2 0); split; [right; left; reflexivity|left; reflexivity]|]. exists pf. split; [discriminate|]. right. exact (rename_with_suffix (B "_2") pf).
    - split; [exists 0, (Arc 1 d1 d1 0); split; [right; right; left; reflexivity|left; reflexivity]|]. exists (B "@D.F@"). split; [discriminate|]. left. exact (rename_with_suffix (B "_1") (B "@D.F@")). }
  split; [exact Hh|]. split; [|split; [|split]].
  - exists [(d1, d1)]. split; [|split; reflexivity]. exists [(d1, d1)]. split; [|constructor; [apply means_itself; try discriminate; intros [K _]; discriminate K|constructor]].
    exists 1, 0%Z, 0%Z. split; [|split; reflexivity]. change 0%Z with (0 + 0)%Z. apply (run_cons _ 0 (Arc 1 d1 d1 0)); [right; right; left; reflexivity|constructor].
  - intros a s t b E. destruct a as [|? [|? ?]]; discriminate E.
  - constructor; [apply flag_iff; reflexivity|constructor].
  - intros (w' & R). pose proof (illegal_kinds exnv sound_exnv NI ltac:(vm_compute; discriminate) ltac:(vm_compute; discriminate) h Hh _ _ _ R) as K. inversion K as [|? ? [O|D] _]; subst.
    + destruct O as (_ & D & _). discriminate D.
    + revert D. vm_compute. intuition discriminate.
Qed.
Print Assumptions C135_no_value_refuted.

(** C136: making flags two-sided splits each pair with a flag on one side only, or with two
    different flags, into two pairs in which the flag is on both sides; the weight of the path
    stays, the text without flags and epsilons stays, and no transition of the result has a flag
    on one side only. *)
Theorem C136_two_sided g : structure_ok g ->
  (forall l w, accepts (twosided_flag_diacritics g) l w <-> exists k ls, accepts g k w /\ Forall2 two_sided k ls /\ l = concat ls) /\
  (forall n b, In b (nth n (sts (twosided_flag_diacritics g)) []) -> is_flag (isy b) \/ is_flag (osy b) -> isy b = osy b) /\
  (forall k ls, Forall2 two_sided k ls -> plain_text (map fst (concat ls)) = plain_text (map fst k) /\ plain_text (map snd (concat ls)) = plain_text (map snd k)) /\
  (forall s, In s (alpha (twosided_flag_diacritics g)) <-> special s \/ used (twosided_flag_diacritics g) s).
Proof.
  intros S. split; [|split; [|split]].
  - intros l w. rewrite (twosided_accepts g S). split.
    + intros (k & A & E). apply two_sided_concat in E. destruct E as (ls & F & E). exists k, ls. auto.
    + intros (k & ls & A & F & E). exists k. split; [exact A|]. apply two_sided_concat. exists ls. auto.
  - intros n b Hb F. apply (twosided_arcs g n b Hb). destruct F as [F|F]; [left|right]; apply flag_iff, F.
  - intros k ls F. assert (E : concat ls = flat_map split_pair k) by (apply two_sided_concat; exists ls; auto). rewrite E. apply split_text.
  - apply twosided_alpha.
Qed.
Print Assumptions C136_two_sided.
Definition exone : graph := of_ops [OAddTransition 0 (Arc 1 pf xa 2); OAddTransition 1 (Arc 2 pf rf 1); OSetFinal 2 0].
Example C136_witness : accepts (twosided_flag_diacritics exone) [(pf, pf); (EPS, xa); (pf, pf); (rf, rf)] 3.
Proof.
  apply C136_two_sided; [apply structure_of|]. exists [(pf, xa); (pf, rf)], [[(pf, pf); (EPS, xa)]; [(pf, pf); (rf, rf)]]. split; [|split; [|reflexivity]].
  - exists 2, 3%Z, 0%Z. split; [|split; reflexivity]. change 3%Z with (2 + (1 + 0))%Z. apply (run_cons _ 0 (Arc 1 pf xa 2)); [left; reflexivity|]. apply (run_cons _ 1 (Arc 2 pf rf 1)); [left; reflexivity|constructor].
  - constructor; [apply (two_input pf xa); [exact flag_pf|apply plain_flag; reflexivity]|]. constructor; [apply (two_flags pf rf); [exact flag_pf|exact flag_rf|discriminate]|constructor].
Qed.
(** C136: a transducer whose flags are two-sided already keeps its paths, but not its relation: a
    symbol that is only in the alphabet is forgotten. *)
Theorem C136_alphabet_refuted : ~ forall g l w, sound g -> (forall n b, In b (nth n (sts g) []) -> is_flag (isy b) \/ is_flag (osy b) -> isy b = osy b) ->
  relation (twosided_flag_diacritics g) l w -> relation g l w.
Proof.
  intros H. destruct (H exid [(pf, pf); (xb, xb)] 0%Z sound_exid) as (m & A & M).
  - intros n b Hb F. destruct n as [|[|[|n]]].
    + destruct Hb as [<-|[]]. reflexivity.
    + destruct Hb as [<-|[]]. reflexivity.
    + destruct Hb.
    + destruct n; destruct Hb.
  - exists [(pf, pf); (IDN, IDN)]. split.
    + apply C136_two_sided; [apply structure_of|]. exists [(pf, pf); (IDN, IDN)], [[(pf, pf)]; [(IDN, IDN)]]. split; [|split; [repeat constructor; apply two_same|reflexivity]].
      exists 2, 0%Z, 0%Z. split; [|split; reflexivity]. change 0%Z with (0 + (0 + 0))%Z. apply (run_cons _ 0 (Arc 1 pf pf 0)); [left; reflexivity|]. apply (run_cons _ 1 (Arc 2 IDN IDN 0)); [left; reflexivity|constructor].
    + constructor; [apply means_itself; try discriminate; intros [K _]; discriminate K|]. constructor; [|constructor]. apply means_identity, outside_b. vm_compute. intuition discriminate.
  - destruct A as (s & v & f & R & Fi & E). inversion R as [|s0 b l' v' u Ha R' Es El]; subst; [discriminate Fi|]. destruct Ha as [<-|[]]. cbn [tgt] in R'.
    inversion R' as [|s0 b l'' v'' u' Hb R'' Es El]; subst; [discriminate Fi|]. destruct Hb as [<-|[]]. inversion M as [|p q ? c' Mp M']; subst. inversion M' as [|p' q' ? c'' Mp' M'']; subst.
    cbn [label isy osy] in Mp'. apply means_identity_inv in Mp'. destruct Mp' as (x & Ex & (Ox & Nx)). assert (E2 : x = xb) by (symmetry; exact (f_equal fst Ex)). subst x. apply Nx. vm_compute. intuition auto.
Qed.
Print Assumptions C136_alphabet_refuted.

(** C137: harmonizing two transducers with flags, with insertion: each keeps its own paths with
    its flags renamed, and passes over the flags of the other anywhere; of the first just those
    results are kept in which none of its own flags stands directly after one of the other's.
    Partial: as C135; each ordinary symbol of an alphabet is on a transition (C133_alphabet_refuted);
    flags have values without dots (C135_no_value_refuted). *)
Theorem C137_harmonized_partial t a : sound t -> sound a -> no_internal_symbols t ->
  (exists s, In s (alpha t) /\ is_flag s) -> (exists s, In s (alpha a) /\ is_flag s) ->
  (forall s, In s (alpha t) -> is_flag s -> valued s) -> (forall s, In s (alpha a) -> is_flag s -> valued s) ->
  (forall s, In s (alpha t) -> ordinary s -> used t s) -> (forall s, In s (alpha a) -> ordinary s -> used a s) ->
  (forall s, In s (alpha t) -> ~ dollar_form s) ->
  (exists r a', harmonize_flag_diacritics true t a r a') /\
  forall r a', harmonize_flag_diacritics true t a r a' -> exists h, r = Ok h /\
    (forall x z w, related h x z w ->
       legal z /\ exists k c l, relation t k w /\ Forall2 (pair_suffix (B "_1")) k c /\ with_added (flag_of (B "_2") a) c l /\
         x = no_epsilons (map fst l) /\ z = no_epsilons (map snd l)) /\
    (forall k c l w x z, relation t k w -> Forall2 (pair_suffix (B "_1")) k c -> with_added (flag_of (B "_2") a) c l ->
       x = no_epsilons (map fst l) -> z = no_epsilons (map snd l) -> legal z ->
       Forall (fun s => ordinary s \/ is_flag s) z -> (forall s, In s x \/ In s z -> ~ dollar_form s) ->
       exists w', related h x z w' /\ (w' <= w)%Z) /\
    (forall l w, relation a' l w <->
       exists k c, relation a k w /\ Forall2 (pair_suffix (B "_2")) k c /\ with_added (flag_of (B "_1") t) c l).
Proof.
  intros St Sa It Ft Fa Vt Va Ut Ua Dt. assert (F : forall g, (exists s, In s (alpha g) /\ is_flag s) -> has_flags g = true).
  { intros g (s & Hs & Q). unfold has_flags. apply existsb_exists. exists s. split; [exact Hs|apply flag_iff, Q]. }
  unfold harmonize_flag_diacritics. rewrite (F t Ft), (F a Fa).
  destruct (C135_illegal_partial _ (t2_sound t a St) (t2_internal t a St It) (t2_flags t a St Sa Vt Va) (t2_dollar t a St Dt)) as ((r0 & H0) & T).
  split; [exists r0; eexists; split; [reflexivity|exact H0]|]. intros r a' (-> & Hr). destruct (T r Hr) as (h & -> & T1 & T2). exists h. split; [reflexivity|]. split; [|split].
  - intros x z w R. destruct (T1 x z w R) as ((l & Rl & Ex & Ez) & L). split; [exact L|]. apply (t2_relation t a St Sa Vt Va Ut) in Rl. destruct Rl as (k & c & R1 & R2 & R3). exists k, c, l. auto.
  - intros k c l w x z R1 R2 R3 Ex Ez L Fz Nd. apply (T2 x z w); try assumption. exists l. split; [|auto]. apply (t2_relation t a St Sa Vt Va Ut). exists k, c. auto.
  - intros l w. apply (a2_relation t a St Sa Vt Va Ua).
Qed.
Print Assumptions C137_harmonized_partial.

Example C137_witness : exists h a', harmonize_flag_diacritics true ext exta (Ok h) a' /\
  (exists w, related h [p1; B "@R.F_2.A@"; xa] [p1; B "@R.F_2.A@"; xb] w) /\ relation a' [(p1, p1); (B "@R.F_2.A@", B "@R.F_2.A@"); (xb, xc)] 0.
Proof.
  set (r2 := B "@R.F_2.A@").
  assert (At : forall s, In s (alpha ext) -> s = EPS \/ s = IDN \/ s = UNK \/ s = pf \/ s = xa \/ s = xb) by (intros s; vm_compute; intuition auto).
  assert (Aa : forall s, In s (alpha exta) -> s = EPS \/ s = IDN \/ s = UNK \/ s = rf \/ s = xb \/ s = xc) by (intros s; vm_compute; intuition auto).
  assert (Nf : no_dot (B "F")) by (intros [K|[]]; discriminate K). assert (Na : no_dot (B "A")) by (intros [K|[]]; discriminate K).
  assert (Hp : In "P"%string ["P"; "N"; "R"; "D"; "C"; "U"]%string) by (left; reflexivity). assert (Hr : In "R"%string ["P"; "N"; "R"; "D"; "C"; "U"]%string) by (right; right; left; reflexivity).
  destruct (C137_harmonized_partial ext exta sound_ext sound_exta ltac:(apply plainly_ok; vm_compute; reflexivity)) as ((r & a' & H) & T).
  - exists pf. split; [vm_compute; auto 10|exact flag_pf].
  - exists rf. split; [vm_compute; auto 10|exact flag_rf].
  - intros s Hs F. destruct (At s Hs) as [->|[->|[->|[->|[->| ->]]]]]; try (apply flag_iff in F; discriminate F). exists "P"%string, (B "F"), (B "A"). auto.
  - intros s Hs F. destruct (Aa s Hs) as [->|[->|[->|[->|[->| ->]]]]]; try (apply flag_iff in F; discriminate F). exists "R"%string, (B "F"), (B "A"). auto.
  - intros s Hs O. destruct (At s Hs) as [->|[->|[->|[->|[->| ->]]]]];
      [destruct O as [N _]; destruct N; left; reflexivity|destruct O as [N _]; destruct N; right; right; reflexivity|destruct O as [N _]; destruct N; right; left; reflexivity|destruct O as (_ & D & _); discriminate D|..];
      exists 1, (Arc 2 xa xb 2); (split; [left; reflexivity|]); [left|right]; reflexivity.
  - intros s Hs O. destruct (Aa s Hs) as [->|[->|[->|[->|[->| ->]]]]];
      [destruct O as [N _]; destruct N; left; reflexivity|destruct O as [N _]; destruct N; right; right; reflexivity|destruct O as [N _]; destruct N; right; left; reflexivity|destruct O as (_ & D & _); discriminate D|..];
      exists 1, (Arc 2 xb xc 0); (split; [left; reflexivity|]); [left|right]; reflexivity.
  - apply no_dollars. vm_compute. reflexivity.
  - destruct (T r a' H) as (h & -> & _ & T2 & T3). exists h, a'. split; [exact H|].
    assert (Fr : flag_of (B "_2") exta (r2, r2)).
    { split; [reflexivity|]. exists rf. split; [exists 0, (Arc 1 rf rf 0); split; left; reflexivity|]. split; [exact flag_rf|exact (rename_with_suffix (B "_2") rf)]. }
    assert (Fp : flag_of (B "_1") ext (p1, p1)).
    { split; [reflexivity|]. exists pf. split; [exists 0, (Arc 1 pf pf 0); split; left; reflexivity|]. split; [exact flag_pf|exact (rename_with_suffix (B "_1") pf)]. }
    split.
    + destruct (T2 [(pf, pf); (xa, xb)] [(p1, p1); (xa, xb)] [(p1, p1); (r2, r2); (xa, xb)] 3%Z [p1; r2; xa] [p1; r2; xb] relation_ext) as (w & R & _); [..|exists w; exact R].
      * apply pair_suffix_map. reflexivity.
      * apply wa_keep, wa_add; [exact Fr|]. apply wa_keep, wa_nil.
      * reflexivity.
      * reflexivity.
      * apply legal_cons. split; [apply legal_cons; split; [apply legal_cons; split; [exact legal_nil|discriminate]|]|].
        -- intros t b E _ [F _]. injection E as <- _. revert F. apply plain_flag. reflexivity.
        -- intros t b E [_ C] _. apply occurs_iff in C. discriminate C.
      * constructor; [right; apply flag_iff; reflexivity|]. constructor; [right; apply flag_iff; reflexivity|]. constructor; [left; exact ordinary_b|constructor].
      * intros s Hs. assert (Hs' : In s [p1; r2; xa; xb]) by (simpl in *; intuition auto). clear Hs. revert s Hs'. apply no_dollars. vm_compute. reflexivity.
    + apply T3. exists [(rf, rf); (xb, xc)], [(r2, r2); (xb, xc)]. split; [|split; [apply pair_suffix_map; reflexivity|apply wa_add; [exact Fp|]; apply wa_keep, wa_keep, wa_nil]].
      exists [(rf, rf); (xb, xc)]. split; [|constructor; [|constructor; [|constructor]]; apply means_itself; try discriminate; intros [K _]; discriminate K].
      exists 2, 0%Z, 0%Z. split; [|split; reflexivity]. change 0%Z with (0 + (0 + 0))%Z. apply (run_cons _ 0 (Arc 1 rf rf 0)); [left; reflexivity|].
      apply (run_cons _ 1 (Arc 2 xb xc 0)); [left; reflexivity|constructor].
Qed.
