(** Proofs: all the steps of harmonizing flag diacritics. *)
From Verif Require Import Base Flags_Model Flags_Spec Flags_Proofs BT_Model BT_Spec BT_Proofs BT_Proofs3 BT_Proofs4 BT_Proofs5 Harm_Model Harm_Spec Harm_Proofs Co_Spec Co_Model Co_Proofs Co_Props PU_Spec PU_Model
  Cr_Proofs FH_Spec FH_Model FH_Proofs FH_Proofs2 FH_Proofs4 FH_Proofs5.

(** * Soundness is kept *)
Lemma rename_nonempty suf s : no_dot suf -> s <> [] -> rename_symbol suf s <> [].
Proof. intros S N. unfold rename_symbol. destruct (is_diacritic s); [discriminate|exact N]. Qed.
Lemma rename_sound suf g : no_dot suf -> sound g -> sound (rename_flag_diacritics suf g).
Proof.
  intros Sd (((S1 & S2 & S3) & Y & P) & I & N0 & N).
  assert (Q : forall s a, In a (nth s (sts (rename_flag_diacritics suf g)) []) -> exists b, In b (nth s (sts g) []) /\ tgt a = tgt b /\ isy a = rename_symbol suf (isy b) /\ osy a = rename_symbol suf (osy b)).
  { intros s a Ha. cbn [rename_flag_diacritics copy_of sts] in Ha. rewrite nth_map_nil in Ha by reflexivity. apply in_map_iff in Ha. destruct Ha as (b & <- & Hb). exists b. auto. }
  assert (L : length (sts (rename_flag_diacritics suf g)) = length (sts g)) by (cbn [rename_flag_diacritics copy_of sts]; apply map_length).
  split; [split; [|split]|split; [|split]].
  - split; [|split].
    + intros E. apply S1. destruct (sts g); [reflexivity|]. rewrite E in L. discriminate L.
    + intros s a Ha. rewrite L. destruct (Q s a Ha) as (b & Hb & -> & _). exact (S2 s b Hb).
    + intros s w. rewrite L. exact (S3 s w).
  - intros s a Ha. split; apply rename_alpha; right; exists s, a; auto.
  - split; [|split]; apply rename_alpha; left; [left|right; left|right; right]; reflexivity.
  - intros s a Ha. destruct (Q s a Ha) as (b & Hb & _ & -> & ->). fold IDN. rewrite !(proj2 (proj2 (rename_special suf Sd _))). exact (I s b Hb).
  - rewrite rename_alpha, rename_used. intros [[K|[K|K]]|(y & (s & a & Ha & E) & K)]; try discriminate K. destruct (N s a Ha) as [Na Nb]. symmetry in K. revert K. apply rename_nonempty; [exact Sd|].
    destruct E as [->| ->]; assumption.
  - intros s a Ha. destruct (Q s a Ha) as (b & Hb & _ & -> & ->). destruct (N s b Hb). split; apply rename_nonempty; assumption.
Qed.
Lemma missing_states another t : sts t <> [] -> length (sts (insert_freely_missing_flags_from another t)) = length (sts t) /\ fin (insert_freely_missing_flags_from another t) = fin t /\
  forall s a, In a (nth s (sts (insert_freely_missing_flags_from another t)) []) <->
    In a (nth s (sts t) []) \/ s < length (sts t) /\ exists f, In f (missing_flags_in another t) /\ a = Arc s f f 0.
Proof.
  intros N. unfold insert_freely_missing_flags_from. destruct (missing_flags_in another t) as [|m0 ms] eqn:E.
  - split; [reflexivity|]. split; [reflexivity|]. intros s a. split; [auto|]. intros [H|(_ & f & [] & _)]. exact H.
  - cbn [with_sts sts fin]. split; [apply add_loops_length|]. split; [apply add_pairs_sts|]. intros s a. rewrite add_loops_nth. destruct (Nat.ltb_spec s (length (sts t))) as [L|L].
    + rewrite in_app_iff, in_map_iff. cbn [Nat.add]. split.
      * intros [H|(p & <- & Hp)]; [auto|]. right. split; [exact L|]. apply in_map_iff in Hp. destruct Hp as (f & <- & Hf). exists f. auto.
      * intros [H|(_ & f & Hf & ->)]; [auto|]. right. exists (f, f). split; [reflexivity|]. apply in_map_iff. exists f. auto.
    + split; [intros []|]. intros [H|[K _]]; [rewrite nth_overflow in H by exact L; destruct H|lia].
Qed.
Lemma missing_sound another t : sound t -> sound (insert_freely_missing_flags_from another t).
Proof.
  intros (((S1 & S2 & S3) & Y & P) & I & N0 & N). destruct (missing_states another t S1) as (L & F & A). pose proof (missing_alpha another t) as Al.
  assert (M : forall f, In f (missing_flags_in another t) -> is_diacritic f = true) by (intros f H; apply flag_iff; apply missing_In in H; tauto).
  split; [split; [|split]|split; [|split]].
  - split; [|split].
    + intros E. apply S1. destruct (sts t); [reflexivity|]. rewrite E in L. discriminate L.
    + intros s a Ha. rewrite L. apply A in Ha. destruct Ha as [Ha|(K & f & _ & ->)]; [exact (S2 s a Ha)|exact K].
    + intros s w. rewrite L, F. apply S3.
  - intros s a Ha. rewrite !Al. apply A in Ha. destruct Ha as [Ha|(K & f & Hf & ->)]; [destruct (Y s a Ha); auto|cbn [isy osy]; auto].
  - destruct P as (P1 & P2 & P3). split; [|split]; apply Al; auto.
  - intros s a Ha. apply A in Ha. destruct Ha as [Ha|(K & f & Hf & ->)]; [exact (I s a Ha)|reflexivity].
  - rewrite Al. intros [H|H]; [tauto|]. apply M in H. discriminate H.
  - intros s a Ha. apply A in Ha. destruct Ha as [Ha|(K & f & Hf & ->)]; [exact (N s a Ha)|]. cbn [isy osy]. apply M, flag_nonempty in Hf. auto.
Qed.

(** * Flags with values *)
Lemma dot_split (x y u v : bstr) : no_dot x -> x ++ "."%char :: y = u ++ "."%char :: v -> x = u /\ y = v \/ exists u', u = x ++ "."%char :: u' /\ y = u' ++ "."%char :: v.
Proof.
  revert u. induction x as [|c x IH]; intros [|d u] N E; cbn [app] in E.
  - injection E as ->. auto.
  - injection E as <- ->. right. exists u. auto.
  - injection E as -> _. destruct N. left. reflexivity.
  - injection E as <- E. destruct (IH u) as [[-> ->]|(u' & -> & ->)]; [intros K; apply N; right; exact K|exact E|auto|]. right. exists u'. auto.
Qed.
Lemma contains_own o f v suf : contains (suf ++ B ".") (form2 o (f ++ suf) v).
Proof. exists (B "@" ++ B o ++ B "." ++ f), (v ++ B "@"). unfold form2. rewrite <- !app_assoc. reflexivity. Qed.
Lemma after_dot (a x u : bstr) (e d : ascii) : e <> "."%char -> d <> "."%char -> a ++ [e; d] = x ++ "."%char :: u -> exists p, u = p ++ [e; d].
Proof.
  intros Ne Nd E. apply (f_equal (@rev ascii)) in E. rewrite !rev_app_distr in E. cbn [rev app] in E. rewrite <- app_assoc in E. cbn [app] in E.
  destruct (rev u) as [|z [|z' r]] eqn:R; cbn [app] in E.
  - injection E as K _. congruence.
  - injection E as _ K _. congruence.
  - injection E as <- <- _. exists (rev r). rewrite <- (rev_involutive u), R. cbn [rev]. rewrite <- app_assoc. reflexivity.
Qed.
Lemma contains_dot (e d : ascii) x y : e <> "."%char -> d <> "."%char -> no_dot x -> contains [e; d; "."%char] (x ++ "."%char :: y) ->
  (exists p, x = p ++ [e; d]) \/ contains [e; d; "."%char] y.
Proof.
  intros Ne Nd N (a & b & E). assert (E1 : x ++ "."%char :: y = (a ++ [e; d]) ++ "."%char :: b) by (rewrite <- app_assoc; exact E). apply dot_split in E1; [|exact N].
  destruct E1 as [[-> _]|(u & E1 & ->)]; [left; exists a; reflexivity|]. right. destruct (after_dot a x u e d Ne Nd E1) as (p & ->). exists p, b. rewrite <- app_assoc. reflexivity.
Qed.
Lemma contains_no_dot (e d : ascii) y : no_dot y -> ~ contains [e; d; "."%char] y.
Proof. intros N (a & b & ->). apply N. apply in_or_app. right. right. right. left. reflexivity. Qed.
Lemma ends_apart (p f : bstr) (c d : ascii) : c <> d -> f ++ ["_"%char; c] <> p ++ ["_"%char; d].
Proof. intros N E. apply (f_equal (@rev ascii)) in E. rewrite !rev_app_distr in E. injection E as K _. congruence. Qed.
Lemma contains_other o f v (c d : ascii) : In o ["P"; "N"; "R"; "D"; "C"; "U"]%string -> no_dot f -> no_dot v -> c <> d -> c <> "."%char -> d <> "."%char ->
  ~ contains ["_"; d; "."]%char (form2 o (f ++ ["_"; c]%char) v).
Proof.
  intros O F V N Nc Nd C. destruct (operator_char o O) as (k & Ek & Nk).
  assert (Ef : form2 o (f ++ ["_"; c]%char) v = ["@"%char; k] ++ "."%char :: (f ++ ["_"; c]%char) ++ "."%char :: v ++ ["@"%char]).
  { unfold form2. rewrite Ek. reflexivity. }
  rewrite Ef in C. assert (N0 : "_"%char <> "."%char) by discriminate. apply contains_dot in C; [|exact N0|exact Nd|intros [K|[K|[]]]; [discriminate K|congruence]].
  destruct C as [(p & E)|C].
  - apply (f_equal (@rev ascii)) in E. rewrite rev_app_distr in E. cbn [rev app] in E. injection E as _ K _. discriminate K.
  - apply contains_dot in C; [|exact N0|exact Nd|apply no_dot_app; [exact F|intros [K|[K|[]]]; [discriminate K|congruence]]]. destruct C as [(p & E)|C].
    + exact (ends_apart p f c d N E).
    + revert C. apply contains_no_dot, no_dot_app; [exact V|]. intros [K|[]]. discriminate K.
Qed.
Lemma renamed_valued s (c : ascii) : valued s -> exists o f v, In o ["P"; "N"; "R"; "D"; "C"; "U"]%string /\ no_dot f /\ no_dot v /\ rename_symbol ["_"%char; c] s = form2 o (f ++ ["_"%char; c]) v.
Proof.
  intros (o & f & v & O & F & V & ->). exists o, f, v. split; [exact O|]. split; [exact F|]. split; [exact V|]. symmetry. apply with_suffix_fun. constructor; assumption.
Qed.
Section Whole.
  Variables t a : graph.
  Hypothesis St : sound t.
  Hypothesis Sa : sound a.
  Hypothesis It : no_internal_symbols t.
  Hypothesis Ia : no_internal_symbols a.
  Hypothesis Vt : forall s, In s (alpha t) -> is_flag s -> valued s.
  Hypothesis Va : forall s, In s (alpha a) -> is_flag s -> valued s.
  Hypothesis Dt : forall s, In s (alpha t) -> ~ dollar_form s.
  Let t1 := rename_flag_diacritics (B "_1") t.
  Let a1 := rename_flag_diacritics (B "_2") a.
  Let t2 := insert_freely_missing_flags_from a1 t1.
  Lemma nd1 : no_dot (B "_1"). Proof using. intros [K|[K|[]]]; discriminate K. Qed.
  Lemma nd2 : no_dot (B "_2"). Proof using. intros [K|[K|[]]]; discriminate K. Qed.
  Lemma used_alpha g s : sound g -> used g s -> In s (alpha g).
  Proof using. intros ((_ & Y & _) & _) (n & b & Hb & E). destruct (Y n b Hb). destruct E as [->| ->]; assumption. Qed.
  Lemma t1_flag s : In s (alpha t1) -> is_flag s -> used t1 s /\ contains (B "_1.") s /\ ~ contains (B "_2.") s.
  Proof using St Vt.
    intros A F. unfold t1 in A. apply rename_alpha in A. destruct A as [[->|[->| ->]]|U]; try (apply flag_iff in F; discriminate F). split; [exact U|]. apply rename_used in U. destruct U as (y & U & ->).
    assert (Fy : is_flag y) by (apply (with_suffix_flag (B "_1") y (rename_symbol (B "_1") y) nd1 (rename_with_suffix _ _)); exact F).
    destruct (renamed_valued y "1" (Vt y (used_alpha t y St U) Fy)) as (o & f & v & O & Nf & Nv & E). change (B "_1") with ["_"%char; "1"%char]. rewrite E. split.
    - exact (contains_own o f v ["_"; "1"]%char).
    - apply (contains_other o f v "1" "2"); assumption || discriminate.
  Qed.
  Lemma a1_flag s : In s (alpha a1) -> is_flag s -> used a1 s /\ contains (B "_2.") s /\ ~ contains (B "_1.") s.
  Proof using Sa Va.
    intros A F. unfold a1 in A. apply rename_alpha in A. destruct A as [[->|[->| ->]]|U]; try (apply flag_iff in F; discriminate F). split; [exact U|]. apply rename_used in U. destruct U as (y & U & ->).
    assert (Fy : is_flag y) by (apply (with_suffix_flag (B "_2") y (rename_symbol (B "_2") y) nd2 (rename_with_suffix _ _)); exact F).
    destruct (renamed_valued y "2" (Va y (used_alpha a y Sa U) Fy)) as (o & f & v & O & Nf & Nv & E). change (B "_2") with ["_"%char; "2"%char]. rewrite E. split.
    - exact (contains_own o f v ["_"; "2"]%char).
    - apply (contains_other o f v "2" "1"); assumption || discriminate.
  Qed.
  Lemma missing_t s : In s (missing_flags_in a1 t1) <-> exists y, used a y /\ is_flag y /\ with_suffix (B "_2") y s.
  Proof using Sa Va St Vt.
    rewrite missing_In. split.
    - intros (F & A & _). destruct (a1_flag s A F) as (U & _). apply rename_used in U. destruct U as (y & U & ->). exists y. split; [exact U|]. split; [|apply rename_with_suffix].
      apply (with_suffix_flag (B "_2") y (rename_symbol (B "_2") y) nd2 (rename_with_suffix _ _)). exact F.
    - intros (y & U & F & W). pose proof (with_suffix_fun _ _ _ W) as E. apply (with_suffix_flag _ _ _ nd2 W) in F. assert (A : In s (alpha a1)).
      { apply rename_alpha. right. apply rename_used. exists y. auto. }
      split; [exact F|]. split; [exact A|]. intros K. destruct (a1_flag s A F) as (_ & _ & C). destruct (t1_flag s K F) as (_ & C' & _). tauto.
  Qed.
  Lemma missing_a s : In s (missing_flags_in t2 a1) <-> exists y, used t y /\ is_flag y /\ with_suffix (B "_1") y s.
  Proof using Sa Va St Vt.
    rewrite missing_In. unfold t2. rewrite missing_alpha. split.
    - intros (F & [A|A] & N); [|apply missing_In in A; tauto]. destruct (t1_flag s A F) as (U & _). apply rename_used in U. destruct U as (y & U & ->). exists y. split; [exact U|]. split; [|apply rename_with_suffix].
      apply (with_suffix_flag (B "_1") y (rename_symbol (B "_1") y) nd1 (rename_with_suffix _ _)). exact F.
    - intros (y & U & F & W). pose proof (with_suffix_fun _ _ _ W) as E. apply (with_suffix_flag _ _ _ nd1 W) in F. assert (A : In s (alpha t1)).
      { apply rename_alpha. right. apply rename_used. exists y. auto. }
      split; [exact F|]. split; [left; exact A|]. intros K. destruct (a1_flag s K F) as (_ & _ & C). destruct (t1_flag s A F) as (_ & C' & _). tauto.
  Qed.
  Lemma t1_sound : sound t1. Proof using St. apply rename_sound; [exact nd1|exact St]. Qed.
  Lemma a1_sound : sound a1. Proof using Sa. apply rename_sound; [exact nd2|exact Sa]. Qed.
  Lemma t2_sound : sound t2. Proof using St. apply missing_sound, t1_sound. Qed.
  Lemma t2_alpha s : In s (alpha t2) <-> special s \/ used t1 s \/ In s (missing_flags_in a1 t1).
  Proof using. unfold t2. rewrite missing_alpha. unfold t1 at 1. rewrite rename_alpha. tauto. Qed.
  Lemma flag_not_internal s : is_flag s -> ~ internal_symbol s.
  Proof using. intros F (m & ->). apply flag_iff in F. revert F. unfold is_diacritic. destruct (_ <? _); [discriminate|]. destruct (negb (at_is _ 2 _)); [discriminate|]. destruct (negb _); [discriminate|].
    destruct (negb _); [discriminate|]. cbn [at_is nth_error B app]. discriminate. Qed.
  Lemma t2_internal : no_internal_symbols t2.
  Proof using It St.
    intros s I A. apply t2_alpha in A. destruct A as [A|[A|A]]; [exact A| |].
    - apply rename_used in A. destruct A as (y & U & ->). unfold rename_symbol in *. destruct (is_diacritic y) eqn:D.
      + exfalso. revert I. apply flag_not_internal. change (is_flag (add_suffix_to_feature_name y (B "_1"))). apply (with_suffix_flag (B "_1") y _ nd1); [|apply flag_iff, D].
        pose proof (rename_with_suffix (B "_1") y) as W. unfold rename_symbol in W. rewrite D in W. exact W.
      + exact (It y I (used_alpha t y St U)).
    - apply missing_In in A. destruct (flag_not_internal s (proj1 A) I).
  Qed.
  Lemma t2_flags s : In s (alpha t2) -> is_flag s -> used t2 s /\ (contains (B "_1.") s \/ contains (B "_2.") s) /\ ~ (contains (B "_1.") s /\ contains (B "_2.") s).
  Proof using Sa Va St Vt.
    intros A F. pose proof t1_sound as (((S1 & _) & _) & _). destruct (missing_states a1 t1 S1) as (_ & _ & M). unfold t2 in A. apply missing_alpha in A. destruct A as [A|A].
    - destruct (t1_flag s A F) as ((n & b & Hb & E) & C1 & C2). split; [exists n, b; split; [apply M; auto|exact E]|tauto].
    - split.
      + exists 0, (Arc 0 s s 0). split; [|left; reflexivity]. apply M. right. split; [destruct (sts t1); [congruence|cbn; lia]|exists s; auto].
      + apply missing_In in A. destruct (a1_flag s) as (_ & C1 & C2); tauto.
  Qed.
  Lemma flag_not_dollar s : is_flag s -> ~ dollar_form s.
  Proof using. intros F (m & -> & _). apply flag_iff in F. revert F. unfold is_diacritic. destruct (_ <? _); [discriminate|]. destruct (negb (at_is _ 2 _)); discriminate. Qed.
  Lemma t2_dollar s : In s (alpha t2) -> ~ dollar_form s.
  Proof using Dt St.
    intros A. apply t2_alpha in A. destruct A as [A|[A|A]].
    - intros (m & E & _). destruct A as [->|[->| ->]]; discriminate E.
    - apply rename_used in A. destruct A as (y & U & ->). destruct (is_diacritic y) eqn:D.
      + apply flag_not_dollar. apply (with_suffix_flag (B "_1") y (rename_symbol (B "_1") y) nd1 (rename_with_suffix _ _)). apply flag_iff, D.
      + rewrite rename_other by exact D. apply Dt, used_alpha; assumption.
    - apply missing_In in A. apply flag_not_dollar, A.
  Qed.
  (** The paths of the transducers before the illegal ones are removed. *)
  Hypothesis Ut : forall s, In s (alpha t) -> ordinary s -> used t s.
  Hypothesis Ua : forall s, In s (alpha a) -> ordinary s -> used a s.
  Lemma rename_relation suf g l w : no_dot suf -> sound g -> (forall s, In s (alpha g) -> ordinary s -> used g s) ->
    relation (rename_flag_diacritics suf g) l w <-> exists k, relation g k w /\ l = map (both (rename_symbol suf)) k.
  Proof using.
    intros Sd Sg Ug. assert (O : forall s, outside (alpha g) s <-> outside (alpha (rename_flag_diacritics suf g)) s).
    { intros s. rewrite rename_outside by exact Sd. unfold outside. split; intros [Os N]; (split; [exact Os|]); intros K; apply N; [apply used_alpha; assumption|apply Ug; assumption]. }
    pose proof (rename_special suf Sd) as Ks. pose proof (rename_accepts suf g) as Ac. split.
    - intros R. apply (relation_back (rename_symbol suf) g _ Ks Ac l w); [|exact R]. intros s Os. split; [apply O, Os|]. apply rename_other. apply Os.
    - intros (k & R & ->). apply (relation_forth (rename_symbol suf) g _ Ks Ac k w); [|exact R]. intros s _ Os. split; [apply O, Os|]. apply rename_other. apply Os.
  Qed.
  Lemma pair_suffix_map suf l l' : Forall2 (pair_suffix suf) l l' <-> l' = map (both (rename_symbol suf)) l.
  Proof using.
    split.
    - induction 1 as [|[a1' b1] [a2 b2] l l' [H1 H2] F IH]; [reflexivity|]. cbn [map both fst snd] in *. apply with_suffix_fun in H1, H2. subst. reflexivity.
    - intros ->. induction l as [|p l IH]; constructor; [split; apply rename_with_suffix|exact IH].
  Qed.
  Lemma missing_pair_t p : missing_pair a1 t1 p <-> flag_of (B "_2") a p.
  Proof using Sa Va St Vt. unfold missing_pair, flag_of. rewrite missing_t. tauto. Qed.
  Lemma missing_pair_a p : missing_pair t2 a1 p <-> flag_of (B "_1") t p.
  Proof using Sa Va St Vt. unfold missing_pair, flag_of. rewrite missing_a. tauto. Qed.
  Lemma t2_relation l w : relation t2 l w <-> exists k c, relation t k w /\ Forall2 (pair_suffix (B "_1")) k c /\ with_added (flag_of (B "_2") a) c l.
  Proof using Sa Va St Vt Ut.
    pose proof t1_sound as ((S1 & _) & _). unfold t2. rewrite (missing_relation a1 t1 l w S1). split.
    - intros (c & R & W). unfold t1 in R. apply rename_relation in R; [|exact nd1|exact St|exact Ut]. destruct R as (k & R & Ec). exists k, c. split; [exact R|]. split; [apply pair_suffix_map, Ec|].
      revert W. apply added_mono. intros p. apply missing_pair_t.
    - intros (k & c & R & F & W). exists c. split; [|revert W; apply added_mono; intros p; apply missing_pair_t]. unfold t1. apply rename_relation; [exact nd1|exact St|exact Ut|].
      exists k. split; [exact R|apply pair_suffix_map, F].
  Qed.
  Lemma a2_relation l w : relation (insert_freely_missing_flags_from t2 a1) l w <-> exists k c, relation a k w /\ Forall2 (pair_suffix (B "_2")) k c /\ with_added (flag_of (B "_1") t) c l.
  Proof using Sa Va St Vt Ua.
    pose proof a1_sound as ((S1 & _) & _). rewrite (missing_relation t2 a1 l w S1). split.
    - intros (c & R & W). unfold a1 in R. apply rename_relation in R; [|exact nd2|exact Sa|exact Ua]. destruct R as (k & R & Ec). exists k, c. split; [exact R|]. split; [apply pair_suffix_map, Ec|].
      revert W. apply added_mono. intros p. apply missing_pair_a.
    - intros (k & c & R & F & W). exists c. split; [|revert W; apply added_mono; intros p; apply missing_pair_a]. unfold a1. apply rename_relation; [exact nd2|exact Sa|exact Ua|].
      exists k. split; [exact R|apply pair_suffix_map, F].
  Qed.
End Whole.
