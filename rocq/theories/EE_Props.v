(** hfst-expand-equivalences: properties C159 to C161. *)
From Verif Require Import Base Flags_Model BT_Model BT_Spec BT_Proofs BT_Props Harm_Spec Harm_Props Co_Spec Co_Model PU_Spec PU_Model PU_Proofs PU_Proofs3 PU_Proofs4 PU_Proofs7 EE_Spec EE_Model EE_Proofs EE_Proofs2 EE_Proofs3.

(** C159: the strings on the levels asked for are replaced by all their variants.
    Partial: the transducer has no symbols of the form @_..._@ besides epsilon, unknown and
    identity, and a symbol that is neither ordinary nor given has no variant: with flag diacritics the
    claim is false, see below.  Of several weights for the same pair of strings the
    lightest need be kept. *)
Definition on_first (level : fsa_level) : bool := match level with second_level => false | _ => true end.
Definition on_second (level : fsa_level) : bool := match level with first_level => false | _ => true end.
Theorem C159_expand_partial level exts trans :
  sound trans -> no_internal_symbols trans -> all_usable exts ->
  let changed (on : bool) (x x' : list bstr) := if on then Forall2 (variant exts) x x' else x = x' in
  (exists r, expand level exts trans r) /\
  forall r, expand level exts trans r -> exists h, r = Ok h /\
    (forall x z w, related h x z w -> exists x0 z0, related trans x0 z0 w /\ changed (on_first level) x0 x /\ changed (on_second level) z0 z) /\
    (forall x0 z0 x z w, related trans x0 z0 w -> changed (on_first level) x0 x -> changed (on_second level) z0 z ->
       exists w', related h x z w' /\ (w' <= w)%Z).
Proof.
  intros S I AU changed. split.
  - destruct (extensions_exist exts AU) as (e & E). destruct (extensions_ok exts _ AU E) as (e' & Q & X). injection Q as <-.
    destruct level; unfold expand.
    + destruct (compose_fst_exists (invert e) trans (invert_sound e (so_sound _ _ X)) S) as (h & C). exists (Ok h). eapply andthen_exists; [exact E|exact C].
    + destruct (compose_fst_exists trans e S (so_sound _ _ X)) as (h & C). exists (Ok h). eapply andthen_exists; [exact E|exact C].
    + destruct (compose_fst_exists trans e S (so_sound _ _ X)) as (h & C).
      destruct (second_result exts e trans AU X S I _ C) as (h' & Q & Sh & _). injection Q as <-.
      destruct (compose_fst_exists (invert e) h (invert_sound e (so_sound _ _ X)) Sh) as (k & D).
      exists (Ok k). eapply andthen_exists; [exact E|]. cbn [apply_extensions]. eapply andthen_exists; [exact C|exact D].
  - intros r R. unfold expand in R. apply (andthen_Ok _ _ _ (star_ok exts)) in R; [|intros x; apply extensions_ok, AU].
    destruct R as (e & X & R). destruct level; cbn [apply_extensions on_first on_second] in *; subst changed; cbn beta iota.
    + destruct (first_result exts e trans AU X S I r R) as (h & -> & _ & _ & H1 & H2). exists h. split; [reflexivity|]. split.
      * intros x z w K. destruct (H1 x z w K) as (y & K' & F). exists y, z. auto.
      * intros x0 z0 x z w K F <-. exact (H2 x x0 z0 w K F).
    + destruct (second_result exts e trans AU X S I r R) as (h & -> & _ & _ & H1 & H2). exists h. split; [reflexivity|]. split.
      * intros x z w K. destruct (H1 x z w K) as (y & K' & F). exists x, y. auto.
      * intros x0 z0 x z w K <- F. exact (H2 x0 z0 z w K F).
    + apply (andthen_Ok _ _ _ (fun h => sound h /\ no_internal_symbols h /\
        (forall x z w, related h x z w -> exists y, related trans x y w /\ Forall2 (variant exts) y z) /\
        (forall x y z w, related trans x y w -> Forall2 (variant exts) y z -> exists w', related h x z w' /\ (w' <= w)%Z))) in R.
      2:{ intros x C. exact (second_result exts e trans AU X S I x C). }
      destruct R as (k & (Sk & Ik & K1 & K2) & R).
      destruct (first_result exts e k AU X Sk Ik r R) as (h & -> & _ & _ & H1 & H2). exists h. split; [reflexivity|]. split.
      * intros x z w K. destruct (H1 x z w K) as (x0 & K' & F). destruct (K1 x0 z w K') as (z0 & K'' & F'). exists x0, z0. auto.
      * intros x0 z0 x z w K F F'. destruct (K2 x0 z0 z w K F') as (w1 & R1 & L1). destruct (H2 x x0 z w1 R1 F) as (w2 & R2 & L2).
        exists w2. split; [exact R2|lia].
Qed.
Print Assumptions C159_expand_partial.

Lemma usable_a : usable (B "a").
Proof. split; [discriminate|]. intros (m & E). cbn in E. discriminate E. Qed.
Lemma usable_b : usable (B "b").
Proof. split; [discriminate|]. intros (m & E). cbn in E. discriminate E. Qed.
Lemma usable_flag : usable (B "@U.F.V@").
Proof. split; [discriminate|]. intros (m & E). cbn in E. discriminate E. Qed.
Lemma ab_usable : all_usable [(B "a", B "b")].
Proof. constructor; [split; [apply usable_a|apply usable_b]|constructor]. Qed.
Lemma pair_related i o : usable i -> usable o -> forall x z w, related (pair_fst i o) x z w <-> x = [i] /\ z = [o] /\ w = 0%Z.
Proof.
  intros Ui Uo x z w. rewrite related_pairs.
  destruct (usable_ne i Ui) as (Ei & _). destruct (usable_ne o Uo) as (Eo & _).
  assert (N : forall s, s <> EPS -> no_epsilons [s] = [s]).
  { intros s H. apply no_epsilons_id. constructor; [exact H|constructor]. }
  split.
  - intros (l & H & -> & ->). apply (pair_strings i o l w Ui Uo) in H. destruct H as [-> ->]. cbn [map fst snd]. rewrite (N i Ei), (N o Eo). auto.
  - intros (-> & -> & ->). exists [(i, o)]. split; [apply (pair_strings i o _ _ Ui Uo); auto|]. cbn [map fst snd]. rewrite (N i Ei), (N o Eo). auto.
Qed.

(** The transducer a:a with a extended by b, on both levels. *)
Example C159_witness : let t := pair_fst (B "a") (B "a") in
  sound t /\ no_internal_symbols t /\ all_usable [(B "a", B "b")] /\ related t [B "a"] [B "a"] 0 /\
  exists h, expand both_levels [(B "a", B "b")] t (Ok h) /\ exists w, related h [B "b"] [B "b"] w.
Proof.
  intros t. assert (S : sound t) by (apply pair_usable_sound; apply usable_a).
  assert (I : no_internal_symbols t) by (apply pair_internal; apply usable_a).
  assert (R : related t [B "a"] [B "a"] 0) by (apply pair_related; [apply usable_a|apply usable_a|auto]).
  split; [exact S|]. split; [exact I|]. split; [exact ab_usable|]. split; [exact R|].
  destruct (C159_expand_partial both_levels _ t S I ab_usable) as [(r & E) H]. destruct (H r E) as (h & -> & _ & H2).
  exists h. split; [exact E|]. assert (F : Forall2 (variant [(B "a", B "b")]) [B "a"] [B "b"]) by (constructor; [right; left; reflexivity|constructor]).
  destruct (H2 [B "a"] [B "a"] [B "b"] [B "b"] 0%Z R F F) as (w & K & _). exists w. exact K.
Qed.

(** C159 is false of transducers with flag diacritics: their strings are lost, even those that have
    nothing to expand. *)
Theorem C159_flags_refuted : let t := pair_fst (B "@U.F.V@") (B "@U.F.V@") in
  sound t /\ no_internal_symbols t /\ related t [B "@U.F.V@"] [B "@U.F.V@"] 0 /\
  (exists r, expand second_level [(B "a", B "b")] t r) /\
  forall r, expand second_level [(B "a", B "b")] t r -> exists h, r = Ok h /\ forall x z w, ~ related h x z w.
Proof.
  intros t. assert (S : sound t) by (apply pair_usable_sound; apply usable_flag).
  assert (I : no_internal_symbols t) by (apply pair_internal; apply usable_flag).
  split; [exact S|]. split; [exact I|]. split; [apply pair_related; [apply usable_flag|apply usable_flag|auto]|].
  destruct (C159_expand_partial second_level _ t S I ab_usable) as [E H]. split; [exact E|].
  intros r R. destruct (H r R) as (h & -> & H1 & _). exists h. split; [reflexivity|]. intros x z w K.
  destruct (H1 x z w K) as (x0 & z0 & K0 & _ & F). apply (pair_related _ _ usable_flag usable_flag) in K0. destruct K0 as (_ & -> & _).
  inversion F as [|a b l l' V F']; subst. destruct V as [[_ O]|[V|[]]].
  - destruct O as (_ & O & _). revert O. vm_compute. discriminate.
  - injection V. discriminate.
Qed.
Print Assumptions C159_flags_refuted.

(** C160: a file of extensions is read as what its lines say, and any other file is refused. *)
Theorem C160_file s exts : read_tsv s = Ok exts <-> file_says s exts.
Proof. apply (proj1 (read_tsv_spec (length s) s (le_n _))). Qed.
Print Assumptions C160_file.
Theorem C160_refused s : (forall exts, ~ file_says s exts) <-> read_tsv s = Throw.
Proof.
  destruct (read_tsv_spec (length s) s (le_n _)) as [H K]. split.
  - intros N. destruct K as [[r K]|K]; [|exact K]. apply H in K. exfalso. exact (N r K).
  - intros E exts F. apply H in F. congruence.
Qed.
Print Assumptions C160_refused.
Definition tsv : bstr := B "# variants" ++ [NL; NL] ++ B "a" ++ [TAB] ++ B "b" ++ [TAB] ++ B "c" ++ [NL] ++ B "d" ++ [TAB] ++ B "e".
Example C160_witness : read_tsv tsv = Ok [(B "a", B "b"); (B "a", B "c"); (B "d", B "e")] /\ read_tsv (B "a" ++ [NL]) = Throw.
Proof. split; reflexivity. Qed.

(** C161: with options -f and -t every transducer is expanded by the pair; with a file the first one
    is expanded by what the file says.  Missing: with a file, the others, see below. *)
Theorem C161_archive_partial level ts rs :
  (forall from to, process level (given_pair from to) ts rs -> Forall2 (expand level [(from, to)]) ts rs) /\
  (forall s exts t r, file_says s exts -> process level (rest_of_file s) (t :: ts) (r :: rs) ->
     expand level exts t r /\ Forall2 (expand level []) ts rs).
Proof.
  split.
  - intros from to P. remember (given_pair from to) as src eqn:E. induction P as [src|src t ts exts r rs R X P IH|src t ts R]; subst src.
    + constructor.
    + cbn in R. injection R as <-. constructor; [exact X|]. apply IH. reflexivity.
    + discriminate R.
  - intros s exts t r F P. inversion P as [|src t' ts' exts' r' rs' R X P' E1 E2 E3|src t' ts' R]; subst.
    + cbn in R. apply C160_file in F. rewrite F in R. injection R as <-. split; [exact X|]. cbn [read_source snd] in P'.
      clear P X. remember (rest_of_file []) as src eqn:E. induction P' as [src|src t0 ts exts' r0 rs R' X P IH|src t0 ts R']; subst src.
      * constructor.
      * cbn in R'. injection R' as <-. constructor; [exact X|]. apply IH. reflexivity.
      * discriminate R'.
    + cbn in R. apply C160_file in F. rewrite F in R. discriminate R.
Qed.
Print Assumptions C161_archive_partial.

(** C161 is false of files: the second transducer of an archive keeps its strings as they are. *)
Theorem C161_archive_refuted : let t := pair_fst (B "a") (B "a") in let s := B "a" ++ [TAB] ++ B "b" in
  file_says s [(B "a", B "b")] /\ sound t /\
  (exists h1 h2, process second_level (rest_of_file s) [t; t] [Ok h1; Ok h2]) /\
  forall h1 h2, process second_level (rest_of_file s) [t; t] [Ok h1; Ok h2] ->
    (exists w, related h1 [B "a"] [B "b"] w) /\ forall w, ~ related h2 [B "a"] [B "b"] w.
Proof.
  intros t s. assert (F : file_says s [(B "a", B "b")]) by (apply C160_file; reflexivity).
  assert (S : sound t) by (apply pair_usable_sound; apply usable_a).
  assert (I : no_internal_symbols t) by (apply pair_internal; apply usable_a).
  assert (N0 : all_usable []) by constructor.
  destruct (C159_expand_partial second_level _ t S I ab_usable) as [(r1 & E1) H1].
  destruct (C159_expand_partial second_level _ t S I N0) as [(r2 & E2) H2].
  destruct (H1 r1 E1) as (h1 & -> & _). destruct (H2 r2 E2) as (h2 & -> & _).
  split; [exact F|]. split; [exact S|]. split.
  - exists h1, h2. apply (pr_one _ _ _ _ [(B "a", B "b")]); [reflexivity|exact E1|]. apply (pr_one _ _ _ _ []); [reflexivity|exact E2|constructor].
  - clear h1 h2 E1 E2. intros h1 h2 P. destruct (proj2 (C161_archive_partial second_level [t] [Ok h2]) s _ t (Ok h1) F P) as [X1 X2].
    inversion X2 as [|? ? ? ? X3 _]; subst. destruct (H1 _ X1) as (k1 & Q1 & _ & C1). injection Q1 as <-. destruct (H2 _ X3) as (k2 & Q2 & C2 & _). injection Q2 as <-.
    split.
    + destruct (C1 [B "a"] [B "a"] [B "a"] [B "b"] 0%Z) as (w & K & _); [apply pair_related; [apply usable_a|apply usable_a|auto]|reflexivity| |exists w; exact K].
      constructor; [right; left; reflexivity|constructor].
    + intros w K. destruct (C2 _ _ _ K) as (x0 & z0 & K0 & _ & V). apply (pair_related _ _ usable_a usable_a) in K0. destruct K0 as (_ & -> & _).
      inversion V as [|? ? ? ? W _]; subst. destruct W as [[W _]|[]]. discriminate W.
Qed.
Print Assumptions C161_archive_refuted.
Example C161_witness : exists h, process second_level (given_pair (B "a") (B "b")) [pair_fst (B "a") (B "a")] [Ok h].
Proof.
  assert (S : sound (pair_fst (B "a") (B "a"))) by (apply pair_usable_sound; apply usable_a).
  assert (I : no_internal_symbols (pair_fst (B "a") (B "a"))) by (apply pair_internal; apply usable_a).
  destruct (C159_expand_partial second_level _ _ S I ab_usable) as [(r & E) H]. destruct (H r E) as (h & -> & _).
  exists h. apply (pr_one _ _ _ _ [(B "a", B "b")]); [reflexivity|exact E|constructor].
Qed.
