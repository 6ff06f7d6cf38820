(** hfst-info: properties C167 and C168. *)
From Verif Require Import Base BT_Model ATT_Model IN_Spec IN_Model IN_Proofs.
From Coq Require Import NArith ZArith Lia.

(** An option that may be absent. *)
Definition given (o : bstr -> info_option) (x : option bstr) : list info_option :=
  match x with Some s => [o s] | None => [] end.

(** C167: with --atleast-version and --exact-version the tool succeeds just when the version of the
    library is at least the one and exactly the other, and it has the features asked for.
    Partial: option --max-version is left out, see below, and so are minor and patch numbers
    beyond 9999. *)
Theorem C167_versions_partial c cur a e fs va ve : usual cur ->
  (forall s, a = Some s -> version_text s va /\ usual va) -> (forall s, e = Some s -> version_text s ve /\ usual ve) ->
  let result := hfst_info c (long_version cur) (given AtLeast a ++ given Exactly e ++ map Feature fs) in
  (result = Ok tt <->
    (a <> None -> not_newer va cur) /\ (e <> None -> cur = ve) /\ (forall f, In f fs -> hfst_info c (long_version cur) [Feature f] = Ok tt)) /\
  (result = Ok tt \/ result = Throw).
Proof.
  intros U A E result.
  assert (F : forall f, hfst_info c (long_version cur) [Feature f] = Ok tt <-> check_feature c f = Ok tt).
  { intros f. unfold hfst_info. cbn. destruct (check_feature c f) as [[]| | |]; cbn; split; auto. }
  assert (R : result = rbind (require (match a with Some _ => negb (long_version cur <? long_version va)%Z | None => true end)) (fun _ =>
    rbind (require (match e with Some _ => (long_version cur =? long_version ve)%Z | None => true end)) (fun _ => check_features c fs))).
  { subst result. unfold hfst_info. rewrite !parse_options_app.
    pose proof (long_version_pos va) as PA. pose proof (long_version_pos ve) as PE.
    destruct a as [s|], e as [s'|]; cbn [given parse_options parse_option rbind];
      try (destruct (A s eq_refl) as [TA UA]; rewrite (parse_version s va TA UA)); cbn [rbind];
      rewrite ?parse_options_app; cbn [given parse_options parse_option rbind];
      try (destruct (E s' eq_refl) as [TE UE]; rewrite (parse_version s' ve TE UE)); cbn [rbind];
      rewrite parse_features; cbn [rbind min_version exact_version max_version required_features app info_start orb];
      rewrite ?Z.eqb_refl; cbn [orb require rbind];
      try (destruct (Z.eqb_spec (long_version va) (-1)) as [K|_]; [lia|]);
      try (destruct (Z.eqb_spec (long_version ve) (-1)) as [K|_]; [lia|]); cbn [orb];
      reflexivity. }
  rewrite R. clear R result. split.
  - split.
    + intros H.
      destruct (match a with Some _ => negb (long_version cur <? long_version va)%Z | None => true end) eqn:HA; [|discriminate H]. cbn [require rbind] in H.
      destruct (match e with Some _ => (long_version cur =? long_version ve)%Z | None => true end) eqn:HE; [|discriminate H]. cbn [require rbind] in H.
      split; [|split].
      * intros NA. destruct a as [s|]; [|congruence]. destruct (A s eq_refl) as [_ UA]. apply order; [exact UA|exact U|].
        destruct (Z.ltb_spec (long_version cur) (long_version va)) as [L|L]; [discriminate HA|exact L].
      * intros NE. destruct e as [s|]; [|congruence]. destruct (E s eq_refl) as [_ UE]. apply same; [exact U|exact UE|]. apply Z.eqb_eq. exact HE.
      * intros f I. apply F. exact (proj1 (check_all c fs) H f I).
    + intros (HA & HE & HF).
      assert (EA : match a with Some _ => negb (long_version cur <? long_version va)%Z | None => true end = true).
      { destruct a as [s|]; [|reflexivity]. destruct (A s eq_refl) as [_ UA]. specialize (HA ltac:(discriminate)). apply order in HA; [|exact UA|exact U].
        destruct (Z.ltb_spec (long_version cur) (long_version va)) as [L|L]; [lia|reflexivity]. }
      assert (EE : match e with Some _ => (long_version cur =? long_version ve)%Z | None => true end = true).
      { destruct e as [s|]; [|reflexivity]. rewrite (HE ltac:(discriminate)). apply Z.eqb_refl. }
      rewrite EA, EE. cbn [require rbind]. apply check_all. intros f I. apply F. exact (HF f I).
  - destruct (match a with Some _ => negb (long_version cur <? long_version va)%Z | None => true end); cbn [require rbind]; [|now right].
    destruct (match e with Some _ => (long_version cur =? long_version ve)%Z | None => true end); cbn [require rbind]; [|now right].
    apply check_ok_or_throw.
Qed.
Print Assumptions C167_versions_partial.

(** The test of --max-version is the wrong way round: the tool fails just when the version of the
    library is OLDER than the version given. *)
Theorem C167_max_refuted c cur s v : usual cur -> usual v -> version_text s v ->
  (hfst_info c (long_version cur) [AtMost s] = Ok tt <-> not_newer v cur) /\
  (hfst_info c (long_version cur) [AtMost s] = Throw <-> not_newer cur v /\ cur <> v).
Proof.
  intros U V T. unfold hfst_info. cbn [parse_options parse_option]. rewrite (parse_version s v T V). cbn [rbind min_version exact_version max_version required_features app info_start orb].
  pose proof (long_version_pos v) as P. destruct (Z.eqb_spec (long_version v) (-1)) as [K|_]; [lia|]. cbn [orb require rbind Z.eqb Pos.eqb].
  pose proof (order v cur V U) as O. pose proof (order cur v U V) as O'. pose proof (same cur v U V) as SM.
  destruct (Z.ltb_spec (long_version cur) (long_version v)) as [L|L]; cbn [negb require rbind check_features].
  - split; (split; [try discriminate|]).
    + intros N. apply O in N. lia.
    + intros _. split; [apply O'; lia|]. intros EQ. apply SM in EQ. lia.
    + reflexivity.
  - split; (split; [|try reflexivity]).
    + intros _. apply O. exact L.
    + discriminate.
    + intros [N NE]. exfalso. apply O' in N. apply NE, SM. lia.
Qed.
Print Assumptions C167_max_refuted.

(** A minor number beyond 9999 runs into the major number. *)
Theorem C167_large_refuted c : exists s v cur, version_text s v /\ usual cur /\ ~ not_newer cur v /\
  hfst_info c (long_version cur) [Exactly s] = Ok tt /\ cur <> v.
Proof.
  exists (B "3.10000"), {| major := 3; minor := 10000; patch := 0 |}, {| major := 4; minor := 0; patch := 0 |}. split.
  - change (B "3.10000") with (B "3" ++ "."%char :: B "10000"). apply vt_two.
    + apply (dec_one _ 3). split; [lia|reflexivity].
    + change (B "10000") with ((((["1"%char] ++ ["0"%char]) ++ ["0"%char]) ++ ["0"%char]) ++ ["0"%char]).
      change 10000%N with (10 * 1000 + 0)%N. apply dec_more; [|split; [lia|reflexivity]].
      change 1000%N with (10 * 100 + 0)%N. apply dec_more; [|split; [lia|reflexivity]].
      change 100%N with (10 * 10 + 0)%N. apply dec_more; [|split; [lia|reflexivity]].
      change 10%N with (10 * 1 + 0)%N. apply dec_more; [|split; [lia|reflexivity]].
      apply (dec_one _ 1). split; [lia|reflexivity].
  - split; [unfold usual; cbn; lia|]. split; [unfold not_newer; cbn; lia|]. split; [reflexivity|discriminate].
Qed.
Print Assumptions C167_large_refuted.

(** Texts that are no version are accepted: the empty one is version 0. *)
Theorem C167_empty_refuted c cur : (forall v, ~ version_text [] v) /\ hfst_info c (long_version cur) [AtLeast []] = Ok tt.
Proof.
  split.
  - intros v H. remember [] as s eqn:E. destruct H as [a x A|a b x y A D|a b d x y z A D C].
    + subst a. apply decimal_value in A. destruct A as (_ & _ & N). congruence.
    + destruct a; discriminate E.
    + destruct a; discriminate E.
  - unfold hfst_info. cbn. pose proof (long_version_pos cur) as P. destruct (Z.ltb_spec (long_version cur) 0) as [L|L]; [lia|reflexivity].
Qed.
Print Assumptions C167_empty_refuted.

Example C167_witness : exists cur va, usual cur /\ usual va /\ version_text (B "3.9") va /\ not_newer va cur /\
  hfst_info {| have_sfst := true; have_foma := true; have_xfsm := false; have_openfst := true |} (long_version cur)
    (given AtLeast (Some (B "3.9")) ++ given Exactly (Some (B "3.16.0")) ++ map Feature [B "sfst"; B "icu"]) = Ok tt.
Proof.
  exists {| major := 3; minor := 16; patch := 0 |}, {| major := 3; minor := 9; patch := 0 |}.
  split; [unfold usual; cbn; lia|]. split; [unfold usual; cbn; lia|]. split.
  - change (B "3.9") with (B "3" ++ "."%char :: B "9"). apply vt_two; [apply (dec_one _ 3)|apply (dec_one _ 9)]; (split; [lia|reflexivity]).
  - split; [unfold not_newer; cbn; lia|reflexivity].
Qed.

(** C168: a feature that is asked for must be there.  Partial: of the libraries only SFST; ICU is
    always there, and unknown features are refused. *)
Definition known_names : list string :=
  ["sfst"; "SFST"; "HAVE_SFST"; "foma"; "FOMA"; "HAVE_FOMA"; "xfsm"; "XFSM"; "HAVE_XFSM"; "openfst"; "OPENFST"; "HAVE_OPENFST"; "icu"; "USE_ICU_UNICODE"]%string.
Theorem C168_features_partial c cur f :
  (In f [B "sfst"; B "SFST"; B "HAVE_SFST"] -> (hfst_info c cur [Feature f] = Ok tt <-> have_sfst c = true)) /\
  (In f [B "icu"; B "USE_ICU_UNICODE"] -> hfst_info c cur [Feature f] = Ok tt) /\
  (~ In f (map B known_names) -> hfst_info c cur [Feature f] = Throw).
Proof.
  split; [|split].
  - intros [<-|[<-|[<-|[]]]]; cbn; destruct (have_sfst c); cbn; split; congruence.
  - intros [<-|[<-|[]]]; reflexivity.
  - intros N. assert (K : forall l, (forall s, In s l -> In s known_names) -> one_of f l = false).
    { intros l H. unfold one_of. apply not_true_is_false. intros E. apply existsb_exists in E. destruct E as (s & I & E).
      apply bstr_eqb_eq in E. apply N. rewrite E. apply in_map, H, I. }
    unfold hfst_info. cbn [parse_options parse_option rbind required_features info_start min_version exact_version max_version orb Z.eqb Pos.eqb require app check_features].
    unfold check_feature. rewrite !K; [reflexivity|intros s I; cbn in *; tauto..].
Qed.
Print Assumptions C168_features_partial.
(** For foma, XFSM and OpenFst the test is the wrong way round: the tool succeeds just when the
    library is NOT there. *)
Theorem C168_inverted_refuted c cur f :
  (In f [B "foma"; B "FOMA"; B "HAVE_FOMA"] -> (hfst_info c cur [Feature f] = Ok tt <-> have_foma c = false)) /\
  (In f [B "xfsm"; B "XFSM"; B "HAVE_XFSM"] -> (hfst_info c cur [Feature f] = Ok tt <-> have_xfsm c = false)) /\
  (In f [B "openfst"; B "OPENFST"; B "HAVE_OPENFST"] -> (hfst_info c cur [Feature f] = Ok tt <-> have_openfst c = false)).
Proof.
  split; [|split].
  - intros [<-|[<-|[<-|[]]]]; cbn; destruct (have_foma c); cbn; split; congruence.
  - intros [<-|[<-|[<-|[]]]]; cbn; destruct (have_xfsm c); cbn; split; congruence.
  - intros [<-|[<-|[<-|[]]]]; cbn; destruct (have_openfst c); cbn; split; congruence.
Qed.
Print Assumptions C168_inverted_refuted.
Example C168_witness :
  hfst_info {| have_sfst := false; have_foma := true; have_xfsm := false; have_openfst := true |} 0 [Feature (B "sfst")] = Throw /\
  hfst_info {| have_sfst := true; have_foma := true; have_xfsm := false; have_openfst := true |} 0 [Feature (B "sfst")] = Ok tt /\
  hfst_info {| have_sfst := true; have_foma := true; have_xfsm := false; have_openfst := true |} 0 [Feature (B "openfst")] = Throw.
Proof. repeat split. Qed.
