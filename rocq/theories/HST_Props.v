(** Properties C42 and C50: stream headers. *)
From Coq Require Import Sorted NArith.
From Verif Require Import Base OrdMap OLF_Model OLF_Spec OLF_Proofs OLF_Props HST_Model HST_Spec HST_Proofs.

(** C42.  One header.  Whatever was read from the stream before ([st]), reading a written
    header reports its exact length, stops right after it, gives the type, and gives every
    user property its written value; properties not written keep the value they had in the
    input stream object before.  [extra] are the implementation-specific attributes. *)
Theorem C42_header_roundtrip peek t props extra st h rest :
  props_ok props -> props_ok extra -> (peek = true -> rest <> []) ->
  stream_header t props extra = Ok h ->
  exists st', read_hfst_header peek st (h ++ rest) = Ok (Some (st', length h, rest))
    /\ i_type st' = Some t
    /\ forall k, user_key k ->
         mget bcmp k (i_props st') =
         match mget bcmp k extra with
         | Some v => Some v
         | None => match mget bcmp k props with
                   | Some v => Some v
                   | None => mget bcmp k (i_props st)
                   end
         end.
Proof.
  intros (S1 & F1) (S2 & F2) Hr H. exists (after t props extra st).
  split; [apply header_roundtrip; assumption|]. split.
  - unfold after. destruct (filter keep props ++ extra) as [|[? ?] ?]; reflexivity.
  - intros k U. rewrite after_value; [|eapply sorted_NoDup; [apply bcmp_eq|eassumption] ..|exact U].
    unfold declared. destruct (mget bcmp k extra); reflexivity.
Qed.
Print Assumptions C42_header_roundtrip.

(** C42.  A header is written unless its attributes take more than 65535 bytes. *)
Theorem C42_header_written t props extra :
  (exists h, stream_header t props extra = Ok h)
  \/ (stream_header t props extra = Throw
      /\ (65535 < N.of_nat (length (put_pairs (header_pairs t props extra))))%N).
Proof.
  unfold stream_header. destruct (N.ltb_spec 65535 (N.of_nat (length (put_pairs (header_pairs t props extra)))));
    [right; split; [reflexivity|assumption]|left; eexists; reflexivity].
Qed.
Print Assumptions C42_header_written.

(** C42.  A whole stream of optimized-lookup transducers, opened by file name or as an open
    stream: the same transducers in the same order; and each has, for every user property, the
    value from the last transducer up to and including itself that has the property. *)
Theorem C42_stream_roundtrip valid filename t l bs :
  utf8_ok valid -> (t = OL \/ t = OLW) -> l <> [] -> Forall (savable t) l ->
  (forall p x, In (p, x) l -> forall k v, In (k, v) p -> valid v = true) ->
  write_file t l = Ok bs ->
  exists l', read_file valid filename bs = Ok (t, l')
    /\ map snd l' = map snd l
    /\ forall i p, nth_error (map fst l') i = Some p ->
         forall k, user_key k -> get_property k p = latest k (firstn (S i) (map fst l)).
Proof.
  intros U Ht NE HS HV HW.
  destruct (read_file_ok valid filename t l bs U Ht NE HS) as (l' & R & S1 & S2); [|exact HW|].
  - apply Forall_forall. intros [p x] Hin. exact (HV p x Hin).
  - exists l'. split; [exact R|]. split; [exact S1|]. exact S2.
Qed.
Print Assumptions C42_stream_roundtrip.

Lemma latest_last k : forall (hist : list (list (bstr * bstr))) (p : list (bstr * bstr)) (d : bstr),
  (exists v, mget bcmp k p = Some v) \/ (forall q, In q hist -> mget bcmp k q = None) ->
  d = [] ->
  fold_left (fun d p => match mget bcmp k p with Some v => v | None => d end) (hist ++ [p]) d
  = get_property k p.
Proof.
  intros hist p d H ->. rewrite fold_left_app. cbn [fold_left]. unfold get_property.
  destruct (mget bcmp k p) eqn:E; [reflexivity|].
  destruct H as [(v & E')|H]; [discriminate|].
  induction hist as [|q hist IH]; [reflexivity|]. cbn [fold_left].
  rewrite (H q (or_introl eq_refl)). apply IH. intros q' Hq. apply H. right. exact Hq.
Qed.

(** C42, second half, under the condition that no transducer lacks a property that an earlier
    one of the same stream has: each transducer then has exactly its own properties. *)
Theorem C42_own_properties_partial valid filename t l bs :
  utf8_ok valid -> (t = OL \/ t = OLW) -> l <> [] -> Forall (savable t) l ->
  (forall p x, In (p, x) l -> forall k v, In (k, v) p -> valid v = true) ->
  (forall i j p q k v, i < j -> nth_error (map fst l) i = Some p ->
     nth_error (map fst l) j = Some q -> user_key k -> mget bcmp k p = Some v ->
     exists w, mget bcmp k q = Some w) ->
  write_file t l = Ok bs ->
  exists l', read_file valid filename bs = Ok (t, l')
    /\ map snd l' = map snd l
    /\ forall i p q, nth_error (map fst l) i = Some p -> nth_error (map fst l') i = Some q ->
         forall k, user_key k -> get_property k q = get_property k p.
Proof.
  intros U Ht NE HS HV HK HW.
  destruct (C42_stream_roundtrip valid filename t l bs U Ht NE HS HV HW) as (l' & R & S1 & S2).
  exists l'. split; [exact R|]. split; [exact S1|]. intros i p q Hp Hq k Uk.
  rewrite (S2 i q Hq k Uk). unfold latest.
  assert (F : firstn (S i) (map fst l) = firstn i (map fst l) ++ [p]).
  { clear - Hp. revert i Hp. induction (map fst l) as [|a m IH]; intros [|i] H; try discriminate.
    - injection H as ->. reflexivity.
    - cbn [nth_error] in H. cbn [firstn app]. f_equal. apply (IH i H). }
  rewrite F. apply latest_last; [|reflexivity].
  destruct (mget bcmp k p) eqn:E; [left; eauto|]. right. intros q' Hq'.
  apply In_nth_error in Hq'. destruct Hq' as (j & Hj).
  assert (Lj : j < i).
  { assert (j < length (firstn i (map fst l))) by (apply nth_error_Some; congruence).
    rewrite firstn_length in H. lia. }
  rewrite <- (firstn_skipn i (map fst l)) in HK.
  assert (Hj2 : nth_error (map fst l) j = Some q').
  { rewrite <- (firstn_skipn i (map fst l)). rewrite nth_error_app1; [exact Hj|].
    apply nth_error_Some. congruence. }
  destruct (mget bcmp k q') eqn:E2; [|reflexivity].
  rewrite firstn_skipn in HK.
  destruct (HK j i q' p k b Lj Hj2 Hp Uk E2) as (w & Hw). congruence.
Qed.
Print Assumptions C42_own_properties_partial.

Definition ex_props1 : list (bstr * bstr) := [(B "author", B "x"); (B "name", B "one")].
Definition ex_props2 : list (bstr * bstr) := [(B "name", B "two")].
Definition ex_file := [(ex_props1, ex_transducer); (ex_props2, ex_transducer)].

Lemma lit_free (s : bstr) : forallb (fun c => negb (Ascii.eqb c zero)) s = true -> nul_free s.
Proof.
  intros H Hin. rewrite forallb_forall in H. apply H in Hin. rewrite Ascii.eqb_refl in Hin. discriminate.
Qed.

Lemma ex_savable : Forall (savable OLW) ex_file.
Proof.
  assert (P1 : props_ok ex_props1).
  { split; [repeat constructor|]. repeat constructor; apply lit_free; reflexivity. }
  assert (P2 : props_ok ex_props2).
  { split; [repeat constructor|]. repeat constructor; apply lit_free; reflexivity. }
  assert (CT : canonical_tables ex_transducer) by (split; [reflexivity|discriminate]).
  constructor; [|constructor; [|constructor]]; (split; [|split]); cbn [fst snd];
    try assumption; exact ex_consistent.
Qed.

(** C42, second half, fails in general: the second transducer of this stream has no author
    property, but reads back with the author of the first. *)
Theorem C42_properties_leak_refuted :
  exists t l bs l' k p q,
    Forall (savable t) l /\ user_key k
    /\ write_file t l = Ok bs /\ read_file (fun _ => true) true bs = Ok (t, l')
    /\ nth_error (map fst l) 1 = Some p /\ nth_error (map fst l') 1 = Some q
    /\ mget bcmp k p = None /\ get_property k q <> [].
Proof.
  exists OLW, ex_file. do 2 eexists. exists (B "author"). do 2 eexists.
  split; [exact ex_savable|]. split; [split; discriminate|].
  split; [vm_compute; reflexivity|]. split; [vm_compute; reflexivity|].
  split; [vm_compute; reflexivity|]. split; [vm_compute; reflexivity|].
  split; [vm_compute; reflexivity|]. vm_compute. discriminate.
Qed.
Print Assumptions C42_properties_leak_refuted.

Example C42_witness :
  Forall (savable OLW) ex_file /\ utf8_ok (fun _ => true)
  /\ (exists bs l', write_file OLW ex_file = Ok bs
      /\ length bs = 381
      /\ read_file (fun _ => true) false bs = Ok (OLW, l')
      /\ map snd l' = [ex_transducer; ex_transducer]
      /\ map (fun x => get_property (B "name") (fst x)) l' = [B "one"; B "two"]).
Proof.
  split; [exact ex_savable|]. split; [intros s _; reflexivity|].
  do 2 eexists. repeat split; vm_compute; reflexivity.
Qed.

(** * Reported sizes *)
Lemma get_string_inv peek bs s r : get_string peek bs = Ok (s, r) -> bs = s ++ NUL :: r.
Proof.
  revert s r; induction bs as [|c bs IH]; intros s r H; [discriminate|].
  cbn [get_string] in H. destruct (peek && _); [discriminate|].
  destruct (Ascii.eqb_spec c NUL) as [-> |].
  - injection H as <- <-. reflexivity.
  - apply rbind_Ok in H. destruct H as ([s1 r1] & E & H). injection H as <- <-.
    cbn. f_equal. apply IH, E.
Qed.

Lemma header_data_inv peek fuel : forall size read bs l r,
  header_data peek fuel size read bs = Ok (l, r) -> length bs + read = size + length r
  /\ exists u, bs = u ++ r.
Proof.
  induction fuel as [|fuel IH]; intros size read bs l r H; [discriminate|].
  cbn [header_data] in H. apply rbind_Ok in H. destruct H as ([s1 b1] & E1 & H).
  apply rbind_Ok in H. destruct H as ([s2 b2] & E2 & H).
  apply get_string_inv in E1, E2. subst.
  destruct (size <? _); [discriminate|].
  destruct (Nat.eqb_spec (read + length s1 + length s2 + 2) size) as [<- |].
  - injection H as <- <-. split.
    + rewrite app_length. cbn [length]. rewrite app_length. cbn [length]. lia.
    + exists (s1 ++ NUL :: s2 ++ [NUL]). rewrite <- !app_assoc. cbn [app].
      rewrite <- app_assoc. reflexivity.
  - apply rbind_Ok in H. destruct H as ([l1 r1] & E & H). injection H as <- <-.
    apply IH in E. destruct E as (E1 & u & ->). split.
    + rewrite app_length. cbn [length]. rewrite app_length. cbn [length]. lia.
    + exists (s1 ++ NUL :: s2 ++ NUL :: u). rewrite <- !app_assoc. cbn [app].
      rewrite <- app_assoc. reflexivity.
Qed.

(** C50.  For every stream accepted as starting with a current header, and for every stream
    accepted as starting with a pre-release header of type SFST, FOMA, HFST_OL or HFST_OLW,
    the reported number of header bytes is the number of bytes consumed. *)
Theorem C50_reported_size_partial peek st bs st' n rest :
  read_hfst_header peek st bs = Ok (Some (st', n, rest)) ->
  (forall u, bs = B "HFST3" ++ zero :: u -> i_type st' <> Some TROPICAL /\ i_type st' <> Some LOG) ->
  exists used, bs = used ++ rest /\ length used = n.
Proof.
  intros H HT. unfold read_hfst_header in H.
  destruct (library_header (B "HFST" ++ [NUL]) bs) as [b1|] eqn:E1.
  - apply library_header_inv in E1. subst bs.
    apply rbind_Ok in H. destruct H as ([m b2] & E2 & H).
    apply rbind_Ok in H. destruct H as ([l b3] & E3 & H).
    apply rbind_Ok in H. destruct H as (s1 & E4 & H). injection H as <- <- <-.
    destruct b1 as [|x [|y [|z b1]]]; try discriminate. cbn [header_size] in E2.
    destruct (Ascii.eqb z NUL); [|discriminate].
    set (m0 := N.to_nat (unle [x; y])) in E2. injection E2 as <- <-.
    apply header_data_inv in E3. destruct E3 as (E3 & u & ->).
    exists ((B "HFST" ++ [NUL]) ++ [x; y; z] ++ u). rewrite <- !app_assoc. split; [reflexivity|].
    rewrite app_length in E3. rewrite !app_length. cbn [length B list_ascii_of_string]. lia.
  - destruct (library_header (B "HFST3" ++ [NUL]) bs) as [b1|] eqn:E2; [|discriminate].
    apply library_header_inv in E2.
    apply rbind_Ok in H. destruct H as ([[t m] b2] & E3 & H). injection H as <- <- <-.
    cbn [i_type] in HT. specialize (HT b1). rewrite E2 in HT. cbn [app] in HT.
    specialize (HT eq_refl). destruct HT as (T1 & T2).
    unfold fst_type_old in E3. apply rbind_Ok in E3. destruct E3 as ([s r] & E3 & H).
    apply get_string_inv in E3. subst b1. subst bs.
    exists ((B "HFST3" ++ [NUL]) ++ s ++ [NUL]).
    assert (R : r = b2 /\ length s + 1 = m).
    { repeat match type of H with
      | (if bstr_eqb s ?x then _ else _) = _ =>
          destruct (bstr_eqb_spec s x) as [-> |]; [injection H as <- <- <-; try congruence; split; reflexivity|]
      end. discriminate. }
    destruct R as (-> & <-). rewrite <- !app_assoc. split; [reflexivity|].
    rewrite !app_length. cbn [length B list_ascii_of_string]. lia.
Qed.
Print Assumptions C50_reported_size_partial.

(** C50 fails for the other two pre-release headers: the reported size is 3 bytes short. *)
Theorem C50_openfst_refuted :
  forall name t, (name, t) = (B "TROPICAL_OPENFST_TYPE", TROPICAL)
                 \/ (name, t) = (B "LOG_OPENFST_TYPE", LOG) ->
  forall st rest,
  let bs := B "HFST3" ++ zero :: name ++ zero :: rest in
  exists st' n, read_hfst_header false st bs = Ok (Some (st', n, rest))
    /\ i_type st' = Some t /\ n + length rest + 3 = length bs.
Proof.
  intros name t H st rest bs. unfold bs.
  destruct H as [H|H]; injection H as -> ->; do 2 eexists;
    (split; [cbn; reflexivity|]); (split; [reflexivity|]); cbn [length app B list_ascii_of_string]; lia.
Qed.
Print Assumptions C50_openfst_refuted.

Example C50_witness :
  read_hfst_header false istate0 (B "HFST3" ++ zero :: B "HFST_OL_TYPE" ++ zero :: B "body")
  = Ok (Some ({| i_type := Some OL; i_name := []; i_props := [] |}, 19, B "body")).
Proof. vm_compute. reflexivity. Qed.
