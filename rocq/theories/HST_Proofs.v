(** Proofs about stream headers. *)
From Coq Require Import Sorted NArith.
From Verif Require Import Base OrdMap OLF_Model OLF_Spec OLF_Proofs HST_Model HST_Spec.

Lemma get_string_app peek s r : nul_free s -> (peek = true -> r <> []) ->
  get_string peek (s ++ NUL :: r) = Ok (s, r).
Proof.
  induction s as [|c s IH]; intros Hn Hr.
  - cbn [app get_string]. destruct peek; [|reflexivity].
    destruct r; [exfalso; apply Hr; reflexivity|reflexivity].
  - cbn [app get_string].
    replace (peek && match s ++ NUL :: r with [] => true | _ => false end) with false
      by (destruct s, peek; reflexivity).
    destruct (Ascii.eqb_spec c NUL) as [-> |N].
    + exfalso. apply Hn. left. reflexivity.
    + rewrite IH; [reflexivity| |exact Hr]. intros K. apply Hn. right. exact K.
Qed.

Definition pair_free (p : bstr * bstr) : Prop := nul_free (fst p) /\ nul_free (snd p).

Lemma put_pair_length p : length (put_pair p) = length (fst p) + length (snd p) + 2.
Proof. unfold put_pair, put_string. rewrite !app_length. cbn [length]. lia. Qed.

Lemma put_pairs_length l : 2 * length l <= length (put_pairs l).
Proof.
  unfold put_pairs. induction l as [|p l IH]; cbn [map concat length]; [lia|].
  rewrite app_length, put_pair_length. lia.
Qed.

Lemma header_data_ok peek l : forall fuel read rest,
  l <> [] -> Forall pair_free l -> (peek = true -> rest <> []) -> length l <= fuel ->
  header_data peek fuel (read + length (put_pairs l)) read (put_pairs l ++ rest) = Ok (l, rest).
Proof.
  induction l as [|[k v] l IH]; intros fuel read rest Hne Hf Hr Hfu; [congruence|].
  inversion Hf as [|x y (Hk & Hv) Hf']; subst. cbn [fst snd] in *.
  destruct fuel as [|fuel]; [cbn in Hfu; lia|].
  unfold put_pairs in *. cbn [map concat].
  set (read' := read + length k + length v + 2).
  assert (L : read + length (put_pair (k, v) ++ concat (map put_pair l))
              = read' + length (concat (map put_pair l))).
  { rewrite app_length, put_pair_length. cbn [fst snd]. unfold read'. lia. }
  rewrite L. cbn [header_data].
  assert (LB : (put_pair (k, v) ++ concat (map put_pair l)) ++ rest
               = k ++ NUL :: v ++ NUL :: concat (map put_pair l) ++ rest).
  { unfold put_pair at 1, put_string. cbn [fst snd]. rewrite <- !app_assoc. reflexivity. }
  rewrite LB.
  rewrite get_string_app; [|exact Hk|].
  2:{ intros _ E. apply (f_equal (@length _)) in E. rewrite app_length in E. cbn in E. lia. }
  cbn [rbind].
  assert (Hne2 : peek = true -> concat (map put_pair l) ++ rest <> []).
  { intros P E. apply app_eq_nil in E. destruct E as (_ & E). exact (Hr P E). }
  rewrite get_string_app by assumption. cbn [rbind]. fold read'.
  destruct (Nat.ltb_spec (read' + length (concat (map put_pair l))) read'); [lia|].
  destruct l as [|p l].
  - cbn [map concat length app]. rewrite Nat.add_0_r, Nat.eqb_refl. reflexivity.
  - pose proof (put_pairs_length (p :: l)) as PL. unfold put_pairs in PL.
    destruct (Nat.eqb_spec read' (read' + length (concat (map put_pair (p :: l))))).
    { cbn [length] in PL. lia. }
    rewrite IH; [reflexivity|discriminate|exact Hf'|exact Hr|]. cbn [length] in *. lia.
Qed.

Lemma library_header_app id r : library_header id (id ++ r) = Some r.
Proof.
  induction id as [|c id IH]; [reflexivity|]. cbn [app library_header].
  rewrite Ascii.eqb_refl. exact IH.
Qed.

Lemma library_header_inv id bs r : library_header id bs = Some r -> bs = id ++ r.
Proof.
  revert bs; induction id as [|c id IH]; intros bs H; [injection H as <-; reflexivity|].
  destruct bs as [|b bs]; [discriminate|]. cbn [library_header] in H.
  destruct (Ascii.eqb_spec b c) as [-> |]; [|discriminate]. cbn. f_equal. apply IH, H.
Qed.

Lemma type_of_name_ok t : type_of_name (type_name t) = Some t.
Proof. destruct t; reflexivity. Qed.

Lemma type_name_free t : nul_free (type_name t).
Proof.
  destruct t; unfold nul_free; cbn; intros H;
    repeat (destruct H as [H|H]; [discriminate|]); exact H.
Qed.

Lemma lit_free_version : nul_free (B "version") /\ nul_free (B "3.3") /\ nul_free (B "type").
Proof.
  repeat split; unfold nul_free; cbn; intros H;
    repeat (destruct H as [H|H]; [discriminate|]); exact H.
Qed.

Definition keep (p : bstr * bstr) : bool :=
  negb (bstr_eqb (fst p) (B "type") || bstr_eqb (fst p) (B "version")).

Lemma header_pairs_free t props extra : Forall pair_free props -> Forall pair_free extra ->
  Forall pair_free (header_pairs t props extra).
Proof.
  intros Hp He. destruct lit_free_version as (F1 & F2 & F3). unfold header_pairs.
  constructor; [split; assumption|]. constructor; [split; [assumption|apply type_name_free]|].
  apply Forall_app. split; [|exact He]. apply Forall_forall. intros p Hin.
  apply filter_In in Hin. rewrite Forall_forall in Hp. apply Hp, Hin.
Qed.

(** Fields after the header of a transducer with the given properties. *)
Definition after (t : ftype) (props extra : list (bstr * bstr)) (st : istate) : istate :=
  match filter keep props ++ extra with
  | [] => {| i_type := Some t; i_name := i_name st; i_props := i_props st |}
  | (k, v) :: _ =>
      {| i_type := Some t; i_name := if bstr_eqb k (B "name") then v else i_name st;
         i_props := set_all (header_pairs t props extra) (i_props st) |}
  end.

Lemma process_ok t props extra st :
  process_header_data st (header_pairs t props extra) = Ok (after t props extra st).
Proof.
  unfold process_header_data. cbv beta delta [header_pairs] iota.
  change (fun p : list ascii * list ascii => negb (bstr_eqb (fst p) (B "type") || bstr_eqb (fst p) (B "version"))) with keep.
  rewrite !bstr_eqb_refl, orb_true_r. cbn [andb negb].
  rewrite type_of_name_ok. unfold after, header_pairs. fold keep.
  change (fun p : list ascii * list ascii => negb (bstr_eqb (fst p) (B "type") || bstr_eqb (fst p) (B "version"))) with keep.
  destruct (filter keep props ++ extra) as [|[k v] m]; reflexivity.
Qed.

Lemma stream_header_shape t props extra h : stream_header t props extra = Ok h ->
  exists n, n = length (put_pairs (header_pairs t props extra)) /\ (N.of_nat n <= 65535)%N
    /\ h = (B "HFST" ++ [NUL]) ++ le 2 (N.of_nat n) ++ [NUL] ++ put_pairs (header_pairs t props extra).
Proof.
  unfold stream_header. set (body := put_pairs _). destruct (N.ltb_spec 65535 (N.of_nat (length body))); [discriminate|].
  intros E. injection E as <-. exists (length body). split; [reflexivity|]. split; [exact H|].
  rewrite <- app_assoc. reflexivity.
Qed.

Lemma header_size_ok n r : (N.of_nat n <= 65535)%N ->
  header_size (le 2 (N.of_nat n) ++ NUL :: r) = Ok (n, r).
Proof.
  intros H. pose proof (unle_le 2 (N.of_nat n)) as U.
  assert (L : (N.of_nat n < 256 ^ N.of_nat 2)%N) by (change (256 ^ N.of_nat 2)%N with 65536%N; lia).
  specialize (U L). cbn [le] in *. cbn [app header_size]. cbn [Ascii.eqb NUL zero Bool.eqb].
  rewrite U, Nat2N.id. reflexivity.
Qed.

Lemma header_roundtrip peek t props extra st h rest :
  Forall pair_free props -> Forall pair_free extra -> (peek = true -> rest <> []) ->
  stream_header t props extra = Ok h ->
  read_hfst_header peek st (h ++ rest) = Ok (Some (after t props extra st, length h, rest)).
Proof.
  intros Hp He Hr H. apply stream_header_shape in H. destruct H as (n & En & Hn & ->).
  unfold read_hfst_header. rewrite <- app_assoc, library_header_app.
  rewrite <- !app_assoc. cbn [app]. rewrite header_size_ok by exact Hn. cbn [rbind].
  assert (D : header_data peek (S n) n 0 (put_pairs (header_pairs t props extra) ++ rest)
              = Ok (header_pairs t props extra, rest)).
  { rewrite En at 2. apply (header_data_ok peek _ (S n) 0).
    - discriminate.
    - apply header_pairs_free; assumption.
    - exact Hr.
    - pose proof (put_pairs_length (header_pairs t props extra)). lia. }
  rewrite D. cbn [rbind]. rewrite process_ok. cbn [rbind].
  match goal with |- Ok (Some (_, _, _)) = Ok (Some (_, ?L, _)) => replace L with (5 + 3 + n) end;
    [reflexivity|].
  rewrite app_length. cbn [length]. rewrite app_length, le_length. cbn [length]. rewrite <- En.
  reflexivity.
Qed.

(** * Values *)
Definition lastv (k : bstr) (l : list (bstr * bstr)) (d : option bstr) : option bstr :=
  fold_left (fun d p => if bstr_eqb (fst p) k then Some (snd p) else d) l d.

Lemma mget_set_all k l : forall m, mget bcmp k (set_all l m) = lastv k l (mget bcmp k m).
Proof.
  unfold set_all, lastv. induction l as [|[k' v] l IH]; intros m; [reflexivity|].
  cbn [fold_left fst snd]. rewrite IH. f_equal.
  destruct (bstr_eqb_spec k' k) as [-> |N].
  - apply (mget_mset_same bcmp bcmp_eq).
  - apply (mget_mset_other bcmp bcmp_eq). congruence.
Qed.

Lemma lastv_app k l1 l2 d : lastv k (l1 ++ l2) d = lastv k l2 (lastv k l1 d).
Proof. unfold lastv. apply fold_left_app. Qed.

Lemma lastv_cons k a b l d :
  lastv k ((a, b) :: l) d = lastv k l (if bstr_eqb a k then Some b else d).
Proof. reflexivity. Qed.

Lemma lastv_notin k l d : (forall v, ~ In (k, v) l) -> lastv k l d = d.
Proof.
  revert d; induction l as [|[k' v] l IH]; intros d H; [reflexivity|].
  unfold lastv in *. cbn [fold_left fst snd]. rewrite IH.
  - destruct (bstr_eqb_spec k' k) as [-> |]; [|reflexivity]. exfalso. apply (H v). left. reflexivity.
  - intros w Hw. apply (H w). right. exact Hw.
Qed.

Lemma lastv_map k l d : NoDup (map fst l) ->
  lastv k l d = match mget bcmp k l with Some v => Some v | None => d end.
Proof.
  revert d; induction l as [|[k' v] l IH]; intros d N; [reflexivity|].
  cbn [map fst] in N. inversion N as [|x y N1 N2]; subst.
  unfold lastv in *. cbn [fold_left fst snd mget].
  destruct (bstr_eqb_spec k' k) as [-> |Ne].
  - rewrite (proj2 (bcmp_eq k k) eq_refl). fold (lastv k l (Some v)). apply lastv_notin.
    intros w Hw. apply N1. apply in_map_iff. exists (k, w). auto.
  - rewrite IH by exact N2. destruct (bcmp k k') eqn:E; try reflexivity.
    apply bcmp_eq in E. congruence.
Qed.

Lemma filter_keys_NoDup (f : bstr * bstr -> bool) l : NoDup (map fst l) -> NoDup (map fst (filter f l)).
Proof.
  induction l as [|p l IH]; cbn [map filter]; intros N; [constructor|].
  inversion N as [|x y N1 N2]; subst. destruct (f p); cbn [map]; [|apply IH, N2].
  constructor; [|apply IH, N2]. intros K. apply N1. apply in_map_iff in K.
  destruct K as (q & E & K). apply filter_In in K. apply in_map_iff. exists q. tauto.
Qed.

Lemma mget_filter k props : user_key k -> mget bcmp k (filter keep props) = mget bcmp k props.
Proof.
  intros (U1 & U2). induction props as [|[k' v] l IH]; [reflexivity|].
  cbn [filter mget]. unfold keep at 1. cbn [fst].
  destruct (bcmp k k') eqn:E.
  - apply bcmp_eq in E. subst k'.
    rewrite (proj2 (bstr_eqb_neq k (B "type")) U1), (proj2 (bstr_eqb_neq k (B "version")) U2).
    cbn [orb negb mget]. rewrite (proj2 (bcmp_eq k k) eq_refl). reflexivity.
  - destruct (negb _); cbn [mget]; [rewrite E|]; exact IH.
  - destruct (negb _); cbn [mget]; [rewrite E|]; exact IH.
Qed.

Definition declared (k : bstr) (props extra : list (bstr * bstr)) : option bstr :=
  match mget bcmp k extra with Some v => Some v | None => mget bcmp k props end.

Lemma after_value t props extra st k :
  NoDup (map fst props) -> NoDup (map fst extra) -> user_key k ->
  mget bcmp k (i_props (after t props extra st))
  = match declared k props extra with Some v => Some v | None => mget bcmp k (i_props st) end.
Proof.
  intros N1 N2 U. unfold after, declared.
  destruct (filter keep props ++ extra) as [|[k0 v0] m] eqn:E.
  - apply app_eq_nil in E. destruct E as (E1 & ->). cbn [mget i_props].
    rewrite <- (mget_filter k props U), E1. reflexivity.
  - cbn [i_props]. rewrite mget_set_all. unfold header_pairs.
    change (fun p : list ascii * list ascii => negb (bstr_eqb (fst p) (B "type") || bstr_eqb (fst p) (B "version"))) with keep.
    rewrite !lastv_cons. destruct U as (U1 & U2).
    rewrite (proj2 (bstr_eqb_neq (B "version") k)) by congruence.
    rewrite (proj2 (bstr_eqb_neq (B "type") k)) by congruence.
    rewrite lastv_app, (lastv_map k extra) by exact N2.
    destruct (mget bcmp k extra); [reflexivity|].
    rewrite lastv_map by (apply filter_keys_NoDup, N1).
    rewrite mget_filter by (split; assumption). reflexivity.
Qed.

Lemma sorted_set_all l : forall m, StronglySorted (klt bcmp) (map fst m) ->
  StronglySorted (klt bcmp) (map fst (set_all l m)).
Proof.
  unfold set_all. induction l as [|[k v] l IH]; intros m S; [exact S|].
  cbn [fold_left]. apply IH. apply sorted_mset; [apply bcmp_eq|apply bcmp_trans|apply bcmp_op|exact S].
Qed.

(** Invariant of the stream's fields: the property map is a map, its values were acceptable,
    and the name is the value of the name property. *)
Record ist_ok (valid : bstr -> bool) (st : istate) : Prop := {
  io_sorted : StronglySorted (klt bcmp) (map fst (i_props st));
  io_valid : forall k v, In (k, v) (i_props st) -> valid v = true;
  io_name : i_name st = [] \/ exists v, In (B "name", v) (i_props st);
  io_nvalid : valid (i_name st) = true
}.

Lemma In_set_all p l : forall m, In p (set_all l m) -> In p l \/ In p m.
Proof.
  unfold set_all. induction l as [|[k v] l IH]; intros m H; [right; exact H|].
  cbn [fold_left fst snd] in H. apply IH in H. destruct H as [H|H]; [left; right; exact H|].
  apply In_mset in H. destruct H as [-> |H]; [left; left; reflexivity|right; exact H].
Qed.

Lemma key_set_all k l : forall m, (exists v, In (k, v) l) \/ (exists v, In (k, v) m) ->
  exists v, In (k, v) (set_all l m).
Proof.
  unfold set_all. induction l as [|[k' w] l IH]; intros m H.
  - destruct H as [(v & [])|H]. exact H.
  - cbn [fold_left fst snd]. apply IH.
    destruct (bstr_eq_dec k k') as [-> |N].
    + right. exists w. apply (mget_In bcmp bcmp_eq), (mget_mset_same bcmp bcmp_eq).
    + destruct H as [(v & [E|H])|(v & H)].
      * injection E as E _. congruence.
      * left. exists v. exact H.
      * right.
        assert (G : exists u, mget bcmp k m = Some u).
        { destruct (mget bcmp k m) eqn:E; [eauto|]. exfalso.
          exact (mget_None_notin bcmp bcmp_eq _ _ E v H). }
        destruct G as (u & G). exists u. apply (mget_In bcmp bcmp_eq).
        rewrite (mget_mset_other bcmp bcmp_eq) by exact N. exact G.
Qed.

Lemma type_name_ascii valid t : utf8_ok valid -> valid (type_name t) = true.
Proof.
  intros U. apply U. destruct t; cbn; repeat constructor; vm_compute; reflexivity.
Qed.

Lemma ist_ok0 valid : utf8_ok valid -> ist_ok valid istate0.
Proof.
  intros U. constructor; cbn [istate0 i_props i_name map].
  - constructor.
  - intros k v [].
  - left. reflexivity.
  - apply U. constructor.
Qed.

Lemma ist_ok_after valid t props st : utf8_ok valid -> ist_ok valid st ->
  (forall k v, In (k, v) props -> valid v = true) ->
  ist_ok valid (after t props [] st).
Proof.
  intros U [S V NM NV] VP. unfold after. rewrite app_nil_r.
  destruct (filter keep props) as [|[k0 v0] m] eqn:E; [constructor; cbn; assumption|].
  assert (H0 : In (k0, v0) props).
  { assert (K : In (k0, v0) (filter keep props)) by (rewrite E; left; reflexivity).
    apply filter_In in K. tauto. }
  constructor; cbn [i_props i_name].
  - apply sorted_set_all. exact S.
  - intros k v H. apply In_set_all in H. destruct H as [H|H]; [|eapply V; eauto].
    unfold header_pairs in H. rewrite app_nil_r in H.
    destruct H as [H|[H|H]].
    + injection H as _ <-. apply U. repeat constructor; vm_compute; reflexivity.
    + injection H as _ <-. apply type_name_ascii, U.
    + apply filter_In in H. eapply VP. apply H.
  - destruct (bstr_eqb_spec k0 (B "name")) as [-> |N].
    + right. apply key_set_all. left. exists v0. unfold header_pairs. rewrite app_nil_r.
      right. right. fold keep.
      change (In (B "name", v0) (filter keep props)). rewrite E. left. reflexivity.
    + destruct NM as [NM|NM]; [left; exact NM|]. right. apply key_set_all. right. exact NM.
  - destruct (bstr_eqb k0 (B "name")); [eapply VP; eauto|exact NV].
Qed.

Lemma set_properties_ok valid l : forall m,
  (forall k v, In (k, v) l -> valid v = true) ->
  set_properties valid l m = Ok (set_all l m).
Proof.
  induction l as [|[k v] l IH]; intros m V; [reflexivity|].
  cbn [set_properties]. unfold set_property. rewrite (V k v (or_introl eq_refl)). cbn [rbind].
  rewrite IH by (intros k' v' H; apply (V k' v'); right; exact H). reflexivity.
Qed.

Lemma transducer_props_ok valid st : ist_ok valid st ->
  exists ps, transducer_props valid st = Ok ps
    /\ forall k, get_property k ps = get_property k (i_props st).
Proof.
  intros [S V NM NV]. unfold transducer_props, set_property. rewrite NV. cbn [rbind mset].
  rewrite set_properties_ok by exact V. eexists. split; [reflexivity|].
  intros k. unfold get_property. rewrite mget_set_all, lastv_map.
  2:{ eapply sorted_NoDup; [apply bcmp_eq|exact S]. }
  cbn [mget]. destruct (mget bcmp k (i_props st)) eqn:E; [reflexivity|].
  destruct (bcmp k (B "name")) eqn:E2; try reflexivity.
  apply bcmp_eq in E2. subst k. destruct NM as [-> |(v & NM)]; [reflexivity|].
  exfalso. exact (mget_None_notin bcmp bcmp_eq _ _ E v NM).
Qed.

Lemma header_write_nonempty t bs : transducer_write t = Ok bs -> bs <> [].
Proof.
  unfold transducer_write. destruct (_ || _); [discriminate|]. intros E. injection E as <-.
  discriminate.
Qed.

Lemma stream_header_nonempty t p e h : stream_header t p e = Ok h -> exists r, h = B "HFST" ++ r.
Proof.
  intros H. apply stream_header_shape in H. destruct H as (n & _ & _ & ->).
  rewrite <- app_assoc. eexists. reflexivity.
Qed.

Lemma read_body_ok valid st x bs rest : ist_ok valid st ->
  consistent x -> canonical_tables x -> transducer_write x = Ok bs ->
  exists ps, read_body valid st (bs ++ rest) = Ok ((ps, x), rest)
    /\ forall k, get_property k ps = get_property k (i_props st).
Proof.
  intros HI HC HT HW. unfold read_body.
  pose proof (header_write_nonempty _ _ HW) as NE.
  destruct (bs ++ rest) as [|c r] eqn:E; [apply app_eq_nil in E; tauto|]. rewrite <- E.
  change {| is_bytes := bs ++ rest; is_eof := false |} with (stream (bs ++ rest)).
  destruct (transducer_rw x rest HC) as (bs2 & W2 & R2); [rewrite (proj1 HT); auto|].
  rewrite HW in W2. injection W2 as <-. rewrite R2, map_norm_id by exact HT. cbn [rbind].
  destruct (transducer_props_ok valid st HI) as (ps & P1 & P2). rewrite P1. cbn [rbind].
  exists ps. split; [|exact P2]. destruct x; reflexivity.
Qed.

(** Property values of a stream's field after a sequence of headers. *)
Definition afters (t : ftype) (l : list (list (bstr * bstr))) (st : istate) : istate :=
  fold_left (fun st p => after t p [] st) l st.

Lemma get_after t props st k : props_ok props -> user_key k ->
  get_property k (i_props (after t props [] st))
  = match mget bcmp k props with Some v => v | None => get_property k (i_props st) end.
Proof.
  intros (S & _) U. unfold get_property. rewrite after_value; [|eapply sorted_NoDup; [apply bcmp_eq|exact S]|constructor|exact U].
  unfold declared. cbn [mget]. destruct (mget bcmp k props); reflexivity.
Qed.

Definition seq_props (hist : list (list (bstr * bstr))) (l l' : list (list (bstr * bstr) * transducer)) : Prop :=
  map snd l' = map snd l
  /\ forall i ps, nth_error (map fst l') i = Some ps ->
     forall k, user_key k -> get_property k ps = latest k (hist ++ firstn (S i) (map fst l)).

Lemma latest_snoc k hist p :
  latest k (hist ++ [p]) = match mget bcmp k p with Some v => v | None => latest k hist end.
Proof. unfold latest. rewrite fold_left_app. reflexivity. Qed.

Lemma read_more_ok valid t : utf8_ok valid -> forall l fuel st hist bs,
  ist_ok valid st ->
  (forall k, user_key k -> get_property k (i_props st) = latest k hist) ->
  Forall (savable t) l ->
  Forall (fun x => forall k v, In (k, v) (fst x) -> valid v = true) l ->
  write_file t l = Ok bs -> length bs <= fuel ->
  exists l', read_more valid fuel t st bs = Ok l' /\ seq_props hist l l'.
Proof.
  intros U. induction l as [|[props x] l IH]; intros fuel st hist bs HI HH HS HV HW HF.
  - injection HW as <-. exists []. split; [destruct fuel; reflexivity|].
    split; [reflexivity|]. intros [|i] ps E; discriminate.
  - cbn [write_file] in HW.
    apply rbind_Ok in HW. destruct HW as (h & Eh & HW).
    apply rbind_Ok in HW. destruct HW as (b & Eb & HW).
    apply rbind_Ok in HW. destruct HW as (r & Er & HW). injection HW as <-.
    inversion HS as [|? ? (HP & HC & HT) HS']; subst. inversion HV as [|? ? HV1 HV']; subst.
    cbn [fst snd] in *.
    destruct (stream_header_nonempty _ _ _ _ Eh) as (hr & Ehr).
    assert (LH : 0 < length h) by (rewrite Ehr, app_length; cbn; lia).
    assert (NB : b ++ r <> []).
    { intros K. apply app_eq_nil in K. destruct K as (K & _). exact (header_write_nonempty _ _ Eb K). }
    destruct fuel as [|fuel]; [rewrite app_length in HF; lia|].
    cbn [read_more]. destruct (h ++ b ++ r) as [|c z] eqn:E.
    { apply app_eq_nil in E. destruct E as (E & _). rewrite E in LH. cbn in LH. lia. }
    rewrite <- E in *. clear E c z.
    rewrite (header_roundtrip true t props []); [|apply HP|constructor|intros _; exact NB|exact Eh].
    cbn [rbind].
    assert (T : i_type (after t props [] st) = Some t).
    { unfold after. destruct (filter keep props ++ []) as [|[? ?] ?]; reflexivity. }
    rewrite T. replace (ftype_eqb t t) with true by (destruct t; reflexivity).
    pose proof (ist_ok_after valid t props st U HI HV1) as HI'.
    destruct (read_body_ok valid (after t props [] st) x b r HI' HC HT Eb) as (ps & R1 & R2).
    rewrite R1. cbn [rbind].
    assert (HH' : forall k, user_key k ->
              get_property k (i_props (after t props [] st)) = latest k (hist ++ [props])).
    { intros k K. rewrite get_after by assumption. rewrite latest_snoc, HH by exact K. reflexivity. }
    destruct (IH fuel (after t props [] st) (hist ++ [props]) r HI' HH' HS' HV' Er) as (l' & L1 & L2 & L3).
    { rewrite !app_length in HF. lia. }
    rewrite L1. cbn [rbind]. eexists. split; [reflexivity|]. split.
    + cbn [map snd]. rewrite L2. reflexivity.
    + intros [|i] p2 E2 k K; cbn [map fst nth_error] in E2.
      * injection E2 as <-. rewrite R2, HH' by exact K. reflexivity.
      * rewrite (L3 i p2 E2 k K). cbn [map fst firstn]. rewrite <- app_assoc. reflexivity.
Qed.

Lemma read_file_ok valid fn t l bs : utf8_ok valid -> (t = OL \/ t = OLW) -> l <> [] ->
  Forall (savable t) l ->
  Forall (fun x => forall k v, In (k, v) (fst x) -> valid v = true) l ->
  write_file t l = Ok bs ->
  exists l', read_file valid fn bs = Ok (t, l') /\ seq_props [] l l'.
Proof.
  intros U Ht NE HS HV HW. destruct l as [|[props x] l]; [congruence|]. clear NE.
  cbn [write_file] in HW.
  apply rbind_Ok in HW. destruct HW as (h & Eh & HW).
  apply rbind_Ok in HW. destruct HW as (b & Eb & HW).
  apply rbind_Ok in HW. destruct HW as (r & Er & HW). injection HW as <-.
  inversion HS as [|? ? (HP & HC & HT) HS']; subst. inversion HV as [|? ? HV1 HV']; subst.
  cbn [fst snd] in *. unfold read_file.
  rewrite (header_roundtrip false t props []); [|apply HP|constructor|discriminate|exact Eh].
  cbn [rbind].
  assert (T : i_type (after t props [] istate0) = Some t).
  { unfold after. destruct (filter keep props ++ []) as [|[? ?] ?]; reflexivity. }
  rewrite T.
  pose proof (ist_ok_after valid t props istate0 U (ist_ok0 valid U) HV1) as HI'.
  destruct (read_body_ok valid (after t props [] istate0) x b r HI' HC HT Eb) as (ps & R1 & R2).
  assert (HH' : forall k, user_key k ->
            get_property k (i_props (after t props [] istate0)) = latest k [props]).
  { intros k K. rewrite get_after by assumption. reflexivity. }
  destruct (read_more_ok valid t U l (length r) (after t props [] istate0) [props] r HI' HH' HS' HV' Er (le_n _))
    as (l' & L1 & L2 & L3).
  assert (SK : (if fn then skipn (length h) (h ++ b ++ r) else b ++ r) = b ++ r).
  { destruct fn; [|reflexivity]. rewrite skipn_app, Nat.sub_diag, skipn_all. reflexivity. }
  exists ((ps, x) :: l'). split.
  - destruct Ht as [-> | ->]; cbv zeta; rewrite SK, R1; cbn [rbind]; rewrite L1; reflexivity.
  - split; [cbn [map snd]; rewrite L2; reflexivity|].
    intros [|i] p2 E2 k K; cbn [map fst nth_error] in E2.
    + injection E2 as <-. rewrite R2, HH' by exact K. reflexivity.
    + rewrite (L3 i p2 E2 k K). reflexivity.
Qed.
