(** Proofs about lookup in the optimized-lookup format, part 2: the search. *)
From Coq Require Import NArith Permutation.
From Verif Require Import Base OrdMap Flags_Model Flags_Spec Flags_Proofs BT_Model BT_Spec An_Spec LK_Model LK_Proofs OLF_Model OLF_Proofs OLC_Model OLL_Model OLC_Spec OLC_Proofs OLC_Proofs5 OLL_Spec.
From Verif Require Import OLL_Proofs.

Lemma denotes_fun s x y : denotes s x -> denotes s y -> x = y.
Proof.
  intros Hx Hy. apply denotes_code in Hx, Hy. destruct Hx as (_ & c & o & E1 & E2 & H1), Hy as (_ & c' & o' & E1' & E2' & H2).
  assert (c' = c) by congruence. subst c'. assert (o' = o) by congruence. subst o'.
  unfold flag_code in H1, H2. destruct x, y; intuition congruence.
Qed.

(** * The loops of get_analyses, on their own *)
Section Loops.
  Variables (dec : N -> Z) (a : alphabet) (t : tables).
  Variable rec : list N -> list (N * N) -> Z -> fdstate -> N -> lstate -> res lstate.
  Variables (path : list (N * N)) (w : Z) (fs : fdstate).
  Section Free.
    Variable input : list N.
    Fixpoint free_loop (es : list trans_entry) (st : lstate) : res lstate :=
      match es with
      | [] => Ok st
      | e :: r =>
          let path' := path ++ [(te_input e, te_output e)] in
          if (te_input e =? 0)%N then
            rbind (rec input path' (w + weight_of dec t e)%Z fs (te_target e) st) (fun st =>
            free_loop r (set_found true st))
          else
            match mget Nat.compare (N.to_nat (te_input e)) (operations (a_fd a)) with
            | None => Ub
            | Some op =>
                match apply_op op fs with
                | None => Ub
                | Some (_, false) => free_loop r st
                | Some (fs', true) =>
                    let p := (te_target e, fs_values fs) in
                    if has_trav p st then free_loop r st
                    else
                      rbind (rec input path' (w + weight_of dec t e)%Z fs' (te_target e) (add_trav p st)) (fun st =>
                      free_loop r (set_found true (del_trav p st)))
                end
            end
      end.
  End Free.
  Section Consume.
    Variables (x : N) (rest : list N).
    Fixpoint consume_loop (es : list trans_entry) (st : lstate) : res lstate :=
      match es with
      | [] => Ok st
      | e :: r =>
          let out := if is_meta_arc a (te_output e) then x else te_output e in
          rbind (rec rest (path ++ [(te_input e, out)]) (w + weight_of dec t e)%Z fs (te_target e) (set_travs [] st)) (fun st =>
          consume_loop r (set_found true st))
      end.
    Definition attempt (i y : N) (st : lstate) : res lstate :=
      rbind (symbol_entries t i y) (fun '(hit, es) =>
      rbind (consume_loop es st) (fun st => Ok (if hit : bool then set_found true st else st))).
  End Consume.
End Loops.

Lemma get_analyses_S dec a t limit d input path w fs i st :
  get_analyses dec a t limit (S d) input path w fs i st =
  let rec := get_analyses dec a t limit d in
  let st := set_found false st in
  if enough_results limit st then Ok st
  else
    rbind (match input with
           | [] => rmap (fun o => match o with Some fw => note_analysis a (w + fw)%Z path st | None => st end) (final_weight dec t i)
           | _ => Ok st
           end) (fun st =>
    rbind (free_entries a t i) (fun '(hit, es) =>
    rbind (free_loop dec a t rec path w fs input es st) (fun st =>
    let st := if hit : bool then set_found true st else st in
    match input with
    | [] => Ok st
    | x :: rest =>
        let attempt := attempt dec a t rec path w fs x rest i in
        rbind (if (x <? a_orig_count a)%N then attempt x st
               else
                 rbind (if (a_identity a =? OLF_Model.NO_SYMBOL)%N then Ok st else attempt (a_identity a) st) (fun st =>
                 if (a_unknown a =? OLF_Model.NO_SYMBOL)%N then Ok st else attempt (a_unknown a) st)) (fun st =>
        if negb (a_default a =? OLF_Model.NO_SYMBOL)%N && negb (l_found st) then attempt (a_default a) st else Ok st)
    end))).
Proof. reflexivity. Qed.

(** * What a part of the search does to the state *)
Section Post.
  Variable limit : option nat.
  (** [P]: what may be added, [Q]: what must be added. *)
  Record post (P Q : tlp -> Prop) (st st' : lstate) : Prop := {
    po_keep : forall e, In e (l_results st) -> In e (l_results st');
    po_len : length (l_results st) <= length (l_results st');
    po_new : forall e, In e (l_results st') -> In e (l_results st) \/ P e;
    po_all : enough_results limit st' = false -> forall e, Q e -> In e (l_results st');
    po_max : forall m, limit = Some m -> length (l_results st) <= m -> length (l_results st') <= m;
    po_travs : forall p, In p (l_travs st') -> In p (l_travs st)
  }.
  Lemma enough_mono st st' : length (l_results st) <= length (l_results st') -> enough_results limit st' = false -> enough_results limit st = false.
  Proof. unfold enough_results. destruct limit as [m|]; [|auto]. rewrite !Nat.leb_gt. lia. Qed.
  Lemma post_same P st st' : l_results st' = l_results st -> (forall p, In p (l_travs st') -> In p (l_travs st)) -> post P (fun _ => False) st st'.
  Proof. intros E T. constructor; rewrite ?E; auto; lia || tauto. Qed.
  Lemma post_weaken (P Q P' Q' : tlp -> Prop) st st' : post P Q st st' -> (forall e, P e -> P' e) -> (forall e, Q' e -> Q e) -> post P' Q' st st'.
  Proof.
    intros [A B C D E F] HP HQ. constructor; auto. intros e He. destruct (C e He); auto.
  Qed.
  Lemma post_seq P Q P' Q' st st1 st2 : post P Q st st1 -> post P' Q' st1 st2 -> post (fun e => P e \/ P' e) (fun e => Q e \/ Q' e) st st2.
  Proof.
    intros H1 H2. constructor.
    - intros e He. apply (po_keep _ _ _ _ H2), (po_keep _ _ _ _ H1), He.
    - pose proof (po_len _ _ _ _ H1). pose proof (po_len _ _ _ _ H2). lia.
    - intros e He. destruct (po_new _ _ _ _ H2 e He) as [H|H]; [|auto]. destruct (po_new _ _ _ _ H1 e H); auto.
    - intros En e [H|H]; [|apply (po_all _ _ _ _ H2 En), H]. apply (po_keep _ _ _ _ H2), (po_all _ _ _ _ H1); [|exact H].
      exact (enough_mono _ _ (po_len _ _ _ _ H2) En).
    - intros m Em L. apply (po_max _ _ _ _ H2 m Em), (po_max _ _ _ _ H1 m Em), L.
    - intros p Hp. apply (po_travs _ _ _ _ H1), (po_travs _ _ _ _ H2), Hp.
  Qed.
End Post.

(** * The search follows the runs of the transducer *)
Section Search.
  Variables (dec : N -> Z) (tr : transducer) (g : graph) (addr : nat -> N).
  Hypothesis R : represents dec tr g addr.
  Hypothesis HS : structure_ok g.
  Let names := a_table (tr_alphabet tr).
  Let inputs := N.to_nat (h_input_symbols (tr_header tr)).
  Let T := tr_tables tr.
  Let F := a_fd (tr_alphabet tr).
  Hypothesis HA : alphabet_of_table names = Ok (tr_alphabet tr).
  Hypothesis HW : t_wclass (tr_tables tr) = true.
  Hypothesis Hsmall : (N.of_nat (length names) < 32767)%N.
  Hypothesis Hdef : ~ In DEFAULT names.
  Hypothesis Hval : forall x f, In x names -> denotes x f -> nonempty_value f.
  Hypothesis Hin : inputs <= length names.
  Variable extra : list bstr.
  Let al := set_table (tr_alphabet tr) (names ++ extra).
  Variable limit : option nat.

  Lemma names_nodup : NoDup names. Proof. exact (rep_names _ _ _ _ R). Qed.
  Lemma al_facts :
    a_orig_count al = N.of_nat (length names)
    /\ define_all fd_empty (flag_defs 0 names) = Some F
    /\ a_unknown al = match position UNK names with Some k => N.of_nat k | None => OLF_Model.NO_SYMBOL end
    /\ a_identity al = match position IDN names with Some k => N.of_nat k | None => OLF_Model.NO_SYMBOL end
    /\ a_default al = OLF_Model.NO_SYMBOL.
  Proof.
    destruct (alphabet_of_table_Ok names _ HA names_nodup) as (_ & _ & H1 & H2 & H3 & H4 & H5).
    unfold al. cbn [set_table a_orig_count a_unknown a_identity a_default a_fd]. split; [exact H1|]. split; [exact H2|]. split; [exact H3|]. split; [exact H4|].
    rewrite H5. destruct (position internal_default names) as [k|] eqn:E; [|reflexivity]. apply position_nth, nth_error_In in E. contradiction.
  Qed.

  (** ** Flags *)
  Lemma define_all_size defs : forall t t', define_all t defs = Some t' ->
    length (feature_map t') <= length (feature_map t) + length defs /\ length (value_map t') <= length (value_map t) + length defs.
  Proof.
    induction defs as [|(k, s) r IH]; intros t t' H; simpl in H; [injection H as <-; simpl; lia|].
    destruct (define_diacritic t k s) as [t1|] eqn:E; [|discriminate]. specialize (IH _ _ H). cbn [length].
    assert (X : length (feature_map t1) <= S (length (feature_map t)) /\ length (value_map t1) <= S (length (value_map t))).
    { clear -E. unfold define_diacritic in E. destruct (is_diacritic s); [|discriminate]. cbn [negb] in E.
      assert (ML : forall V (x : bstr) (v : V) m, length (mset bcmp x v m) <= S (length m)).
      { intros V x v m. induction m as [|[k' v'] r IH]; simpl; [lia|]. destruct (bcmp x k'); simpl; lia. }
      destruct (nth_error s 1); [|discriminate]. destruct (char_to_operator _); [|discriminate]. destruct (split_feature_value s) as (feat, ov). cbv zeta in E.
      destruct (mget bcmp feat (feature_map t)); [|destruct (size_t_to_ushort (Z.of_nat (length (feature_map t)))); [|discriminate]];
      (destruct (mget bcmp _ (value_map t)); [|try (destruct (size_t_to_ushort _); [|discriminate])]);
      repeat match type of E with context [mget ?a ?b ?c] => destruct (mget a b c); try discriminate E end;
      injection E as <-; cbn [feature_map value_map]; split; auto; lia. }
    lia.
  Qed.
  Lemma flag_defs_len l : forall i, length (flag_defs i l) <= length l.
  Proof. induction l as [|s l IH]; intros i; simpl; [lia|]. specialize (IH (S i)). destruct (is_diacritic s); simpl; lia. Qed.
  Lemma F_ok : tbl_ok F /\ (Z.of_nat (length (value_map F)) <= 32767)%Z /\ (Z.of_nat (length (feature_map F)) <= 65535)%Z.
  Proof.
    destruct al_facts as (_ & D & _). destruct (define_all_ok _ _ _ fd_empty_ok D) as (H & _ & _). split; [exact H|].
    destruct (define_all_size _ _ _ D) as (H1 & H2). pose proof (flag_defs_len names 0) as H3.
    change (length (feature_map fd_empty)) with 0 in H1. change (length (value_map fd_empty)) with 1 in H2. lia.
  Qed.
  Lemma flag_op k s x : nth_error names k = Some s -> denotes s x ->
    exists op, mget Nat.compare k (operations F) = Some op /\ op_means F op x.
  Proof.
    intros E Dx. destruct al_facts as (_ & D & _). destruct (define_all_ok _ _ _ fd_empty_ok D) as (_ & _ & Hk). specialize (Hk k).
    pose proof (last_def_flag names 0 k) as X. cbn [Nat.add] in X. rewrite X, E in Hk.
    assert (Y : is_diacritic s = true) by (apply is_diacritic_denotes; eauto). rewrite Y in Hk. destruct Hk as (_ & Hk). apply Hk, Dx.
  Qed.

  Definition dom_ok (e : fenv) : Prop := forall f, e f <> Unset -> exists i, mget bcmp f (feature_map F) = Some i.
  Lemma dom_ok_step op x e : op_means F op x -> dom_ok e -> dom_ok (fst (Flags_Spec.step x e)).
  Proof.
    intros M D.
    assert (K : forall f v, (exists i, mget bcmp f (feature_map F) = Some i) -> dom_ok (env_set e f v)).
    { intros f v Hf f' H. unfold env_set in H. destruct (bstr_eqb f' f) eqn:X; [apply bstr_eqb_eq in X; subst f'; exact Hf|apply D, H]. }
    destruct x as [f v|f v|f v|f v|f|f v]; cbn [op_means Flags_Spec.step] in *.
    - apply K. destruct M as (_ & M & _). eauto.
    - apply K. destruct M as (_ & M & _). eauto.
    - destruct v; exact D.
    - destruct v; exact D.
    - apply K. destruct M as (_ & M). eauto.
    - assert (Hf : exists i, mget bcmp f (feature_map F) = Some i) by (destruct M as (_ & M & _); eauto).
      destruct (e f); [apply K, Hf| |]; destruct (bstr_eqb _ _); try exact D; apply K, Hf.
  Qed.
  Lemma same_of_values e1 e2 s1 s2 : fd_rel F e1 s1 -> fd_rel F e2 s2 -> dom_ok e1 -> dom_ok e2 -> fs_values s1 = fs_values s2 -> same_values e1 e2.
  Proof.
    intros (_ & _ & H1) (_ & _ & H2) D1 D2 E f. destruct F_ok as (Ok_ & Sz & _).
    destruct (mget bcmp f (feature_map F)) as [i|] eqn:M.
    - destruct (H1 f i M) as (z & Z1 & X1), (H2 f i M) as (z' & Z2 & X2). rewrite E in Z1. assert (z' = z) by congruence. subst z'.
      assert (V : forall v j, v <> [] -> mget bcmp v (value_map F) = Some j -> (0 < j)%Z).
      { intros v j Nv Mv. pose proof (ok_vid F Ok_ Sz v j Nv Mv). lia. }
      destruct (e1 f) as [|v|v] eqn:E1, (e2 f) as [|v'|v'] eqn:E2; cbn [enc] in X1, X2; try reflexivity.
      + destruct X2 as (N2 & M2). pose proof (V _ _ N2 M2). lia.
      + destruct X2 as (N2 & j & M2 & ->). pose proof (V _ _ N2 M2). lia.
      + destruct X1 as (N1 & M1). pose proof (V _ _ N1 M1). lia.
      + destruct X1 as (N1 & M1), X2 as (N2 & M2). f_equal. exact (ok_vinj F Ok_ Sz v v' z M1 M2).
      + destruct X1 as (N1 & M1), X2 as (N2 & j & M2 & ->). pose proof (V _ _ N1 M1). pose proof (V _ _ N2 M2). lia.
      + destruct X1 as (N1 & j & M1 & ->). pose proof (V _ _ N1 M1). lia.
      + destruct X1 as (N1 & j & M1 & ->), X2 as (N2 & M2). pose proof (V _ _ N1 M1). pose proof (V _ _ N2 M2). lia.
      + destruct X1 as (N1 & j & M1 & ->), X2 as (N2 & j' & M2 & Ej). assert (j' = j) by lia. subst j'. f_equal. exact (ok_vinj F Ok_ Sz v v' j M1 M2).
    - destruct (e1 f) eqn:E1; [|destruct (D1 f) as (? & C); congruence|destruct (D1 f) as (? & C); congruence].
      destruct (e2 f) eqn:E2; [reflexivity|destruct (D2 f) as (? & C); congruence|destruct (D2 f) as (? & C); congruence].
  Qed.

  (** ** Names *)
  Definition strings (path : list (N * N)) : list (bstr * bstr) :=
    map (fun p => (string_from_symbol al (fst p), string_from_symbol al (snd p))) path.
  Lemma strings_app p q : strings (p ++ q) = strings p ++ strings q.
  Proof. apply map_app. Qed.
  Lemma name_at k x : nth_error names k = Some x -> nth_error (a_table al) k = Some x.
  Proof. intros E. unfold al. cbn [set_table a_table]. rewrite nth_error_app1; [exact E|]. apply nth_error_Some. congruence. Qed.
  Lemma zero_eps k x : nth_error names k = Some x -> (k = 0 <-> x = EPSILON).
  Proof.
    intros E. pose proof (rep_epsilon _ _ _ _ R) as Z. fold names in Z. split; [intros ->; rewrite Z in E; injection E as <-; reflexivity|].
    intros ->. apply (proj1 (NoDup_nth_error names) names_nodup); [apply nth_error_Some; congruence|]. rewrite E, Z. reflexivity.
  Qed.
  Lemma shown_name k x : nth_error names (N.to_nat k) = Some x -> string_from_symbol al k = show x.
  Proof.
    intros E. pose proof (zero_eps _ _ E) as Z. unfold string_from_symbol, show.
    destruct (N.eqb_spec k 0) as [-> |D]; destruct (bstr_eqb_spec x EPSILON) as [H|H]; try reflexivity.
    - exfalso. apply H, Z. reflexivity.
    - exfalso. apply D. apply Z in H. lia.
    - apply nth_error_nth. apply name_at, E.
  Qed.
  Lemma number_unique j k x : nth_error names j = Some x -> nth_error names k = Some x -> j = k.
  Proof. intros E1 E2. apply (proj1 (NoDup_nth_error names) names_nodup); [apply nth_error_Some; congruence|congruence]. Qed.
  Lemma meta_spec k x : nth_error names (N.to_nat k) = Some x -> is_meta_arc al k = bstr_eqb x UNKNOWN || bstr_eqb x IDENTITY.
  Proof.
    intros E. destruct al_facts as (_ & _ & U & I & D). assert (L : N.to_nat k < length names) by (apply nth_error_Some; congruence).
    unfold is_meta_arc. rewrite U, I, D.
    assert (NK : (k =? OLF_Model.NO_SYMBOL)%N = false) by (apply N.eqb_neq; unfold OLF_Model.NO_SYMBOL; lia). rewrite NK. cbn [negb andb].
    assert (P : forall y, (k =? match position y names with Some k => N.of_nat k | None => OLF_Model.NO_SYMBOL end)%N = bstr_eqb x y).
    { intros y. destruct (position y names) as [j|] eqn:Ej.
      - apply position_nth in Ej. destruct (bstr_eqb_spec x y) as [-> |D'].
        + apply N.eqb_eq. rewrite (number_unique _ _ _ Ej E). lia.
        + apply N.eqb_neq. intros ->. rewrite Nat2N.id in E. congruence.
      - rewrite NK. symmetry. apply bstr_eqb_neq. intros ->. apply nth_error_In in E. destruct (position_In _ _ E) as (j & C). congruence. }
    rewrite !P. rewrite orb_false_r. reflexivity.
  Qed.

  (** ** The claims *)
  Definition may (d s : nat) (e : fenv) (ts : list bstr) (path : list (N * N)) (w : Z) (x : tlp) : Prop :=
    exists r t fw, lookup_run g s e r ts t /\ length r < d /\ mget Nat.compare t (fin g) = Some fw
      /\ x = ((w + run_weight r + fw)%Z, strings path ++ map shown r).
  Definition must (d s : nat) (e : fenv) (seen : list (nat * fenv)) (ts : list bstr) (path : list (N * N)) (w : Z) (x : tlp) : Prop :=
    exists r t fw, lookup_run g s e r ts t /\ unrepeated seen e r /\ length r < d /\ mget Nat.compare t (fin g) = Some fw
      /\ x = ((w + run_weight r + fw)%Z, strings path ++ map shown r).
  (** The recorded traversals are among [seen]. *)
  Definition covers (seen : list (nat * fenv)) (travs : list trav) : Prop :=
    forall p, In p travs -> exists s' e' fs', In (s', e') seen /\ s' < length (sts g) /\ p = (addr s', fs_values fs') /\ fd_rel F e' fs' /\ dom_ok e'.
  Definition tokens_ok (input : list N) (ts : list bstr) : Prop :=
    Forall2 (fun k x => token tr g al k x /\ x <> EPSILON) input ts.

  Definition call_ok (rec : list N -> list (N * N) -> Z -> fdstate -> N -> lstate -> res lstate) (d : nat) : Prop :=
    forall input ts path w fs e s seen st st', tokens_ok input ts -> fd_rel F e fs -> dom_ok e -> s < length (sts g) -> covers seen (l_travs st) ->
    rec input path w fs (addr s) st = Ok st' ->
    post limit (may d s e ts path w) (must d s e seen ts path w) st st'.

  Lemma arc_target s a : In a (nth s (sts g) []) -> tgt a < length (sts g).
  Proof. intros H. exact (proj1 (proj2 HS) s a H). Qed.

  (** Runs beginning with a given arc. *)
  Definition first_is (l : list step) (P : list step -> Prop) (r : list step) : Prop := exists q r', In q l /\ r = q :: r' /\ P r.
  Definition may_via (l : list step) (d s : nat) e ts path w (x : tlp) : Prop :=
    exists r t fw, (exists q r', In q l /\ r = q :: r') /\ lookup_run g s e r ts t /\ length r < d /\ mget Nat.compare t (fin g) = Some fw
      /\ x = ((w + run_weight r + fw)%Z, strings path ++ map shown r).
  Definition must_via (l : list step) (d s : nat) e seen ts path w (x : tlp) : Prop :=
    exists r t fw, (exists q r', In q l /\ r = q :: r') /\ lookup_run g s e r ts t /\ unrepeated seen e r /\ length r < d /\ mget Nat.compare t (fin g) = Some fw
      /\ x = ((w + run_weight r + fw)%Z, strings path ++ map shown r).
  Lemma may_via_cons q l d s e ts path w x : may_via (q :: l) d s e ts path w x <-> may_via [q] d s e ts path w x \/ may_via l d s e ts path w x.
  Proof.
    split.
    - intros (r & t & fw & (q' & r' & [<- |H] & E) & K); [left|right]; exists r, t, fw; (split; [eexists _, r'; split; [|exact E]; simpl; auto|exact K]).
    - intros [(r & t & fw & (q' & r' & [<- |[]] & E) & K)|(r & t & fw & (q' & r' & H & E) & K)]; exists r, t, fw; (split; [eexists _, r'; split; [|exact E]; simpl; auto|exact K]).
  Qed.
  Lemma must_via_cons q l d s e seen ts path w x : must_via (q :: l) d s e seen ts path w x <-> must_via [q] d s e seen ts path w x \/ must_via l d s e seen ts path w x.
  Proof.
    split.
    - intros (r & t & fw & (q' & r' & [<- |H] & E) & K); [left|right]; exists r, t, fw; (split; [eexists _, r'; split; [|exact E]; simpl; auto|exact K]).
    - intros [(r & t & fw & (q' & r' & [<- |[]] & E) & K)|(r & t & fw & (q' & r' & H & E) & K)]; exists r, t, fw; (split; [eexists _, r'; split; [|exact E]; simpl; auto|exact K]).
  Qed.
  Lemma may_via_nil d s e ts path w x : ~ may_via [] d s e ts path w x.
  Proof. intros (r & t & fw & (q' & r' & [] & E) & K). Qed.
  Lemma must_via_nil d s e seen ts path w x : ~ must_via [] d s e seen ts path w x.
  Proof. intros (r & t & fw & (q' & r' & [] & E) & K). Qed.

  (** ** The loops *)
  Section Step.
    Variable rec : list N -> list (N * N) -> Z -> fdstate -> N -> lstate -> res lstate.
    Variable d : nat.
    Hypothesis Hrec : call_ok rec d.
    Variables (path : list (N * N)) (w : Z) (fs : fdstate) (e : fenv) (s : nat) (seen : list (nat * fenv)).
    Hypothesis HF : fd_rel F e fs.
    Hypothesis HD : dom_ok e.
    Hypothesis Hs : s < length (sts g).

    Lemma weight_arc a en : stands_for dec names addr a en -> weight_of dec T en = wt a.
    Proof. intros (_ & _ & _ & H). unfold weight_of, T. rewrite HW. exact H. Qed.
    Lemma found_post P Q st st' b : post limit P Q st st' -> post limit P Q st (set_found b st').
    Proof. intros [A B C D G H]. constructor; auto. Qed.
    Lemma found_post_l P Q st st' b : post limit P Q (set_found b st) st' -> post limit P Q st st'.
    Proof. intros [A B C D G H]. constructor; auto. Qed.

    Lemma free_post input ts es : forall arcs, Forall2 (stands_for dec names addr) arcs es -> tokens_ok input ts ->
      (forall a, In a arcs -> In a (nth s (sts g) []) /\ free_input (isy a) = true) ->
      forall st st', covers seen (l_travs st) -> free_loop dec al T rec path w fs input es st = Ok st' ->
      post limit (may_via (map (fun a => (a, None)) arcs) (S d) s e ts path w) (must_via (map (fun a => (a, None)) arcs) (S d) s e seen ts path w) st st'.
    Proof.
      induction es as [|en es IH]; intros arcs H Ht Ha st st' C E; inversion H as [|a ? arcs' ? Hst H']; subst.
      - injection E as <-. apply (post_weaken limit (fun _ => False) (fun _ => False)); [apply post_same; auto|tauto|]. intros x Hx. exact (must_via_nil _ _ _ _ _ _ _ _ Hx).
      - destruct (Ha a (or_introl eq_refl)) as (Harc & Hfree). pose proof Hst as (Hi & Ho & Htg & _).
        assert (Ha' : forall b, In b arcs' -> In b (nth s (sts g) []) /\ free_input (isy b) = true) by (intros b Hb; apply Ha; right; exact Hb).
        assert (SP : strings (path ++ [(te_input en, te_output en)]) = strings path ++ [shown (a, None)]).
        { rewrite strings_app. cbn [strings map fst snd shown]. rewrite (shown_name _ _ Hi), (shown_name _ _ Ho). reflexivity. }
        assert (Res : forall r fw, ((w + weight_of dec T en + run_weight r + fw)%Z, strings (path ++ [(te_input en, te_output en)]) ++ map shown r)
                      = ((w + run_weight ((a, None) :: r) + fw)%Z, strings path ++ map shown ((a, None) :: r))).
        { intros r fw. rewrite SP, (weight_arc a en Hst), <- app_assoc. unfold run_weight. cbn [map app fst path_weight]. f_equal. lia. }
        cbn [free_loop] in E. cbv zeta in E. cbn [map].
        assert (W : forall P Q, post limit P Q st st' -> (forall x, P x -> may_via ((a, None) :: map (fun a => (a, None)) arcs') (S d) s e ts path w x) ->
          (forall x, must_via ((a, None) :: map (fun a => (a, None)) arcs') (S d) s e seen ts path w x -> Q x) ->
          post limit (may_via ((a, None) :: map (fun a => (a, None)) arcs') (S d) s e ts path w) (must_via ((a, None) :: map (fun a => (a, None)) arcs') (S d) s e seen ts path w) st st')
          by (intros P Q HP H1 H2; exact (post_weaken limit P Q _ _ st st' HP H1 H2)).
        destruct (N.eqb_spec (te_input en) 0) as [Z|NZ].
        + (* epsilon *)
          assert (Ei : isy a = EPSILON) by (apply (zero_eps _ _ Hi); rewrite Z; reflexivity).
          apply rbind_Ok in E. destruct E as (st1 & E1 & E2). rewrite Htg in E1.
          pose proof (Hrec input ts _ _ fs e (tgt a) seen st st1 Ht HF HD (arc_target s a Harc) C E1) as P1.
          assert (C1 : covers seen (l_travs (set_found true st1))) by (intros p Hp; apply C, (po_travs _ _ _ _ _ P1), Hp).
          pose proof (IH arcs' H' Ht Ha' _ _ C1 E2) as P2.
          apply (W _ _ (post_seq limit _ _ _ _ _ _ _ (found_post _ _ _ _ true P1) P2)).
          * intros x [(r & t & fw & L & Ld & Hfw & ->)|Hx]; apply may_via_cons; [left|right; exact Hx].
            exists ((a, None) :: r), t, fw. split; [eexists _, r; split; [left; reflexivity|reflexivity]|]. split; [apply lr_epsilon; assumption|].
            split; [cbn [length]; lia|]. split; [exact Hfw|apply Res].
          * intros x Hx. apply must_via_cons in Hx. destruct Hx as [(r & t & fw & (q & r' & [<- |[]] & ->) & L & U & Ld & Hfw & ->)|Hx]; [left|right; exact Hx].
            exists r', t, fw. rewrite Res.
            inversion L as [|? ? ? ? ? ? A1 A2 A3|? ? ? y ? ? ? A1 A2 A3 A4| |]; subst.
            -- split; [exact A3|]. split; [|split; [cbn [length] in Ld; lia|auto]].
               inversion U as [| |? ? ? y ? B1|]; subst; [assumption|]. rewrite Ei in B1. apply denotes_code in B1. destruct B1 as (B1 & _). discriminate B1.
            -- exfalso. rewrite Ei in A2. apply denotes_code in A2. destruct A2 as (B1 & _). discriminate B1.
        + (* flag *)
          assert (Di : exists x, denotes (isy a) x).
          { apply is_diacritic_denotes. unfold free_input in Hfree. apply orb_true_iff in Hfree. destruct Hfree as [X|X]; [|exact X].
            apply bstr_eqb_eq in X. exfalso. apply NZ. apply (zero_eps _ _ Hi) in X. lia. }
          destruct Di as (x & Dx). destruct (flag_op _ _ _ Hi Dx) as (op & Eop & Mop).
          assert (NEi : isy a <> EPSILON) by (intros X; rewrite X in Dx; apply denotes_code in Dx; destruct Dx as (B1 & _); discriminate B1).
          change (a_fd al) with F in E. rewrite Eop in E.
          assert (Nx : nonempty_value x) by (apply (Hval (isy a)); [exact (nth_error_In _ _ Hi)|exact Dx]).
          destruct F_ok as (FO & FS & _). destruct (apply_op_step F FO FS e fs op x HF Mop Nx) as (fs' & Eap & HF'). rewrite Eap in E.
          destruct (snd (Flags_Spec.step x e)) eqn:Sx.
          2:{ (* refused *)
              pose proof (IH arcs' H' Ht Ha' _ _ C E) as P2. apply (W _ _ P2).
              - intros y Hy. apply may_via_cons. right. exact Hy.
              - intros y Hy. apply must_via_cons in Hy. destruct Hy as [(r & t & fw & (q & r' & [<- |[]] & ->) & L & _)|Hy]; [exfalso|exact Hy].
                inversion L as [|? ? ? ? ? ? A1 A2 A3|? ? ? y' ? ? ? A1 A2 A3 A4| |]; subst; [contradiction|].
                rewrite (denotes_fun _ _ _ A2 Dx) in A3. congruence. }
          destruct (has_trav (te_target en, fs_values fs) st) eqn:Ht1.
          { (* repeated *)
            pose proof (IH arcs' H' Ht Ha' _ _ C E) as P2. apply (W _ _ P2).
            - intros y Hy. apply may_via_cons. right. exact Hy.
            - intros y Hy. apply must_via_cons in Hy. destruct Hy as [(r & t & fw & (q & r' & [<- |[]] & ->) & L & U & _)|Hy]; [exfalso|exact Hy].
              inversion U as [|? ? ? ? B1 B2|? ? ? y' ? B1 B2 B3|]; subst; [contradiction|].
              unfold has_trav in Ht1. apply existsb_exists in Ht1. destruct Ht1 as (p & Hp & Ep). unfold trav_eqb in Ep. apply andb_true_iff in Ep. destruct Ep as (Ep1 & Ep2).
              apply N.eqb_eq in Ep1. destruct (C p Hp) as (s' & e' & fs1 & I1 & L1 & -> & I2 & I3). cbn [fst snd] in Ep1, Ep2.
              destruct (list_eq_dec Z.eq_dec (fs_values fs) (fs_values fs1)) as [Ev|]; [|discriminate].
              rewrite Htg in Ep1. assert (s' = tgt a) by (symmetry; apply (rep_apart _ _ _ _ R); [exact (arc_target s a Harc)|exact L1|exact Ep1]). subst s'.
              apply (B2 e' I1). apply (same_of_values e' e fs1 fs); auto. }
          (* taken *)
          apply rbind_Ok in E. destruct E as (st1 & E1 & E2). rewrite Htg in E1, E2.
          set (p := (addr (tgt a), fs_values fs)) in *.
          assert (C0 : covers ((tgt a, e) :: seen) (l_travs (add_trav p st))).
          { intros p' [<- |Hp'].
            - exists (tgt a), e, fs. split; [left; reflexivity|]. split; [exact (arc_target s a Harc)|]. auto.
            - destruct (C p' Hp') as (s' & e' & fs1 & I1 & I2). exists s', e', fs1. split; [right; exact I1|exact I2]. }
          pose proof (Hrec input ts _ _ fs' (fst (Flags_Spec.step x e)) (tgt a) ((tgt a, e) :: seen) _ st1 Ht HF' (dom_ok_step op x e Mop HD) (arc_target s a Harc) C0 E1) as P1.
          assert (P1' : post limit (may d (tgt a) (fst (Flags_Spec.step x e)) ts (path ++ [(te_input en, te_output en)]) (w + weight_of dec T en)%Z)
                         (must d (tgt a) (fst (Flags_Spec.step x e)) ((tgt a, e) :: seen) ts (path ++ [(te_input en, te_output en)]) (w + weight_of dec T en)%Z) st (set_found true (del_trav p st1))).
          { destruct P1 as [A B C' D' G' H1]. constructor; auto. intros q Hq. cbn [set_found l_travs del_trav set_travs] in Hq. apply filter_In in Hq. destruct Hq as (Hq & Nq).
            apply H1 in Hq. destruct Hq as [<- |Hq]; [|exact Hq]. exfalso. apply negb_true_iff in Nq. unfold trav_eqb in Nq. rewrite N.eqb_refl in Nq.
            destruct (list_eq_dec Z.eq_dec (snd p) (snd p)); [discriminate|congruence]. }
          assert (C1 : covers seen (l_travs (set_found true (del_trav p st1)))) by (intros q Hq; apply C, (po_travs _ _ _ _ _ P1'), Hq).
          pose proof (IH arcs' H' Ht Ha' _ _ C1 E2) as P2.
          apply (W _ _ (post_seq limit _ _ _ _ _ _ _ P1' P2)).
          * intros y [(r & t & fw & L & Ld & Hfw & ->)|Hy]; apply may_via_cons; [left|right; exact Hy].
            exists ((a, None) :: r), t, fw. split; [eexists _, r; split; [left; reflexivity|reflexivity]|]. split; [apply (lr_flag g s e a x); assumption|].
            split; [cbn [length]; lia|]. split; [exact Hfw|apply Res].
          * intros y Hy. apply must_via_cons in Hy. destruct Hy as [(r & t & fw & (q & r' & [<- |[]] & ->) & L & U & Ld & Hfw & ->)|Hy]; [left|right; exact Hy].
            exists r', t, fw. rewrite Res.
            inversion L as [|? ? ? ? ? ? A1 A2 A3|? ? ? y ? ? ? A1 A2 A3 A4| |]; subst; [contradiction|].
            rewrite (denotes_fun _ _ _ A2 Dx) in A4. split; [exact A4|]. split; [|split; [cbn [length] in Ld; lia|auto]].
            inversion U as [|? ? ? ? B1 B2|? ? ? y' ? B1 B2 B3|]; subst; [contradiction|]. rewrite (denotes_fun _ _ _ B1 Dx) in B3. exact B3.
    Qed.

    (** Arcs that read the token [x]. *)
    Definition reads_token (a : arc) (x : bstr) : Prop :=
      isy a = x /\ input_symbol g x \/ (isy a = UNKNOWN \/ isy a = IDENTITY) /\ ~ input_symbol g x.
    Lemma run_read a x r ts t : In a (nth s (sts g) []) -> reads_token a x -> lookup_run g (tgt a) e r ts t -> lookup_run g s e ((a, Some x) :: r) (x :: ts) t.
    Proof. intros H [(E & K)|(E & K)] L; [apply lr_known|apply lr_unknown]; assumption. Qed.

    Lemma consume_post k x rest ts es : forall arcs, Forall2 (stands_for dec names addr) arcs es -> tokens_ok rest ts -> token tr g al k x -> x <> EPSILON ->
      (forall a, In a arcs -> In a (nth s (sts g) []) /\ free_input (isy a) = false /\ reads_token a x) ->
      forall st st', consume_loop dec al T rec path w fs k rest es st = Ok st' ->
      post limit (may_via (map (fun a => (a, Some x)) arcs) (S d) s e (x :: ts) path w) (must_via (map (fun a => (a, Some x)) arcs) (S d) s e seen (x :: ts) path w) st st'.
    Proof.
      induction es as [|en es IH]; intros arcs H Ht Hk Hx Ha st st' E; inversion H as [|a ? arcs' ? Hst H']; subst.
      - injection E as <-. apply (post_weaken limit (fun _ => False) (fun _ => False)); [apply post_same; auto|tauto|]. intros y Hy. exact (must_via_nil _ _ _ _ _ _ _ _ Hy).
      - destruct (Ha a (or_introl eq_refl)) as (Harc & Hfree & Hread). pose proof Hst as (Hi & Ho & Htg & _).
        assert (Ha' : forall b, In b arcs' -> In b (nth s (sts g) []) /\ free_input (isy b) = false /\ reads_token b x) by (intros b Hb; apply Ha; right; exact Hb).
        cbn [consume_loop] in E. cbv zeta in E. rewrite (meta_spec _ _ Ho) in E.
        set (out := if bstr_eqb (osy a) UNKNOWN || bstr_eqb (osy a) IDENTITY then k else te_output en) in *.
        assert (SP : strings (path ++ [(te_input en, out)]) = strings path ++ [shown (a, Some x)]).
        { rewrite strings_app. cbn [strings map fst snd shown]. rewrite (shown_name _ _ Hi). f_equal. f_equal. f_equal.
          - unfold show. destruct (bstr_eqb_spec (isy a) EPSILON) as [X|X]; [|reflexivity]. rewrite X in Hfree. discriminate.
          - unfold out. destruct (_ || _); [|apply shown_name, Ho]. destruct Hk as (Ek & Hk). unfold string_from_symbol. destruct (N.eqb_spec k 0) as [-> |_].
            + exfalso. apply Hx. pose proof (rep_epsilon _ _ _ _ R) as Z. fold names in Z. apply name_at in Z. change (N.to_nat 0) with 0 in Ek. rewrite Z in Ek. injection Ek as <-. reflexivity.
            + apply nth_error_nth, Ek. }
        assert (Res : forall r fw, ((w + weight_of dec T en + run_weight r + fw)%Z, strings (path ++ [(te_input en, out)]) ++ map shown r)
                      = ((w + run_weight ((a, Some x) :: r) + fw)%Z, strings path ++ map shown ((a, Some x) :: r))).
        { intros r fw. rewrite SP, (weight_arc a en Hst), <- app_assoc. unfold run_weight. cbn [map app fst path_weight]. f_equal. lia. }
        apply rbind_Ok in E. destruct E as (st1 & E1 & E2). rewrite Htg in E1.
        assert (C0 : covers [] (l_travs (set_travs [] st))) by (intros p []).
        pose proof (Hrec rest ts _ _ fs e (tgt a) [] _ st1 Ht HF HD (arc_target s a Harc) C0 E1) as P1.
        assert (P1' : post limit (may d (tgt a) e ts (path ++ [(te_input en, out)]) (w + weight_of dec T en)%Z)
                       (must d (tgt a) e [] ts (path ++ [(te_input en, out)]) (w + weight_of dec T en)%Z) st (set_found true st1)).
        { destruct P1 as [A B C' D' G' H1]. constructor; auto. intros q Hq. destruct (H1 q Hq). }
        pose proof (IH arcs' H' Ht Hk Hx Ha' _ _ E2) as P2. cbn [map].
        apply (post_weaken limit _ _ _ _ _ _ (post_seq limit _ _ _ _ _ _ _ P1' P2)).
        + intros y [(r & t & fw & L & Ld & Hfw & ->)|Hy]; apply may_via_cons; [left|right; exact Hy].
          exists ((a, Some x) :: r), t, fw. split; [eexists _, r; split; [left; reflexivity|reflexivity]|]. split; [apply run_read; assumption|].
          split; [cbn [length]; lia|]. split; [exact Hfw|apply Res].
        + intros y Hy. apply must_via_cons in Hy. destruct Hy as [(r & t & fw & (q & r' & [<- |[]] & ->) & L & U & Ld & Hfw & ->)|Hy]; [left|right; exact Hy].
          exists r', t, fw. rewrite Res.
          assert (L' : lookup_run g (tgt a) e r' ts t) by (inversion L; subst; assumption).
          split; [exact L'|]. split; [inversion U; subst; assumption|]. split; [cbn [length] in Ld; lia|auto].
    Qed.

    (** Looking for one symbol. *)
    Lemma symbol_arcs k nm hit es : nth_error names k = Some nm -> free_input nm = false -> symbol_entries T (addr s) (N.of_nat k) = Ok (hit, es) ->
      Forall2 (stands_for dec names addr) (filter (fun a => bstr_eqb (isy a) nm) (nth s (sts g) [])) es.
    Proof.
      intros E Fr H. destruct (N.ltb_spec (N.of_nat k) (h_input_symbols (tr_header tr))) as [L|L].
      - destruct (rep_symbol _ _ _ _ R s nm k Hs E L) as (h' & es' & E' & K & _).
        + intros Z. apply (zero_eps _ _ E) in Z. rewrite Z in Fr. discriminate.
        + unfold T in H. rewrite E' in H. injection H as _ <-. exact K.
      - destruct (rep_other _ _ _ _ R s nm k Hs E L Fr) as [E'|E']; unfold T in H; rewrite E' in H; [|discriminate]. injection H as _ <-.
        destruct (filter _ _) as [|a l] eqn:Ef; [constructor|exfalso].
        assert (Ha : In a (filter (fun a => bstr_eqb (isy a) nm) (nth s (sts g) []))) by (rewrite Ef; left; reflexivity).
        apply filter_In in Ha. destruct Ha as (Ha & Hn). apply bstr_eqb_eq in Hn.
        destruct (proj2 (rep_inputs _ _ _ _ R nm)) as (j & Ej & Lj & _); [exists s, a; auto|].
        fold names in Ej. rewrite (number_unique _ _ _ Ej E) in Lj. lia.
    Qed.
    Lemma attempt_post k x rest ts j nm st st' : tokens_ok rest ts -> token tr g al k x -> x <> EPSILON ->
      nth_error names j = Some nm -> free_input nm = false ->
      (nm = x /\ input_symbol g x \/ (nm = UNKNOWN \/ nm = IDENTITY) /\ ~ input_symbol g x) ->
      attempt dec al T rec path w fs k rest (addr s) (N.of_nat j) st = Ok st' ->
      let l := map (fun a => (a, Some x)) (filter (fun a => bstr_eqb (isy a) nm) (nth s (sts g) [])) in
      post limit (may_via l (S d) s e (x :: ts) path w) (must_via l (S d) s e seen (x :: ts) path w) st st'.
    Proof.
      intros Ht Hk Hx En Fr Hr E. unfold attempt in E. apply rbind_Ok in E. destruct E as ((hit, es) & E1 & E). apply rbind_Ok in E. destruct E as (st1 & E2 & E).
      injection E as <-. cbv zeta.
      assert (P : post limit (may_via (map (fun a => (a, Some x)) (filter (fun a => bstr_eqb (isy a) nm) (nth s (sts g) []))) (S d) s e (x :: ts) path w)
        (must_via (map (fun a => (a, Some x)) (filter (fun a => bstr_eqb (isy a) nm) (nth s (sts g) []))) (S d) s e seen (x :: ts) path w) st st1).
      { apply (consume_post k x rest ts es _ (symbol_arcs j nm hit es En Fr E1) Ht Hk Hx); [|exact E2].
        intros a Ha. apply filter_In in Ha. destruct Ha as (Ha & Hn). apply bstr_eqb_eq in Hn. rewrite Hn. split; [exact Ha|]. split; [exact Fr|].
        unfold reads_token. rewrite Hn. exact Hr. }
      destruct hit; [apply found_post|]; exact P.
    Qed.
  End Step.

  Lemma run_free_first s e r ts t q r' : lookup_run g s e r ts t -> r = q :: r' -> snd q = None ->
    exists a, q = (a, None) /\ In a (nth s (sts g) []) /\ free_input (isy a) = true.
  Proof.
    intros L -> Hq. inversion L as [|? ? ? ? ? ? A1 A2 A3|? ? ? y ? ? ? A1 A2 A3 A4| |]; subst; try discriminate Hq.
    - eexists. split; [reflexivity|]. split; [exact A1|]. rewrite A2. reflexivity.
    - eexists. split; [reflexivity|]. split; [exact A1|]. unfold free_input. rewrite (proj2 (is_diacritic_denotes (isy a)) (ex_intro _ y A2)). apply orb_true_r.
  Qed.

  Theorem search_ok d : call_ok (get_analyses dec al T limit d) d.
  Proof.
    induction d as [|d IH]; intros input ts path w fs e s seen st st' Ht HF HD Hs C E.
    - injection E as <-. apply (post_weaken limit (fun _ => False) (fun _ => False)); [apply post_same; auto|tauto|].
      intros x (r & t & fw & _ & _ & L & _). lia.
    - rewrite get_analyses_S in E. cbv zeta in E. apply (found_post_l _ _ _ _ false).
      set (st0 := set_found false st) in *. assert (C0 : covers seen (l_travs st0)) by exact C.
      destruct (enough_results limit st0) eqn:En.
      { injection E as <-. constructor; auto. intros K. rewrite K in En. discriminate. }
      apply rbind_Ok in E. destruct E as (st1 & E1 & E). apply rbind_Ok in E. destruct E as ((hit, es) & E2 & E). apply rbind_Ok in E. destruct E as (st2 & E3 & E).
      (* final states *)
      assert (P1 : post limit (may_via [] (S d) s e ts path w) (fun x => ts = [] /\ exists fw, mget Nat.compare s (fin g) = Some fw /\ x = ((w + fw)%Z, strings path)) st0 st1
                   \/ ts = [] /\ exists fw, mget Nat.compare s (fin g) = Some fw /\ post limit (fun x => x = ((w + fw)%Z, strings path)) (fun x => x = ((w + fw)%Z, strings path)) st0 st1).
      { destruct input as [|k rest]; inversion Ht as [|? x ? ts' _ _]; subst.
        - unfold T in E1. rewrite (rep_final _ _ _ _ R s Hs) in E1. cbn [rmap rbind] in E1. injection E1 as <-.
          destruct (mget Nat.compare s (fin g)) as [fw|] eqn:Ef.
          + right. split; [reflexivity|]. exists fw. split; [reflexivity|].
            unfold note_analysis. fold (strings path). pose proof (length_sadd tlpcmp ((w + fw)%Z, strings path) (l_results st0)) as L.
            constructor; cbn [l_results l_travs].
            * intros x Hx. apply (In_sadd tlpcmp tlpcmp_eq). auto.
            * lia.
            * intros x Hx. apply (In_sadd tlpcmp tlpcmp_eq) in Hx. destruct Hx; auto.
            * intros _ x ->. apply (In_sadd tlpcmp tlpcmp_eq). auto.
            * intros m Em Lm. unfold enough_results in En. rewrite Em in En. apply Nat.leb_gt in En. lia.
            * auto.
          + left. apply (post_weaken limit (fun _ => False) (fun _ => False)); [apply post_same; auto|tauto|].
            intros x (_ & fw & K & _). congruence.
        - injection E1 as <-. left. apply (post_weaken limit (fun _ => False) (fun _ => False)); [apply post_same; auto|tauto|].
          intros y (K & _). discriminate. }
      assert (P1' : post limit (fun x => ts = [] /\ exists fw, mget Nat.compare s (fin g) = Some fw /\ x = ((w + fw)%Z, strings path))
                      (fun x => ts = [] /\ exists fw, mget Nat.compare s (fin g) = Some fw /\ x = ((w + fw)%Z, strings path)) st0 st1).
      { destruct P1 as [P|(Z & fw & Hfw & P)].
        - apply (post_weaken limit _ _ _ _ _ _ P); [|auto]. intros x Hx. destruct (may_via_nil _ _ _ _ _ _ _ Hx).
        - apply (post_weaken limit _ _ _ _ _ _ P); [intros x ->; eauto|]. intros x (_ & fw' & K & ->). congruence. }
      clear P1.
      (* free transitions *)
      destruct (rep_free _ _ _ _ R s Hs) as (hit' & es' & l & E2' & PL & FL & _).
      assert (hit' = hit /\ es' = es) as (-> & ->).
      { assert (X : free_entries al T (addr s) = free_entries (tr_alphabet tr) (tr_tables tr) (addr s)) by reflexivity. rewrite X, E2' in E2. injection E2 as -> ->. auto. }
      assert (C1 : covers seen (l_travs st1)) by (intros p Hp; apply C0, (po_travs _ _ _ _ _ P1'), Hp).
      assert (Hl : forall a, In a l -> In a (nth s (sts g) []) /\ free_input (isy a) = true) by (intros a Ha; apply (Permutation_in a PL) in Ha; apply filter_In in Ha; exact Ha).
      pose proof (free_post (get_analyses dec al T limit d) d IH path w fs e s seen HF HD Hs input ts es l FL Ht Hl st1 st2 C1 E3) as P2.
      pose proof (post_seq limit _ _ _ _ _ _ _ P1' P2) as P12.
      set (st3 := if hit then set_found true st2 else st2) in *.
      assert (P13 : post limit (fun x => (ts = [] /\ exists fw, mget Nat.compare s (fin g) = Some fw /\ x = ((w + fw)%Z, strings path)) \/ may_via (map (fun a => (a, None)) l) (S d) s e ts path w x)
                 (fun x => (ts = [] /\ exists fw, mget Nat.compare s (fin g) = Some fw /\ x = ((w + fw)%Z, strings path)) \/ must_via (map (fun a => (a, None)) l) (S d) s e seen ts path w x) st0 st3)
        by (unfold st3; destruct hit; [apply found_post|]; exact P12).
      (* every run is empty, begins with a free transition, or reads a token *)
      assert (May : forall x, (ts = [] /\ exists fw, mget Nat.compare s (fin g) = Some fw /\ x = ((w + fw)%Z, strings path)) \/ may_via (map (fun a => (a, None)) l) (S d) s e ts path w x -> may (S d) s e ts path w x).
      { intros x [(-> & fw & Hfw & ->)|(r & t & fw & _ & K)].
        - exists [], s, fw. split; [constructor|]. split; [cbn; lia|]. split; [exact Hfw|]. unfold run_weight. cbn [map path_weight]. rewrite app_nil_r, Z.add_0_r. reflexivity.
        - exists r, t, fw. exact K. }
      destruct input as [|k rest]; inversion Ht as [|? x ? ts' (Hk & Hx) Ht' EE]; subst.
      { injection E as <-. apply (post_weaken limit _ _ _ _ _ _ P13); [exact May|]. intros y (r & t & fw & L & U & Ld & Hfw & ->). destruct r as [|q r'].
        - left. split; [reflexivity|]. inversion L; subst. exists fw. split; [exact Hfw|]. unfold run_weight. cbn [map path_weight]. rewrite app_nil_r, Z.add_0_r. reflexivity.
        - right. exists (q :: r'), t, fw. split; [|auto]. exists q, r'. split; [|reflexivity].
          assert (Q : snd q = None) by (inversion L; subst; reflexivity). destruct (run_free_first s e _ _ _ q r' L eq_refl Q) as (a & -> & Ha).
          apply in_map_iff. exists a. split; [reflexivity|]. apply (Permutation_in a (Permutation_sym PL)), filter_In, Ha. }
      destruct al_facts as (OC & _ & UK & ID & DF). rewrite DF in E. change (negb (OLF_Model.NO_SYMBOL =? OLF_Model.NO_SYMBOL)%N) with false in E. cbn [andb] in E.
      apply rbind_Ok in E. destruct E as (st4 & E4 & E5). injection E5 as <-.
      (* reading *)
      assert (P4 : exists ps, (forall q, In q ps -> exists a, q = (a, Some x)) /\
         (forall a, In a (nth s (sts g) []) -> reads_token a x -> free_input (isy a) = false -> In (a, Some x) ps) /\
         post limit (may_via ps (S d) s e (x :: ts') path w) (must_via ps (S d) s e seen (x :: ts') path w) st3 st4).
      { rewrite OC in E4. pose proof Hk as (Ek & Hkk). destruct Hkk as [(Sx & Lk)|(Sx & Lk)].
        - assert (Ix : input_symbol g x) by (destruct Sx as [X|X]; [exact X|contradiction]).
          rewrite (proj2 (N.ltb_lt _ _)) in E4 by (fold names inputs in Lk; lia).
          assert (En' : nth_error names (N.to_nat k) = Some x).
          { unfold al in Ek. cbn [set_table a_table] in Ek. rewrite nth_error_app1 in Ek by (fold names inputs in Lk; lia). exact Ek. }
          assert (Fr : free_input x = false) by (destruct Ix as (? & ? & _ & _ & X); exact X).
          exists (map (fun a => (a, Some x)) (filter (fun a => bstr_eqb (isy a) x) (nth s (sts g) []))). split; [|split].
          + intros q Hq. apply in_map_iff in Hq. destruct Hq as (a & <- & _). eauto.
          + intros a Ha [(Ea & _)|(_ & C')] _; [|contradiction]. apply in_map_iff. exists a. split; [reflexivity|]. apply filter_In. split; [exact Ha|]. apply bstr_eqb_eq. exact Ea.
          + rewrite <- (N2Nat.id k) in E4 at 2.
            exact (attempt_post _ d IH path w fs e s seen HF HD Hs k x rest ts' (N.to_nat k) x st3 st4 Ht' Hk Hx En' Fr (or_introl (conj eq_refl Ix)) E4).
        - rewrite (proj2 (N.ltb_ge _ _)) in E4 by (fold names in Lk; lia).
          assert (NIx : ~ input_symbol g x) by (intros X; apply Sx; left; exact X).
          apply rbind_Ok in E4. destruct E4 as (st5 & E5 & E6).
          assert (One : forall nm sta stb v, (nm = UNKNOWN \/ nm = IDENTITY) -> v = match position nm names with Some k => N.of_nat k | None => OLF_Model.NO_SYMBOL end ->
            (if (v =? OLF_Model.NO_SYMBOL)%N then Ok sta else attempt dec al T (get_analyses dec al T limit d) path w fs k rest (addr s) v sta) = Ok stb ->
            post limit (may_via (map (fun a => (a, Some x)) (filter (fun a => bstr_eqb (isy a) nm) (nth s (sts g) []))) (S d) s e (x :: ts') path w)
              (must_via (map (fun a => (a, Some x)) (filter (fun a => bstr_eqb (isy a) nm) (nth s (sts g) []))) (S d) s e seen (x :: ts') path w) sta stb).
          { intros nm sta stb v Hnm -> Es. assert (Fr : free_input nm = false) by (destruct Hnm as [-> | ->]; reflexivity).
            destruct (position nm names) as [j|] eqn:Ej.
            - apply position_nth in Ej. assert (Lj : j < length names) by (apply nth_error_Some; congruence).
              rewrite (proj2 (N.eqb_neq _ _)) in Es by (unfold OLF_Model.NO_SYMBOL; lia).
              exact (attempt_post _ d IH path w fs e s seen HF HD Hs k x rest ts' j nm sta stb Ht' Hk Hx Ej Fr (or_intror (conj Hnm NIx)) Es).
            - change (OLF_Model.NO_SYMBOL =? OLF_Model.NO_SYMBOL)%N with true in Es. injection Es as <-.
              destruct (filter (fun a => bstr_eqb (isy a) nm) (nth s (sts g) [])) as [|a l0] eqn:Efl.
              + apply (post_weaken limit (fun _ => False) (fun _ => False)); [apply post_same; auto|tauto|]. intros y Hy. exact (must_via_nil _ _ _ _ _ _ _ _ Hy).
              + exfalso. assert (Ha : In a (filter (fun a => bstr_eqb (isy a) nm) (nth s (sts g) []))) by (rewrite Efl; left; reflexivity).
                apply filter_In in Ha. destruct Ha as (Ha & Hn). apply bstr_eqb_eq in Hn.
                destruct (proj2 (rep_inputs _ _ _ _ R nm)) as (j & Ejj & _); [exists s, a; auto|]. apply nth_error_In in Ejj. destruct (position_In _ _ Ejj) as (j' & K). fold names in K. congruence. }
          pose proof (One IDENTITY st3 st5 (a_identity al) (or_intror eq_refl) ID E5) as Pi.
          pose proof (One UNKNOWN st5 st4 (a_unknown al) (or_introl eq_refl) UK E6) as Pu.
          exists (map (fun a => (a, Some x)) (filter (fun a => bstr_eqb (isy a) IDENTITY) (nth s (sts g) [])) ++ map (fun a => (a, Some x)) (filter (fun a => bstr_eqb (isy a) UNKNOWN) (nth s (sts g) []))).
          split; [|split].
          + intros q Hq. apply in_app_or in Hq. destruct Hq as [Hq|Hq]; apply in_map_iff in Hq; destruct Hq as (a & <- & _); eauto.
          + intros a Ha [(_ & C')|(Ea & _)] _; [contradiction|]. apply in_or_app. destruct Ea as [Ea|Ea]; [right|left]; apply in_map_iff; exists a; (split; [reflexivity|]); apply filter_In; (split; [exact Ha|]); apply bstr_eqb_eq; exact Ea.
          + apply (post_weaken limit _ _ _ _ _ _ (post_seq limit _ _ _ _ _ _ _ Pi Pu)).
            * intros y [(r & t & fw & (q & r' & Hq & Er) & K)|(r & t & fw & (q & r' & Hq & Er) & K)]; exists r, t, fw; (split; [exists q, r'; split; [apply in_or_app; auto|exact Er]|exact K]).
            * intros y (r & t & fw & (q & r' & Hq & Er) & K). apply in_app_or in Hq. destruct Hq as [Hq|Hq]; [left|right]; exists r, t, fw; (split; [exists q, r'; auto|exact K]). }
      destruct P4 as (ps & Hps & Hall & P4).
      apply (post_weaken limit _ _ _ _ _ _ (post_seq limit _ _ _ _ _ _ _ P13 P4)).
      + intros y [Hy|(r & t & fw & _ & K)]; [apply May, Hy|]. exists r, t, fw. exact K.
      + intros y (r & t & fw & L & U & Ld & Hfw & ->). destruct r as [|q r']; [inversion L|].
        destruct (snd q) as [x'|] eqn:Q.
        * right. exists (q :: r'), t, fw. split; [|auto]. exists q, r'. split; [|reflexivity].
          inversion L as [| | |? ? a ? ? ? ? A1 A2 A3 A4|? ? a ? ? ? ? A1 A2 A3 A4]; subst; try discriminate Q.
          -- apply Hall; [exact A1|left; auto|]. destruct A3 as (? & ? & _ & _ & X). exact X.
          -- apply Hall; [exact A1|right; auto|]. destruct A2 as [-> | ->]; reflexivity.
        * left. right. exists (q :: r'), t, fw. split; [|auto]. exists q, r'. split; [|reflexivity].
          destruct (run_free_first s e _ _ _ q r' L eq_refl Q) as (a & -> & Ha).
          apply in_map_iff. exists a. split; [reflexivity|]. apply (Permutation_in a (Permutation_sym PL)), filter_In, Ha.
  Qed.
End Search.
