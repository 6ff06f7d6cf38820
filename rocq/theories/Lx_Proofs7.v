(** Proofs for lexc, part 7: removal of the codes and insertion of regular expressions. *)
From Verif Require Import Base OrdMap BT_Model BT_Spec Tok_Model Tok_Spec Tok_Proofs Str_Model Str_Spec Str_Proofs2 Lx_Model Lx_Spec Lx_Proofs Lx_Proofs2 Lx_Proofs3 Lx_Proofs4 Lx_Proofs5 Lx_Proofs6.

Lemma inserted_app m a : forall b l w, inserted m (a ++ b) l w <->
  exists l1 w1 l2 w2, inserted m a l1 w1 /\ inserted m b l2 w2 /\ l = l1 ++ l2 /\ w = (w1 + w2)%Z.
Proof.
  induction a as [|p a IH]; intros b l w.
  - split.
    + intros H. exists [], 0%Z, l, w. split; [constructor|]. auto.
    + intros (l1 & w1 & l2 & w2 & H1 & H2 & -> & ->). inversion H1; subst. exact H2.
  - split.
    + intros H. inversion H as [|p' l' l2 w' H1 H2 H3|k L r v l' l2 w' H1 H2 H3]; subst.
      * apply IH in H3. destruct H3 as (x1 & w1 & x2 & w2 & A & B & -> & ->). exists (p :: x1), w1, x2, w2. split; [apply in_keep; auto|auto].
      * apply IH in H3. destruct H3 as (x1 & w1 & x2 & w2 & A & B & -> & ->). exists (r ++ x1), (v + w1)%Z, x2, w2.
        split; [eapply in_key; eauto|]. split; [exact B|]. split; [apply app_assoc|lia].
    + intros (l1 & w1 & l2 & w2 & H1 & H2 & -> & ->). inversion H1 as [|p' l' x w' A1 A2 A3|k L r v l' x w' A1 A2 A3]; subst.
      * cbn [app]. apply in_keep; auto. apply IH. eauto 8.
      * rewrite <- app_assoc. replace (v + w' + w2)%Z with (v + (w' + w2))%Z by lia. cbn [app]. eapply in_key; eauto. apply IH. eauto 8.
Qed.
Lemma inserted_keep m a : Forall (fun p => mget bcmp (fst p) m = None /\ mget bcmp (snd p) m = None) a -> forall l w, inserted m a l w <-> l = a /\ w = 0%Z.
Proof.
  induction 1 as [|p a [H1 H2] Ha IH]; intros l w.
  - split; [inversion 1; auto|intros [-> ->]; constructor].
  - split.
    + intros H. inversion H as [|p' l' x w' A1 A2 A3|k L r v l' x w' A1 A2 A3]; subst; [apply IH in A3; destruct A3 as [-> ->]; auto|].
      cbn [fst] in H1. congruence.
    + intros [-> ->]. apply in_keep; auto. apply IH. auto.
Qed.
Lemma inserted_key m k L : mget bcmp k m = Some L -> forall l w, inserted m [(k, k)] l w <-> L l w.
Proof.
  intros E l w. split.
  - intros H. inversion H as [|p' l' x w' A1 A2 A3|k' L' r v l' x w' A1 A2 A3]; subst; [cbn [fst] in A1; congruence|].
    inversion A3; subst. rewrite app_nil_r, Z.add_0_r. congruence.
  - intros H. replace l with (l ++ []) by apply app_nil_r. replace w with (w + 0)%Z by lia. eapply in_key; eauto. constructor.
Qed.

Lemma mget_key_in {V} (m : list (bstr * V)) k : (exists v, In (k, v) m) -> exists v, mget bcmp k m = Some v.
Proof.
  induction m as [|[k' v'] m IH]; intros [v H]; [destruct H|]. cbn [mget]. destruct (bcmp k k') eqn:E; [eauto| |];
    (destruct H as [H|H]; [injection H as -> ->; rewrite (proj2 (bcmp_eq k k) eq_refl) in E; discriminate|apply IH; eauto]).
Qed.
Lemma mget_in {V} (m : list (bstr * V)) k v : mget bcmp k m = Some v -> In (k, v) m.
Proof.
  induction m as [|[k' v'] m IH]; cbn [mget]; [discriminate|]. destruct (bcmp k k') eqn:E; [|right; auto|right; auto].
  intros H. injection H as ->. apply bcmp_eq in E. subst. left. reflexivity.
Qed.
Lemma mget_none {V} (m : list (bstr * V)) k : ~ In k (map fst m) -> mget bcmp k m = None.
Proof.
  intros H. destruct (mget bcmp k m) eqn:E; [|reflexivity]. exfalso. apply H. apply in_map_iff. exists (k, v). split; [reflexivity|]. apply mget_in. exact E.
Qed.
Lemma mget_map_key {V} (f : bstr -> bstr) (m : list (bstr * V)) k : (forall k', In k' (map fst m) -> f k' = f k -> k' = k) ->
  mget bcmp (f k) (map (fun p => (f (fst p), snd p)) m) = mget bcmp k m.
Proof.
  induction m as [|[k' v] m IH]; intros H; [reflexivity|]. cbn [map mget fst snd].
  assert (E : bcmp (f k) (f k') = Eq <-> bcmp k k' = Eq).
  { split; intros E; apply bcmp_eq in E; apply bcmp_eq; [symmetry; apply H; [left; reflexivity|congruence]|congruence]. }
  rewrite IH by (intros k2 K; apply H; right; exact K).
  destruct (bcmp (f k) (f k')) eqn:E1, (bcmp k k') eqn:E2; try reflexivity; exfalso; destruct E as [Ea Eb];
    first [discriminate (Ea eq_refl) | discriminate (Eb eq_refl)].
Qed.
Lemma subst_none m s : ~ In s (map fst m) -> substitute m s = s.
Proof. intros H. unfold substitute. rewrite (mget_none m s H). reflexivity. Qed.

(** * Dollars *)
Lemma dollars_plain s : ~ In dollar s -> dollars s = s.
Proof.
  intros H. unfold dollars. rewrite <- (map_id s) at 2. apply map_ext_in. intros a Ha. destruct (Ascii.eqb a "$") eqn:E; [|reflexivity].
  apply Ascii.eqb_eq in E. subst. contradiction.
Qed.
Lemma dollars_app a b : dollars (a ++ b) = dollars a ++ dollars b.
Proof. apply map_app. Qed.
Lemma dollars_key n k : name n -> name k -> dollars (regex_key n k) = B "@_REG." ++ (n ++ B "_" ++ k) ++ B "_@".
Proof.
  intros [[_ D] _] [[_ D'] _]. unfold regex_key, regExpresionEncode. rewrite !dollars_app, (dollars_plain n), (dollars_plain k) by assumption. reflexivity.
Qed.
Lemma key_inj n k n' k' : name n -> name k -> name n' -> name k' -> dollars (regex_key n k) = dollars (regex_key n' k') -> regex_key n k = regex_key n' k'.
Proof.
  intros H1 H2 H3 H4 E. rewrite !dollars_key in E by assumption. apply app_inv_head in E. apply app_inv_tail in E.
  unfold regex_key. rewrite E. reflexivity.
Qed.
Lemma real_plain s : ~ In dollar s -> real_flag s = s.
Proof.
  intros H. unfold real_flag. destruct s as [|a s]; [reflexivity|]. cbn [quoted]. destruct (Ascii.eqb a "$") eqn:E; [|reflexivity].
  apply Ascii.eqb_eq in E. subst. exfalso. apply H. left. reflexivity.
Qed.
Lemma real_coded s : coded s -> 2 < length s -> real_flag s = dollars s.
Proof. intros H L. unfold real_flag. rewrite (coded_quoted s H). apply Nat.ltb_lt in L. rewrite L. reflexivity. Qed.

(** The code of a name in the end: nothing, or a flag. *)
Definition n_end (fl : bool) (n : bstr) : bstr := if fl then B "@R.LEXNAME." ++ n ++ B "@" else EPS.
Definition c_end (fl : bool) (n : bstr) : bstr := if fl then B "@P.LEXNAME." ++ n ++ B "@" else EPS.

Section Ending.
  Variable gr : bstr -> nat.
  Variable u8 : bstr -> bool.
  Hypothesis Hgr : forall x, x <> [] -> utf8 x -> exists c r, x = c ++ r /\ length c = gr x /\ utf8 c /\ c <> [].
  Variable fl sp : bool.
  Variable c : lexc.
  Variable G : list entry.
  Hypothesis I : inv fl sp c G.
  Hypothesis HU : Forall usable_entry G.
  Hypothesis HA : regexps_apart G.
  Hypothesis Hinit : exists e, In e G /\ e_lexicon e = initialName c.
  Notation A := (accepts (stringsTrie c)).
  Notation init := (initialName c).

  Definition codes : list (bstr * bstr) := map (fun n => (joinerEncode n, EPS)) (init :: HASH :: lexiconNames c).
  Definition keys : list (bstr * bstr) := map (fun p => (fst p, dollars (fst p))) (regexps c).
  Definition ending (s : bstr) : bstr := substitute keys (if fl then real_flag s else substitute codes s).
  Definition ending2 (p : bstr * bstr) : bstr * bstr := (ending (fst p), ending (snd p)).
  Definition inserts : list (bstr * wlang) := map (fun p => (dollars (fst p), snd p)) (regexps c).

  Lemma regexps_keys k : In k (map fst (regexps c)) -> exists e r, In e G /\ e_body e = Regexp r /\ e_key e = k.
  Proof.
    intros H. apply in_map_iff in H. destruct H as ([k' L] & <- & H). destruct (mget_key_in (regexps c) k' (ex_intro _ L H)) as [L' E].
    pose proof (i_reg _ _ _ _ I k') as C. rewrite E in C. apply C.
  Qed.
  Lemma keys_dollar k : In k (map fst keys) -> exists r, k = B "$_REG." ++ r.
  Proof.
    unfold keys. rewrite map_map. cbn [fst]. intros H. apply regexps_keys in H. destruct H as (e & r & _ & _ & <-).
    eexists. reflexivity.
  Qed.
  Lemma inserts_at k : In k (map fst inserts) -> exists r, k = B "@_REG." ++ r.
  Proof.
    unfold inserts. rewrite map_map. cbn [fst]. intros H. apply in_map_iff in H. destruct H as (p & <- & H).
    destruct (regexps_keys (fst p) (in_map fst _ _ H)) as (e & r & He & _ & <-). destruct (i_G _ _ _ _ I e He).
    unfold e_key. rewrite dollars_key by assumption. eexists. reflexivity.
  Qed.
  Lemma ending_plain s : ~ In dollar s -> ending s = s.
  Proof.
    intros H. unfold ending. assert (E : (if fl then real_flag s else substitute codes s) = s).
    { destruct fl; [apply real_plain; exact H|]. apply subst_none. intros K. unfold codes in K. rewrite map_map in K. apply in_map_iff in K.
      destruct K as (n & <- & _). apply H. left. reflexivity. }
    rewrite E. apply subst_none. intros K. apply keys_dollar in K. destruct K as [r ->]. apply H. left. reflexivity.
  Qed.
  Lemma ending_key e r : In e G -> e_body e = Regexp r -> ending (e_key e) = dollars (e_key e).
  Proof.
    intros He Eb. pose proof (i_G _ _ _ _ I e He) as K. pose proof (key_code _ _ _ K) as Kc. destruct K.
    assert (R : In (e_key e) (map fst (regexps c))).
    { pose proof (i_reg _ _ _ _ I (e_key e)) as C. destruct (mget bcmp (e_key e) (regexps c)) as [L|] eqn:E.
      - apply in_map_iff. exists (e_key e, L). split; [reflexivity|]. apply mget_in. exact E.
      - destruct (C e r He Eb eq_refl). }
    pose proof keys_dollar as KD. unfold ending. destruct fl.
    - rewrite real_coded; [|exact Kc|unfold e_key, regex_key, regExpresionEncode; rewrite !app_length; cbn; lia].
      apply subst_none. intros K. apply KD in K. destruct K as [q K]. unfold e_key in K. rewrite dollars_key in K by assumption. discriminate.
    - rewrite (subst_none codes).
      + unfold substitute, keys. apply in_map_iff in R. destruct R as ([k L] & E & R). cbn [fst] in E. subst k.
        assert (M : forall m : list (bstr * wlang), In (e_key e, L) m -> mget bcmp (e_key e) (map (fun p => (fst p, dollars (fst p))) m) = Some (dollars (e_key e))).
        { clear. induction m as [|[k v] m IH]; intros H; [destruct H|]. cbn [map mget fst]. destruct (bcmp (e_key e) k) eqn:E.
          - apply bcmp_eq in E. rewrite E. reflexivity.
          - destruct H as [H|H]; [injection H as -> _; rewrite (proj2 (bcmp_eq _ _) eq_refl) in E; discriminate|auto].
          - destruct H as [H|H]; [injection H as -> _; rewrite (proj2 (bcmp_eq _ _) eq_refl) in E; discriminate|auto]. }
        rewrite (M _ R). reflexivity.
      + unfold codes. rewrite map_map. cbn [fst]. intros K. apply in_map_iff in K. destruct K as (n & K & _). discriminate K.
  Qed.
  Lemma codes_hit n : In n (init :: HASH :: lexiconNames c) -> substitute codes (joinerEncode n) = EPS.
  Proof.
    intros H. unfold substitute, codes. assert (M : forall l : list bstr, In n l -> mget bcmp (joinerEncode n) (map (fun m => (joinerEncode m, EPS)) l) = Some EPS).
    { clear. induction l as [|m l IH]; intros H; [destruct H|]. cbn [map mget]. destruct (bcmp (joinerEncode n) (joinerEncode m)) eqn:E; [reflexivity| |].
      - destruct H as [->|H]; [rewrite (proj2 (bcmp_eq _ _) eq_refl) in E; discriminate|auto].
      - destruct H as [->|H]; [rewrite (proj2 (bcmp_eq _ _) eq_refl) in E; discriminate|auto]. }
    rewrite (M _ H). reflexivity.
  Qed.
  Lemma eps_nodollar : ~ In dollar EPS.
  Proof. nodollar. Qed.
  Lemma subst_keys_at s : substitute keys ("@"%char :: s) = "@"%char :: s.
  Proof. apply subst_none. intros K. apply keys_dollar in K. destruct K as [r K]. discriminate. Qed.
  Lemma ending_nc n : name n -> In n (init :: HASH :: lexiconNames c) -> ending (nc fl n) = n_end fl n.
  Proof.
    intros Hn H. unfold ending, n_end. pose proof (nc_coded fl n Hn) as Kc. pose proof subst_keys_at as SK. destruct fl; cbn [nc] in *.
    - rewrite real_coded; [|exact Kc|unfold flagJoinerEncode; rewrite !app_length; cbn; lia]. unfold flagJoinerEncode.
      rewrite !dollars_app, (dollars_plain n) by apply Hn. change (dollars (B "$R.LEXNAME.")) with (B "@R.LEXNAME."). change (dollars (B "$")) with (B "@").
      apply SK.
    - rewrite (codes_hit n H). apply SK.
  Qed.
  Lemma ending_cc n : name n -> In n (init :: HASH :: lexiconNames c) -> ending (cc fl n) = c_end fl n.
  Proof.
    intros Hn H. unfold ending, c_end. pose proof (cc_coded fl n Hn) as Kc. pose proof subst_keys_at as SK. destruct fl; cbn [cc] in *.
    - rewrite real_coded; [|exact Kc|unfold flagJoinerEncode; rewrite !app_length; cbn; lia]. unfold flagJoinerEncode.
      rewrite !dollars_app, (dollars_plain n) by apply Hn. change (dollars (B "$P.LEXNAME.")) with (B "@P.LEXNAME."). change (dollars (B "$")) with (B "@").
      apply SK.
    - rewrite (codes_hit n H). apply SK.
  Qed.
  Lemma ending2_nc n : name n -> In n (init :: HASH :: lexiconNames c) -> ending2 (both (nc fl n)) = both (n_end fl n).
  Proof. intros H1 H2. unfold ending2, both. cbn [fst snd]. rewrite (ending_nc n H1 H2). reflexivity. Qed.
  Lemma ending2_cc n : name n -> In n (init :: HASH :: lexiconNames c) -> ending2 (both (cc fl n)) = both (c_end fl n).
  Proof. intros H1 H2. unfold ending2, both. cbn [fst snd]. rewrite (ending_cc n H1 H2). reflexivity. Qed.
  Lemma sm2_coded w : coded w -> sm2 (both w) = both w.
  Proof. intros H. unfold sm2, both. cbn [fst snd]. rewrite (sm_coded w H). reflexivity. Qed.
  Lemma not_inserted s : ~ starts (B "@_REG.") s -> mget bcmp s inserts = None.
  Proof. intros H. apply mget_none. intros K. apply inserts_at in K. destruct K as [r ->]. apply H. exists r. reflexivity. Qed.
  Lemma end_kept n : mget bcmp (n_end fl n) inserts = None /\ mget bcmp (c_end fl n) inserts = None.
  Proof. split; apply not_inserted; unfold n_end, c_end; intros [r E]; destruct fl; discriminate. Qed.

  (** What stands in the place of an entry's body in the end. *)
  Definition placed (e : entry) (b : list (bstr * bstr)) (w : Z) : Prop :=
    match e_body e with
    | Literal u l => b = map sm2 (body_label u l) /\ w = 0%Z
    | Regexp _ => exists f r, In f G /\ e_body f = Regexp r /\ e_key f = e_key e /\ r b w
    end.
  Lemma token_kept t : usable t -> plain t -> ~ In dollar (sm (fix_zero t)) /\ ~ starts (B "@_REG.") (sm (fix_zero t)).
  Proof.
    intros U P. destruct (silent_dec t) as [Sl|Sl].
    - rewrite (sm_silent t Sl). split; [apply eps_nodollar|]. intros [r E]. discriminate.
    - destruct (sm_loud t U Sl) as (E1 & E2 & V). rewrite E1, E2. split; [rewrite <- E1; apply plain_fix; exact P|].
      intros [r E]. destruct V as (_ & _ & V & _). apply V. exists (B "REG." ++ r). rewrite E. reflexivity.
  Qed.
  Lemma side_kept n ts : Forall usable ts -> Forall good_token ts -> Forall (fun s => ~ In dollar s /\ ~ starts (B "@_REG.") s) (map (fun t => sm (fix_zero t)) (padded n ts)).
  Proof.
    intros U Gd. apply Forall_forall. intros s Hs. apply in_map_iff in Hs. destruct Hs as (t & <- & Ht). unfold padded in Ht. apply in_app_or in Ht.
    rewrite Forall_forall in U, Gd. destruct Ht as [Ht|Ht]; [apply token_kept; [auto|apply Gd; exact Ht]|].
    apply repeat_spec in Ht. subst t. apply token_kept; [left; right; right; left; reflexivity|apply OTHER_plain].
  Qed.
  Lemma body_placed e : In e G -> forall b w, inserted inserts (map ending2 (map sm2 (bd e))) b w <-> placed e b w.
  Proof.
    intros He b w. pose proof (i_G _ _ _ _ I e He) as K. pose proof (key_code _ _ _ K) as Kc. destruct K.
    rewrite Forall_forall in HU. specialize (HU e He). unfold usable_entry in HU. unfold placed, bd. destruct (e_body e) as [u l|r] eqn:Eb.
    - assert (F : Forall (fun p => (~ In dollar (fst p) /\ ~ starts (B "@_REG.") (fst p)) /\ (~ In dollar (snd p) /\ ~ starts (B "@_REG.") (snd p))) (map sm2 (body_label u l))).
      { destruct HU as [U1 U2], k_body as [B1 B2]. pose proof (side_kept (length l) u U1 B1) as F1. pose proof (side_kept (length u) l U2 B2) as F2.
        rewrite <- body_fst in F1. rewrite <- body_snd in F2. rewrite Forall_forall in *. intros p Hp. split; [apply F1|apply F2]; apply in_map; exact Hp. }
      assert (E : map ending2 (map sm2 (body_label u l)) = map sm2 (body_label u l)).
      { rewrite <- (map_id (map sm2 (body_label u l))) at 2. apply map_ext_in. intros [x y] Hp. rewrite Forall_forall in F. destruct (F _ Hp) as [[F1 _] [F2 _]].
        unfold ending2. cbn [fst snd] in *. rewrite !ending_plain by assumption. reflexivity. }
      rewrite E. apply inserted_keep. eapply Forall_impl; [|exact F]. intros p [[_ P1] [_ P2]]. split; apply not_inserted; assumption.
    - cbn [map]. idtac. unfold sm2. cbn [fst snd]. rewrite (sm_coded _ Kc). unfold ending2. cbn [fst snd]. rewrite (ending_key e r He Eb).
      pose proof (i_reg _ _ _ _ I (e_key e)) as C. destruct (mget bcmp (e_key e) (regexps c)) as [L|] eqn:E; [|destruct (C e r He Eb eq_refl)].
      assert (M : mget bcmp (dollars (e_key e)) inserts = Some L).
      { unfold inserts. rewrite mget_map_key; [exact E|]. intros k' Hk Ek. apply regexps_keys in Hk. destruct Hk as (f & q & Hf & _ & <-).
        destruct (i_G _ _ _ _ I f Hf). apply key_inj; assumption. }
      rewrite (inserted_key inserts _ L M). apply C.
  Qed.
  Lemma cont_names e es : linked (e_continuation e) es -> Forall (fun e => In e G) es -> In (e_continuation e) (init :: HASH :: lexiconNames c).
  Proof.
    intros L F. destruct es as [|f es]; cbn [linked] in L; [right; left; symmetry; exact L|]. destruct L as [-> _]. inversion F; subst.
    right. right. apply (i_G _ _ _ _ I). assumption.
  Qed.

  (** The paths in the end. *)
  Inductive final_path : bstr -> list entry -> list (bstr * bstr) -> Z -> Prop :=
  | fp_nil : final_path HASH [] [both (c_end fl HASH); both (n_end fl HASH)] 0%Z
  | fp_cons e es b v l w : placed e b v -> final_path (e_continuation e) es l w ->
      final_path (e_lexicon e) (e :: es) (both (c_end fl (e_lexicon e)) :: both (n_end fl (e_lexicon e)) :: b ++ l) (v + w)%Z.
  Lemma path_placed es : Forall (fun e => In e G) es -> forall a, linked a es -> In a (init :: HASH :: lexiconNames c) -> name a -> forall l w,
    inserted inserts (map ending2 (both (cc fl a) :: map sm2 (labels fl es) ++ [both (nc fl HASH)])) l w <-> final_path a es l w.
  Proof.
    induction 1 as [|e es He Hes IH]; intros a L Ia Na l w.
    - cbn [linked] in L. subst a. cbn [labels map concat app both ending2 fst snd]. unfold ending2, both. cbn [fst snd].
      rewrite ending_cc, ending_nc by (apply hash_name || (right; left; reflexivity)).
      rewrite inserted_keep.
      + split; [intros [-> ->]; constructor|inversion 1; auto].
      + destruct (end_kept HASH). repeat constructor; cbn; assumption.
    - cbn [linked] in L. destruct L as [-> L]. pose proof (i_G _ _ _ _ I e He) as K. destruct K.
      assert (Ic : In (e_continuation e) (init :: HASH :: lexiconNames c)) by (eapply cont_names; eauto).
      assert (Q : map ending2 (both (cc fl (e_lexicon e)) :: map sm2 (labels fl (e :: es)) ++ [both (nc fl HASH)]) =
        [both (c_end fl (e_lexicon e)); both (n_end fl (e_lexicon e))] ++ map ending2 (map sm2 (bd e)) ++
        map ending2 (both (cc fl (e_continuation e)) :: map sm2 (labels fl es) ++ [both (nc fl HASH)])).
      { unfold labels at 1. cbn [map concat]. rewrite label_bd. fold (labels fl es). rewrite map_app. cbn [map app]. rewrite !map_app. cbn [map app].
        rewrite (sm2_coded _ (nc_coded fl _ k_lex)), (sm2_coded _ (cc_coded fl _ k_cont)), (ending2_nc _ k_lex Ia), (ending2_cc _ k_lex Ia).
        f_equal. f_equal. rewrite <- !app_assoc. reflexivity. }
      rewrite Q, inserted_app. split.
      + intros (l1 & w1 & l2 & w2 & H1 & H2 & -> & ->). apply inserted_keep in H1; [|destruct (end_kept (e_lexicon e)); repeat constructor; cbn; assumption].
        destruct H1 as [-> ->]. apply inserted_app in H2. destruct H2 as (b & v & l3 & w3 & H2 & H3 & -> & ->).
        apply (body_placed e He) in H2. apply IH in H3; auto. apply (fp_cons e es b v l3 w3); assumption.
      + intros H. inversion H as [|e' es' b v l' w' H1 H2]; subst.
        exists [both (c_end fl (e_lexicon e)); both (n_end fl (e_lexicon e))], 0%Z, (b ++ l'), (v + w')%Z. split; [|split; [|split; [reflexivity|lia]]].
        * apply inserted_keep; [destruct (end_kept (e_lexicon e)); repeat constructor; cbn; assumption|auto].
        * apply inserted_app. exists b, v, l', w'. split; [apply (body_placed e He); exact H1|]. split; [apply IH; auto|auto].
  Qed.
  Lemma final_linked a es l w : final_path a es l w -> linked a es.
  Proof. induction 1; cbn [linked]; auto. Qed.

  Lemma compile_paths_iff P : compile_paths gr u8 c = Ok P -> forall l w, P l w <->
    exists es w0 w1, Forall (fun e => In e G) es /\ entries_of A fl es w0 /\ final_path init es l w1 /\ w = (w0 + w1)%Z.
  Proof.
    intros H l w.
    assert (R : exists start stop words, tokens gr u8 c false (cc fl init) = Ok start /\ tokens gr u8 (c1 fl c) false (nc fl HASH) = Ok stop /\
      joiner_words gr u8 (c1 fl c) (cc fl) (nc fl) (lexiconNames c) = Ok words /\
      P = w_insert inserts (w_map (substitute keys) (w_map (fun s => if fl then real_flag s else substitute codes s)
            (w_compose (cat_of start stop A) (joiners_all words (cat_of start stop A)))))).
    { unfold compile_paths in H. cbv zeta in H. rewrite (i_fl _ _ _ _ I) in H. unfold c1. destruct fl.
      - cbn [cc nc]. destruct (tokens gr u8 c false (flagJoinerEncode init false)) as [start| | |]; try discriminate. cbn [rbind] in H.
        destruct (tokens gr u8 _ false (flagJoinerEncode HASH true)) as [stop| | |]; try discriminate. cbn [rbind] in H.
        destruct (joiner_words gr u8 _ _ _ _) as [words| | |] eqn:W; try discriminate. cbn [rbind] in H. injection H as <-.
        exists start, stop, words. split; [reflexivity|]. split; [reflexivity|]. split; [exact W || reflexivity|]. reflexivity.
      - cbn [cc nc]. destruct (tokens gr u8 c false (joinerEncode init)) as [start| | |]; try discriminate. cbn [rbind] in H.
        destruct (tokens gr u8 _ false (joinerEncode HASH)) as [stop| | |]; try discriminate. cbn [rbind] in H.
        destruct (joiner_words gr u8 _ _ _ _) as [words| | |] eqn:W; try discriminate. cbn [rbind] in H. injection H as <-.
        exists start, stop, words. split; [reflexivity|]. split; [reflexivity|]. split; [exact W || reflexivity|]. reflexivity. }
    destruct R as (start & stop & words & T1 & T2 & T3 & ->).
    assert (Ni : name init) by exact (i_init _ _ _ _ I). assert (Ii : In init (init :: HASH :: lexiconNames c)) by (left; reflexivity).
    unfold w_insert, w_map. split.
    - intros (l0 & w0 & w1 & (l1 & (l2 & Hc & ->) & ->) & Hi & ->).
      apply (filtered gr u8 Hgr fl sp c G I HU Hinit start stop words _ _ T1 T2 T3) in Hc. destruct Hc as (es & F & E & L & ->).
      exists es, w0, w1. split; [exact F|]. split; [exact E|]. split; [|reflexivity]. apply (path_placed es F init L Ii Ni).
      rewrite map_map in Hi. exact Hi.
    - intros (es & w0 & w1 & F & E & Hf & ->). pose proof (final_linked _ _ _ _ Hf) as L.
      apply (path_placed es F init L Ii Ni) in Hf. set (l2 := both (cc fl init) :: map sm2 (labels fl es) ++ [both (nc fl HASH)]) in *.
      exists (map ending2 l2), w0, w1. split; [|split; [exact Hf|reflexivity]].
      set (h := fun s => if fl then real_flag s else substitute codes s).
      exists (map (fun p => (h (fst p), h (snd p))) l2). split; [|rewrite map_map; reflexivity].
      exists l2. split; [|reflexivity]. apply (filtered gr u8 Hgr fl sp c G I HU Hinit start stop words _ _ T1 T2 T3). exists es. auto.
  Qed.
End Ending.
