(** Proofs about harmonization. *)
From Verif Require Import Base OrdMap Flags_Model BT_Model BT_Spec BT_Proofs OLC_Model OLC_Spec OLC_Proofs6 Harm_Model Harm_Spec.

(** * Pattern matching symbols *)
Lemma ends_in_at_spec p x : is_prefix p x = true -> ends_in_at x = true ->
  (forall c, In c (last p "a"%char :: nil) -> c <> "@"%char) -> between p x.
Proof.
  intros P E L. apply is_prefix_spec in P. destruct P as (r & ->).
  destruct r as [|c r].
  - exfalso. rewrite app_nil_r in E. unfold ends_in_at, at_is in E.
    destruct p as [|c p]; [discriminate|].
    destruct (@exists_last _ (c :: p)) as (q & d & F); [discriminate|]. rewrite F in *.
    rewrite app_length in E. simpl in E. replace (length q + 1 - 1) with (length q) in E by lia.
    rewrite nth_error_app2, Nat.sub_diag in E by lia. simpl in E. apply Ascii.eqb_eq in E. subst d.
    apply (L "@"%char); [|reflexivity]. rewrite last_last. left. reflexivity.
  - destruct (@exists_last _ (c :: r)) as (q & d & F); [discriminate|]. rewrite F in *. exists q.
    unfold ends_in_at, at_is in E. rewrite !app_length in E. simpl in E.
    replace (length p + (length q + 1) - 1) with (length p + length q) in E by lia.
    rewrite app_assoc, nth_error_app2 in E by (rewrite app_length; lia).
    rewrite app_length, Nat.sub_diag in E. simpl in E. apply Ascii.eqb_eq in E. subst d. reflexivity.
Qed.
Lemma between_ends p x : between p x -> is_prefix p x = true /\ ends_in_at x = true.
Proof.
  intros (m & ->). split; [apply is_prefix_app|]. unfold ends_in_at, at_is. rewrite !app_length.
  replace (length p + (length m + length (B "@")) - 1) with (length p + length m) by (simpl; lia).
  rewrite app_assoc, nth_error_app2 by (rewrite app_length; lia).
  rewrite app_length, Nat.sub_diag. reflexivity.
Qed.
Lemma between_length p x : between p x -> length p < length x.
Proof. intros (m & ->). rewrite !app_length. simpl. lia. Qed.
Lemma short_list p x : between p x -> length p = 3 -> (4 <? length x) = false -> x = p ++ B "@".
Proof.
  intros (m & ->) L F. apply Nat.ltb_ge in F. rewrite !app_length in F. simpl in F.
  destruct m; [reflexivity|simpl in F; lia].
Qed.
Lemma is_list_spec x : is_list x = true <-> (between (B "@L.") x \/ between (B "@X.") x) /\ x <> B "@L.@" /\ x <> B "@X.@".
Proof.
  unfold is_list. split.
  - intros H. apply andb_true_iff in H. destruct H as [H L]. apply andb_true_iff in H. destruct H as [H E].
    apply Nat.ltb_lt in L. split; [|split; intros ->; simpl in L; lia].
    apply orb_true_iff in H.
    destruct H as [H|H]; [left|right]; (apply ends_in_at_spec; [exact H|exact E|]);
      simpl; intros c [<-|[]]; discriminate.
  - intros (H & N1 & N2). destruct (4 <? length x) eqn:L.
    + destruct H as [H|H]; apply between_ends in H; destruct H as [-> ->]; rewrite ?orb_true_r; reflexivity.
    + exfalso. destruct H as [H|H]; apply (short_list _ _ H eq_refl) in L; subst x; auto.
Qed.
Lemma is_insertion_iff x : is_insertion x = true <-> between (B "@I.") x.
Proof.
  split; [|apply insertion_detected].
  intros H. destruct (is_insertion x) eqn:E; [|discriminate].
  assert (P : is_prefix (B "@I.") x = true /\ ends_in_at x = true).
  { unfold is_insertion, at_is in E. rewrite !andb_true_iff in E. destruct E as (((H1 & H2) & H3) & H4).
    destruct x as [|a [|b [|c r]]]; try discriminate. simpl in H1, H2, H3.
    apply Ascii.eqb_eq in H1, H2, H3. subst. split; [reflexivity|exact H4]. }
  destruct P as [P Q]. apply ends_in_at_spec; [exact P|exact Q|]. simpl. intros c [<-|[]]; discriminate.
Qed.
Lemma pmatch_special_spec x : is_pmatch_special x = true <-> pmatch_symbol x.
Proof.
  unfold is_pmatch_special, pmatch_symbol. split.
  - destruct (length x <? 3); [discriminate|]. destruct (_ || _) eqn:E1; [discriminate|].
    apply orb_false_iff in E1. destruct E1 as [N1 N2]. apply bstr_eqb_neq in N1, N2.
    destruct (_ || _ || _ || _ || _ || _) eqn:E2; intros H.
    + rewrite !orb_true_iff, !bstr_eqb_eq in E2. rewrite is_insertion_iff in E2. simpl.
      destruct E2 as [[[[[E|E]|E]|E]|E]|E]; subst; tauto.
    + apply orb_true_iff in H. destruct H as [H|H].
      * right; right; left. apply andb_true_iff in H. destruct H as [H1 H2]. split; [|tauto].
        apply ends_in_at_spec; [exact H1|exact H2|]. simpl. intros c [<-|[]]; discriminate.
      * right; right; right. apply is_list_spec, H.
  - intros H.
    assert (L : (length x <? 3) = false).
    { apply Nat.ltb_ge. destruct H as [H|[H|[(H & _)|([H|H] & _)]]].
      - simpl in H. destruct H as [<-|[<-|[<-|[<-|[<-|[]]]]]]; simpl; lia.
      - apply between_length in H. simpl in H. lia.
      - apply between_length in H. simpl in H. lia.
      - apply between_length in H. simpl in H. lia.
      - apply between_length in H. simpl in H. lia. }
    rewrite L.
    assert (E : bstr_eqb x (B "@PMATCH_INPUT_MARK@") || bstr_eqb x (B "@PMATCH_BACKTRACK@") = false).
    { apply orb_false_iff. rewrite !bstr_eqb_neq.
      destruct H as [H|[H|[(H & N)|([H|H] & _)]]].
      - simpl in H. destruct H as [<-|[<-|[<-|[<-|[<-|[]]]]]]; split; discriminate.
      - destruct H as (m & ->). split; discriminate.
      - exact N.
      - destruct H as (m & ->). split; discriminate.
      - destruct H as (m & ->). split; discriminate. }
    rewrite E. destruct (_ || _ || _ || _ || _ || _) eqn:E2; [reflexivity|].
    rewrite !orb_false_iff, !bstr_eqb_neq in E2. destruct E2 as [[[[[E0 E3] E4] E5] E6] E7].
    destruct H as [H|[H|[(H & N)|H]]].
    + exfalso. simpl in H. destruct H as [<-|[<-|[<-|[<-|[<-|[]]]]]]; auto.
    + apply is_insertion_iff in H. congruence.
    + apply between_ends in H. destruct H as [-> ->]. reflexivity.
    + apply is_list_spec in H. rewrite H, orb_true_r. reflexivity.
Qed.

(** * The loops *)
Lemma in_order_map {A C} (f : A -> res C) h l : (forall x, In x l -> f x = Ok (h x)) -> in_order (map f l) = Ok (map h l).
Proof.
  induction l as [|x l IH]; intros H; simpl; [reflexivity|].
  rewrite (H x (or_introl eq_refl)). simpl. rewrite IH by (intros; apply H; right; assumption). reflexivity.
Qed.
Lemma in_order_flat {A C} (f : A -> list (res C)) h l :
  (forall x, In x l -> f x = map (@Ok C) (h x)) -> in_order (flat_map f l) = Ok (flat_map h l).
Proof.
  intros H.
  assert (E : flat_map f l = map (@Ok C) (flat_map h l)).
  { induction l as [|x l IH]; simpl; [reflexivity|].
    rewrite (H x (or_introl eq_refl)), IH, map_app by (intros; apply H; right; assumption). reflexivity. }
  rewrite E. clear. induction (flat_map h l) as [|y m IH]; simpl; [reflexivity|]. rewrite IH. reflexivity.
Qed.

Definition id_new (m : list bstr) (a : arc) : list arc :=
  if bstr_eqb (isy a) IDN then map (fun k => Arc (tgt a) k k (wt a)) m else [].
Definition unk_new (m : list bstr) (a : arc) : list arc :=
  (if bstr_eqb (isy a) UNK then map (fun k => Arc (tgt a) k (osy a) (wt a)) m else [])
  ++ (if bstr_eqb (osy a) UNK then map (fun k => Arc (tgt a) (isy a) k (wt a)) m else [])
  ++ (if bstr_eqb (isy a) UNK && bstr_eqb (osy a) UNK
      then flat_map (fun k => flat_map (fun l => if bstr_eqb k l then [] else [Arc (tgt a) l k (wt a)]) m) m else []).
Definition grown (new : list bstr -> arc -> list arc) (m : list bstr) (g : graph) : graph :=
  with_sts g (map (fun l => l ++ flat_map (new m) l) (sts g)).

Lemma valid_ne x : x <> [] -> is_valid_symbol x = true.
Proof. destruct x; [congruence|reflexivity]. Qed.
Lemma make_arc_ok t i o w : i <> [] -> o <> [] -> make_arc t i o w = Ok (Arc t i o w).
Proof. intros I O. unfold make_arc, valid_pair. simpl. rewrite (valid_ne _ I), (valid_ne _ O). reflexivity. Qed.

Definition good_arc (a : arc) : Prop := (isy a = IDN <-> osy a = IDN) /\ isy a <> [] /\ osy a <> [].
Definition good_missing (m : list bstr) : Prop := forall x, In x m -> x <> [] /\ x <> IDN /\ x <> UNK.

Lemma identity_added_ok m a : good_arc a -> good_missing m -> identity_added m a = Ok (id_new m a).
Proof.
  intros (P & _) M. unfold identity_added, id_new. destruct (bstr_eqb (isy a) IDN) eqn:E; [|reflexivity].
  apply bstr_eqb_eq in E. rewrite (proj1 P E), bstr_eqb_refl.
  apply in_order_map. intros k Hk. apply make_arc_ok; apply (M k Hk).
Qed.
Lemma IDN_UNK : IDN <> UNK. Proof. intros H; vm_compute in H; discriminate. Qed.
Lemma unknown_added_ok m a : good_arc a -> good_missing m -> unknown_added m a = Ok (unk_new m a).
Proof.
  intros (P & I & O) M. unfold unknown_added, unk_new, unknown_input_added, unknown_output_added, unknown_both_added.
  assert (X1 : (if bstr_eqb (isy a) UNK then if bstr_eqb (osy a) IDN then Throw
                else in_order (map (fun k => make_arc (tgt a) k (osy a) (wt a)) m) else Ok [])
             = Ok (if bstr_eqb (isy a) UNK then map (fun k => Arc (tgt a) k (osy a) (wt a)) m else [])).
  { destruct (bstr_eqb (isy a) UNK) eqn:E; [|reflexivity]. apply bstr_eqb_eq in E.
    replace (bstr_eqb (osy a) IDN) with false.
    - apply in_order_map. intros k Hk. apply make_arc_ok; [apply (M k Hk)|exact O].
    - symmetry. apply bstr_eqb_neq. intros F. apply P in F. rewrite E in F. exact (IDN_UNK (eq_sym F)). }
  assert (X2 : (if bstr_eqb (osy a) UNK then if bstr_eqb (isy a) IDN then Throw
                else in_order (map (fun k => make_arc (tgt a) (isy a) k (wt a)) m) else Ok [])
             = Ok (if bstr_eqb (osy a) UNK then map (fun k => Arc (tgt a) (isy a) k (wt a)) m else [])).
  { destruct (bstr_eqb (osy a) UNK) eqn:E; [|reflexivity]. apply bstr_eqb_eq in E.
    replace (bstr_eqb (isy a) IDN) with false.
    - apply in_order_map. intros k Hk. apply make_arc_ok; [exact I|apply (M k Hk)].
    - symmetry. apply bstr_eqb_neq. intros F. apply P in F. rewrite E in F. exact (IDN_UNK (eq_sym F)). }
  rewrite X1. cbn [rbind]. rewrite X2. cbn [rbind].
  destruct (bstr_eqb (isy a) UNK && bstr_eqb (osy a) UNK); [|reflexivity].
  erewrite in_order_flat; [reflexivity|]. intros k Hk. simpl.
  assert (G : forall m', incl m' m ->
    flat_map (fun l => if bstr_eqb k l then [] else [make_arc (tgt a) l k (wt a)]) m'
    = map (@Ok arc) (flat_map (fun l => if bstr_eqb k l then [] else [Arc (tgt a) l k (wt a)]) m')).
  { induction m' as [|l m' IH]; intros J; simpl; [reflexivity|].
    rewrite IH by (intros z Hz; apply J; right; exact Hz). rewrite map_app. f_equal.
    destruct (bstr_eqb k l); [reflexivity|]. simpl. f_equal. apply make_arc_ok; [apply (M l), J; left; reflexivity|apply (M k Hk)]. }
  apply G, incl_refl.
Qed.

Definition good (g : graph) : Prop := forall l, In l (sts g) -> forall a, In a l -> good_arc a.
Lemma expand_ok f new m g : (forall a, good_arc a -> f m a = Ok (new m a)) -> good g ->
  (m = [] -> forall a, new m a = []) ->
  expand f m g = Ok (grown new m g).
Proof.
  intros F G Z. assert (X : rmap (with_sts g) (in_order (map (expand_state (f m)) (sts g))) = Ok (grown new m g)).
  { rewrite (in_order_map _ (fun l => l ++ flat_map (new m) l)); [reflexivity|].
    intros l Hl. unfold expand_state. rewrite (in_order_map _ (new m)).
    - simpl. rewrite flat_map_concat_map. reflexivity.
    - intros a Ha. apply F, (G l Hl a Ha). }
  destruct m as [|k m]; [|exact X]. simpl. unfold grown.
  rewrite (map_ext _ (fun l => l)), map_id; [destruct g; reflexivity|].
  intros l. rewrite (flat_map_ext _ (fun _ => []) (Z eq_refl)).
  replace (flat_map (fun _ : arc => []) l) with (@nil arc) by (induction l; simpl; auto). apply app_nil_r.
Qed.
Lemma unk_new_nil a : unk_new [] a = [].
Proof. unfold unk_new. simpl. destruct (bstr_eqb (isy a) UNK), (bstr_eqb (osy a) UNK); reflexivity. Qed.
Lemma id_new_nil a : id_new [] a = [].
Proof. unfold id_new. simpl. destruct (bstr_eqb (isy a) IDN); reflexivity. Qed.

Lemma id_new_In m a b : In b (id_new m a) <-> isy a = IDN /\ exists k, In k m /\ b = Arc (tgt a) k k (wt a).
Proof.
  unfold id_new. destruct (bstr_eqb (isy a) IDN) eqn:E.
  - apply bstr_eqb_eq in E. rewrite in_map_iff. split; [intros (k & <- & H); eauto|intros (_ & k & H & ->); eauto].
  - apply bstr_eqb_neq in E. simpl. tauto.
Qed.
Lemma unk_new_In m a b : In b (unk_new m a) <->
  (isy a = UNK /\ exists k, In k m /\ b = Arc (tgt a) k (osy a) (wt a))
  \/ (osy a = UNK /\ exists k, In k m /\ b = Arc (tgt a) (isy a) k (wt a))
  \/ (isy a = UNK /\ osy a = UNK /\ exists k l, In k m /\ In l m /\ k <> l /\ b = Arc (tgt a) k l (wt a)).
Proof.
  unfold unk_new. rewrite !in_app_iff.
  assert (A : In b (if bstr_eqb (isy a) UNK then map (fun k => Arc (tgt a) k (osy a) (wt a)) m else []) <->
    isy a = UNK /\ exists k, In k m /\ b = Arc (tgt a) k (osy a) (wt a)).
  { destruct (bstr_eqb (isy a) UNK) eqn:E.
    - apply bstr_eqb_eq in E. rewrite in_map_iff. split; [intros (k & <- & H); eauto|intros (_ & k & H & ->); eauto].
    - apply bstr_eqb_neq in E. simpl. tauto. }
  assert (C : In b (if bstr_eqb (osy a) UNK then map (fun k => Arc (tgt a) (isy a) k (wt a)) m else []) <->
    osy a = UNK /\ exists k, In k m /\ b = Arc (tgt a) (isy a) k (wt a)).
  { destruct (bstr_eqb (osy a) UNK) eqn:E.
    - apply bstr_eqb_eq in E. rewrite in_map_iff. split; [intros (k & <- & H); eauto|intros (_ & k & H & ->); eauto].
    - apply bstr_eqb_neq in E. simpl. tauto. }
  rewrite A, C. clear A C.
  assert (D : In b (if bstr_eqb (isy a) UNK && bstr_eqb (osy a) UNK
    then flat_map (fun k => flat_map (fun l => if bstr_eqb k l then [] else [Arc (tgt a) l k (wt a)]) m) m else []) <->
    isy a = UNK /\ osy a = UNK /\ exists k l, In k m /\ In l m /\ k <> l /\ b = Arc (tgt a) k l (wt a)).
  { destruct (bstr_eqb (isy a) UNK && bstr_eqb (osy a) UNK) eqn:E.
    - apply andb_true_iff in E. rewrite !bstr_eqb_eq in E. rewrite in_flat_map. split.
      + intros (k & Hk & H). apply in_flat_map in H. destruct H as (l & Hl & H).
        destruct (bstr_eqb k l) eqn:F; [destruct H|]. apply bstr_eqb_neq in F. destruct H as [<-|[]].
        split; [tauto|split; [tauto|]]. exists l, k. auto.
      + intros (_ & _ & k & l & Hk & Hl & N & ->). exists l. split; [exact Hl|]. apply in_flat_map. exists k.
        split; [exact Hk|]. rewrite (proj2 (bstr_eqb_neq l k)) by congruence. left. reflexivity.
    - split; [intros []|]. intros (F1 & F2 & _). rewrite F1, F2, bstr_eqb_refl in E. discriminate. }
  rewrite D. reflexivity.
Qed.
Lemma nth_grown new m g s a :
  In a (nth s (sts (grown new m g)) []) <-> In a (nth s (sts g) []) \/ exists b, In b (nth s (sts g) []) /\ In a (new m b).
Proof.
  unfold grown. simpl.
  change (@nil arc) with ((fun l : list arc => l ++ flat_map (new m) l) []) at 1.
  rewrite map_nth. rewrite in_app_iff, in_flat_map. reflexivity.
Qed.

(** * The meaning of one transition *)
Definition harmonized (m : list bstr) (g : graph) (al : list bstr) : graph :=
  with_alpha (grown unk_new m (grown id_new m g)) al.
Definition concrete (al : list bstr) (l : list arc) (p : bstr * bstr) (t : nat) (w : Z) : Prop :=
  exists a, In a l /\ means al (isy a, osy a) p /\ tgt a = t /\ wt a = w.

(** [m]: the ordinary symbols of the new alphabet [al'] that the old one lacks. *)
Definition missing_for (al al' : list bstr) (m : list bstr) : Prop :=
  incl al al' /\ forall x, In x m <-> ordinary x /\ In x al' /\ ~ In x al.
Lemma missing_good al al' m : ~ In [] al' -> missing_for al al' m -> good_missing m.
Proof.
  intros N (_ & M) x Hx. apply M in Hx. destruct Hx as ((O & _) & A & _). unfold special in O.
  repeat split; intros ->; tauto.
Qed.
Lemma good_nth g s a : good g -> In a (nth s (sts g) []) -> good_arc a.
Proof.
  intros G H. destruct (nth_in_or_default s (sts g) []) as [D|D]; [apply (G _ D), H|]. rewrite D in H. destruct H.
Qed.
Lemma ordinary_ne x : ordinary x -> x <> UNK /\ x <> IDN.
Proof. intros (O & _). unfold special in O. split; intros ->; apply O; auto. Qed.

Lemma concrete_harmonized al al' m g s p t w : good g -> missing_for al al' m ->
  concrete al' (nth s (sts (harmonized m g al')) []) p t w <-> concrete al (nth s (sts g) []) p t w.
Proof.
  intros G (I & M).
  assert (Out : forall x, outside al' x -> outside al x) by (intros x (H1 & H2); split; auto).
  assert (Mo : forall x, In x m -> outside al x) by (intros x H; apply M in H; split; tauto).
  assert (Split : forall x, outside al x -> outside al' x \/ In x m).
  { intros x (H1 & H2). destruct (in_dec bstr_eq_dec x al') as [H|H]; [right; apply M; auto|left; split; auto]. }
  assert (Arcs : forall a, In a (nth s (sts (harmonized m g al')) []) <->
    In a (nth s (sts g) []) \/ exists b, In b (nth s (sts g) []) /\ (In a (id_new m b) \/ In a (unk_new m b))).
  { intros a. unfold harmonized. cbn [with_alpha sts]. rewrite nth_grown. split.
    - intros [H|(b & H & K)].
      + apply nth_grown in H. destruct H as [H|(b & H & K)]; [auto|right; eauto].
      + apply nth_grown in H. destruct H as [H|(c & H & L)]; [right; eauto|]. exfalso.
        apply id_new_In in L. destruct L as (_ & k & Hk & ->). apply unk_new_In in K. cbn [isy osy] in K.
        destruct (ordinary_ne k (proj1 (Mo k Hk))). tauto.
    - intros [H|(b & H & [K|K])].
      + left. apply nth_grown. auto.
      + left. apply nth_grown. right. eauto.
      + right. exists b. split; [|exact K]. apply nth_grown. auto. }
  split.
  - intros (a & Ha & P & <- & <-). apply Arcs in Ha. destruct Ha as [Ha|(b & Hb & K)].
    + exists a. split; [exact Ha|]. split; [|auto].
      inversion P; subst; constructor; auto.
    + destruct K as [K|K].
      * apply id_new_In in K. destruct K as (E & k & Hk & ->). cbn [isy osy tgt wt] in *.
        destruct (ordinary_ne k (proj1 (Mo k Hk))) as [N1 N2].
        exists b. split; [exact Hb|]. split; [|auto]. rewrite E, (proj1 (proj1 (good_nth g s b G Hb)) E).
        inversion P; subst; try (exfalso; tauto). constructor. auto.
      * apply unk_new_In in K. destruct K as [(E & k & Hk & ->)|[(E & k & Hk & ->)|(E1 & E2 & k & l & Hk & Hl & N & ->)]]; cbn [isy osy tgt wt] in *.
        -- destruct (ordinary_ne k (proj1 (Mo k Hk))) as [N1 N2].
           exists b. split; [exact Hb|]. split; [|auto]. rewrite E.
           destruct (good_nth g s b G Hb) as [PB _].
           inversion P as [?|?|?|i y H3 H4|i o H3 H4 H5]; subst; try (exfalso; tauto).
           ++ constructor; auto. intros ->. destruct H3 as (_ & H3). apply H3. apply M in Hk. tauto.
           ++ apply means_unknown_in; auto.
        -- destruct (ordinary_ne k (proj1 (Mo k Hk))) as [N1 N2].
           exists b. split; [exact Hb|]. split; [|auto]. rewrite E.
           inversion P as [?|?|x o H3 H4|?|i o H3 H4 H5]; subst; try (exfalso; tauto).
           ++ apply means_unknowns; auto. intros ->. destruct H3 as (_ & H3). apply H3. apply M in Hk. tauto.
           ++ apply means_unknown_out; auto.
        -- destruct (ordinary_ne k (proj1 (Mo k Hk))) as [N1 N2]. destruct (ordinary_ne l (proj1 (Mo l Hl))) as [N3 N4].
           exists b. split; [exact Hb|]. split; [|auto]. rewrite E1, E2.
           inversion P; subst; try (exfalso; tauto). apply means_unknowns; auto.
  - intros (a & Ha & P & <- & <-).
    assert (Keep : means al' (isy a, osy a) p -> concrete al' (nth s (sts (harmonized m g al')) []) p (tgt a) (wt a)).
    { intros Q. exists a. split; [apply Arcs; left; exact Ha|auto]. }
    assert (New : forall b, (In b (id_new m a) \/ In b (unk_new m a)) -> means al' (isy b, osy b) p -> tgt b = tgt a -> wt b = wt a ->
       concrete al' (nth s (sts (harmonized m g al')) []) p (tgt a) (wt a)).
    { intros b K Q T W. exists b. split; [apply Arcs; right; eauto|auto]. }
    remember (isy a, osy a) as lb eqn:EL.
    destruct P as [x O|x y O1 O2 N|x o O N|i y O N|i o H1 H2 H3].
    + injection EL as E1 E2. destruct (Split x O) as [S|S]; [apply Keep; constructor; exact S|].
      apply (New (Arc (tgt a) x x (wt a))); cbn [isy osy tgt wt]; auto.
      * left. apply id_new_In. split; [symmetry; exact E1|]. eauto.
      * destruct (ordinary_ne x (proj1 O)). constructor; tauto.
    + injection EL as E1 E2. destruct (ordinary_ne x (proj1 O1)), (ordinary_ne y (proj1 O2)).
      destruct (Split x O1) as [S1|S1], (Split y O2) as [S2|S2].
      * apply Keep. constructor; auto.
      * apply (New (Arc (tgt a) (isy a) y (wt a))); cbn [isy osy tgt wt]; auto.
        -- right. apply unk_new_In. right. left. split; [symmetry; exact E2|eauto].
        -- rewrite <- E1. apply means_unknown_in; auto.
      * apply (New (Arc (tgt a) x (osy a) (wt a))); cbn [isy osy tgt wt]; auto.
        -- right. apply unk_new_In. left. split; [symmetry; exact E1|eauto].
        -- rewrite <- E2. apply means_unknown_out; auto.
      * apply (New (Arc (tgt a) x y (wt a))); cbn [isy osy tgt wt]; auto.
        -- right. apply unk_new_In. right. right. split; [symmetry; exact E1|]. split; [symmetry; exact E2|]. exists x, y. auto.
        -- apply means_itself; tauto.
    + injection EL as E1 E2. destruct (ordinary_ne x (proj1 O)).
      destruct (Split x O) as [S|S]; [apply Keep; constructor; auto|].
      apply (New (Arc (tgt a) x (osy a) (wt a))); cbn [isy osy tgt wt]; auto.
      * right. apply unk_new_In. left. split; [symmetry; exact E1|eauto].
      * rewrite <- E2. apply means_itself; tauto.
    + injection EL as E1 E2. destruct (ordinary_ne y (proj1 O)).
      destruct (Split y O) as [S|S]; [apply Keep; constructor; auto|].
      apply (New (Arc (tgt a) (isy a) y (wt a))); cbn [isy osy tgt wt]; auto.
      * right. apply unk_new_In. right. left. split; [symmetry; exact E2|eauto].
      * rewrite <- E1. apply means_itself; tauto.
    + apply Keep. constructor; auto.
Qed.

(** * Runs *)
Inductive crun (al : list bstr) (g : graph) : nat -> list (bstr * bstr) -> Z -> nat -> Prop :=
| crun_nil s : crun al g s [] 0 s
| crun_cons s p t w l v u : concrete al (nth s (sts g) []) p t w -> crun al g t l v u -> crun al g s (p :: l) (w + v) u.
Lemma crun_run al g s l v u : crun al g s l v u <-> exists m, run g s m v u /\ Forall2 (means al) m l.
Proof.
  split.
  - induction 1 as [|s p t w l v u C R (m & R1 & F)]; [exists []; split; constructor|].
    destruct C as (a & Ha & P & <- & <-). exists ((isy a, osy a) :: m). split; constructor; auto.
  - intros (m & R & F). revert l F. induction R as [|s a m v u Ha R IH]; intros l F; inversion F; subst; [constructor|].
    econstructor; [|apply IH; eassumption]. exists a. auto.
Qed.
Lemma crun_eq al al' g h : (forall s p t w, concrete al (nth s (sts g) []) p t w -> concrete al' (nth s (sts h) []) p t w) ->
  forall s l v u, crun al g s l v u -> crun al' h s l v u.
Proof. intros H s l v u R. induction R; econstructor; eauto. Qed.
Lemma relation_harmonized m g al' : good g -> missing_for (alpha g) al' m ->
  forall l w, relation (harmonized m g al') l w <-> relation g l w.
Proof.
  intros G M l w.
  assert (S : forall s p t v, concrete al' (nth s (sts (harmonized m g al')) []) p t v <-> concrete (alpha g) (nth s (sts g) []) p t v)
    by (intros; apply concrete_harmonized; assumption).
  unfold relation, accepts. split.
  - intros (k & (t & v & f & R & F & ->) & P).
    assert (C : crun al' (harmonized m g al') 0 l v t) by (apply crun_run; eauto).
    apply (crun_eq _ (alpha g) _ g) in C; [|intros; apply S; assumption].
    apply crun_run in C. destruct C as (k' & R' & P'). exists k'. split; [|exact P']. exists t, v, f. auto.
  - intros (k & (t & v & f & R & F & ->) & P).
    assert (C : crun (alpha g) g 0 l v t) by (apply crun_run; eauto).
    apply (crun_eq _ al' _ (harmonized m g al')) in C; [|intros; apply S; assumption].
    apply crun_run in C. destruct C as (k' & R' & P'). exists k'. split; [|exact P']. exists t, v, f. auto.
Qed.

(** * The constructor *)
Lemma In_add_symbols xs g y : In y (alpha (add_symbols g xs)) <-> In y xs \/ In y (alpha g).
Proof.
  unfold add_symbols. revert g; induction xs as [|x xs IH]; intros g; simpl; [tauto|].
  rewrite IH. simpl. rewrite (In_sadd bcmp bcmp_eq). split; intuition.
Qed.
Lemma add_symbols_sts xs g : sts (add_symbols g xs) = sts g /\ fin (add_symbols g xs) = fin g.
Proof. unfold add_symbols. revert g; induction xs as [|x xs IH]; intros g; simpl; [auto|]. rewrite !(proj1 (IH _)), !(proj2 (IH _)). auto. Qed.
Lemma remove_flags_In al x : In x (remove_flags al) <-> In x al /\ is_diacritic x = false /\ ~ pmatch_symbol x.
Proof.
  unfold remove_flags. rewrite filter_In, andb_true_iff, !negb_true_iff.
  rewrite <- pmatch_special_spec. destruct (is_pmatch_special x); intuition congruence.
Qed.
Lemma set_difference_In x y s : In s (set_difference x y) <-> In s x /\ ~ In s y.
Proof.
  unfold set_difference. rewrite filter_In, negb_true_iff. rewrite <- (smem_In bcmp bcmp_eq s y). destruct (smem bcmp s y); intuition congruence.
Qed.
Lemma missing_21 g1 g2 al' : specials_ok g1 -> (forall x, In x al' <-> In x (alpha g1) \/ In x (alpha g2)) ->
  missing_for (alpha g1) al' (t2_minus_t1 g1 g2).
Proof.
  intros (S1 & S2 & S3) A. split; [intros x H; apply A; auto|]. intros x. unfold t2_minus_t1.
  rewrite set_difference_In, !remove_flags_In. unfold ordinary, special. rewrite (A x). split.
  - intros ((H1 & H2 & H3) & N). split; [split; [|tauto]|tauto]. intros [-> |[-> | ->]]; apply N; auto.
  - intros ((H1 & H2 & H3) & H4 & N). intuition.
Qed.
Lemma missing_12 g1 g2 al' : specials_ok g2 -> (forall x, In x al' <-> In x (alpha g1) \/ In x (alpha g2)) ->
  missing_for (alpha g2) al' (t1_minus_t2 g1 g2).
Proof.
  intros (S1 & S2 & S3) A. split; [intros x H; apply A; auto|]. intros x. unfold t1_minus_t2.
  rewrite !(In_sdel bcmp bcmp_eq), set_difference_In, !remove_flags_In. unfold ordinary, special. rewrite (A x). split.
  - intros (_ & _ & (H1 & H2 & H3) & N). split; [split; [|tauto]|tauto]. intros [-> |[-> | ->]]; apply N; auto.
  - intros ((H1 & H2 & H3) & H4 & N). intuition; subst; tauto.
Qed.

Lemma good_grown_id m g : good g -> good_missing m -> good (grown id_new m g).
Proof.
  intros G M l Hl a Ha. unfold grown in Hl. simpl in Hl. apply in_map_iff in Hl. destruct Hl as (k & <- & Hk).
  apply in_app_iff in Ha. destruct Ha as [Ha|Ha]; [apply (G k Hk a Ha)|].
  apply in_flat_map in Ha. destruct Ha as (b & Hb & K). apply id_new_In in K. destruct K as (_ & x & Hx & ->).
  destruct (M x Hx) as (H1 & H2 & H3). repeat split; cbn [isy osy]; tauto.
Qed.
Lemma good_of g : identities_paired g -> no_empty_symbol g -> good g.
Proof.
  intros P (_ & N) l Hl a Ha. apply (In_nth _ _ []) in Hl. destruct Hl as (s & _ & <-).
  split; [exact (P s a Ha)|exact (N s a Ha)].
Qed.
Lemma harmonize_ok g1 g2 : specials_ok g1 -> specials_ok g2 -> identities_paired g1 -> identities_paired g2 ->
  no_empty_symbol g1 -> no_empty_symbol g2 ->
  exists al1 al2, harmonize g1 g2 = Ok (harmonized (t2_minus_t1 g1 g2) g1 al1, harmonized (t1_minus_t2 g1 g2) g2 al2)
    /\ (forall x, In x al1 <-> In x (alpha g1) \/ In x (alpha g2))
    /\ (forall x, In x al2 <-> In x (alpha g1) \/ In x (alpha g2)).
Proof.
  intros S1 S2 P1 P2 N1 N2. unfold harmonize, harmonize_identity_symbols, harmonize_unknown_symbols.
  assert (G1 := good_of g1 P1 N1). assert (G2 := good_of g2 P2 N2).
  assert (M1 : good_missing (t2_minus_t1 g1 g2)).
  { apply (missing_good (alpha g1) (alpha g1 ++ alpha g2)); [rewrite in_app_iff; destruct N1, N2; tauto|].
    apply missing_21; [exact S1|]. intros x. apply in_app_iff. }
  assert (M2 : good_missing (t1_minus_t2 g1 g2)).
  { apply (missing_good (alpha g2) (alpha g1 ++ alpha g2)); [rewrite in_app_iff; destruct N1, N2; tauto|].
    apply missing_12; [exact S2|]. intros x. apply in_app_iff. }
  set (d21 := t2_minus_t1 g1 g2) in *. set (d12 := t1_minus_t2 g1 g2) in *.
  assert (Zi : forall d : list bstr, d = [] -> forall a, id_new d a = []) by (intros d -> a; apply id_new_nil).
  assert (Zu : forall d : list bstr, d = [] -> forall a, unk_new d a = []) by (intros d -> a; apply unk_new_nil).
  rewrite (expand_ok identity_added id_new d21 g1); [|intros; apply identity_added_ok; assumption|assumption|apply Zi]. cbn [rbind].
  rewrite (expand_ok identity_added id_new d12 g2); [|intros; apply identity_added_ok; assumption|assumption|apply Zi]. cbn [rbind].
  rewrite (expand_ok unknown_added unk_new d21); [|intros; apply unknown_added_ok; assumption|apply good_grown_id; assumption|apply Zu]. cbn [rbind].
  rewrite (expand_ok unknown_added unk_new d12); [|intros; apply unknown_added_ok; assumption|apply good_grown_id; assumption|apply Zu]. cbn [rbind].
  set (h1 := grown unk_new d21 (grown id_new d21 g1)). set (h2 := grown unk_new d12 (grown id_new d12 g2)).
  exists (alpha (add_symbols h1 (alpha h2))), (alpha (add_symbols h2 (alpha (add_symbols h1 (alpha h2))))).
  split; [|split; intros x; rewrite !In_add_symbols; change (alpha h1) with (alpha g1); change (alpha h2) with (alpha g2); tauto].
  f_equal. unfold harmonized. fold h1 h2. f_equal.
  - destruct (add_symbols_sts (alpha h2) h1) as [E1 E2]. destruct (add_symbols h1 (alpha h2)). simpl in *. subst. reflexivity.
  - set (al := alpha (add_symbols h1 (alpha h2))).
    destruct (add_symbols_sts al h2) as [E1 E2]. destruct (add_symbols h2 al). simpl in *. subst. reflexivity.
Qed.
