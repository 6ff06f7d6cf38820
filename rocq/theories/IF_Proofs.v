(** Proofs about the labels in options. *)
From Verif Require Import Base BT_Model BT_Spec BT_Proofs EE_Model EE_Proofs IF_Spec IF_Model.

(** The labels that hang. *)
Definition stuck (label : bstr) : Prop := exists y, y <> [] /\ label = backslash :: colon :: y.
Definition no_split_before (label : bstr) (n : nat) : Prop := forall x y, label = x ++ colon :: y -> length x < n -> ~ separates x.

Lemma rev_split (acc l x y : bstr) c : rev acc ++ c :: l = x ++ colon :: y -> length x < S (length acc) ->
  length x < length acc \/ x = rev acc /\ c = colon /\ y = l.
Proof.
  intros E L. destruct (Nat.lt_ge_cases (length x) (length acc)) as [H|H]; [auto|]. right.
  assert (Q : length x = length (rev acc)) by (rewrite rev_length; lia).
  assert (A : forall (u v s t : bstr), length u = length v -> u ++ s = v ++ t -> u = v /\ s = t).
  { clear. induction u as [|a u IH]; intros [|b v] s t Q E; try discriminate; [auto|]. cbn in *. injection E as -> E. injection Q as Q. destruct (IH v s t Q E). subst. auto. }
  symmetry in E. destruct (A _ _ _ _ Q E) as [-> E']. injection E' as <- <-. auto.
Qed.

Lemma separates_not_backslash b acc : b <> backslash -> separates (rev (b :: acc)).
Proof.
  intros N. cbn [rev]. split; [destruct (rev acc); discriminate|]. left. intros u E. apply app_inj_tail in E. destruct E as [_ E]. exact (N E).
Qed.
Lemma separates_two acc : separates (rev (backslash :: backslash :: acc)).
Proof. cbn [rev]. rewrite <- app_assoc. split; [destruct (rev acc); discriminate|]. right. exists (rev acc). reflexivity. Qed.
Lemma not_separates_one b acc : b <> backslash -> ~ separates (rev (backslash :: b :: acc)).
Proof.
  intros N [_ [H|(u & H)]].
  - apply (H (rev (b :: acc))). reflexivity.
  - cbn [rev] in H. rewrite <- app_assoc in H. cbn [app] in H. change (u ++ [backslash; backslash]) with (u ++ [backslash] ++ [backslash]) in H.
    change (rev acc ++ [b; backslash]) with (rev acc ++ [b] ++ [backslash]) in H. rewrite !app_assoc in H. apply app_inj_tail in H. destruct H as [H _].
    apply app_inj_tail in H. destruct H as [_ H]. exact (N H).
Qed.
Lemma find_colon_spec l : forall acc, no_split_before (rev acc ++ l) (length acc) -> ~ stuck (rev acc ++ l) ->
  match find_colon acc l with
  | Ok (Some (x, y)) => two_symbols (rev acc ++ l) x y
  | Ok None => forall x y, rev acc ++ l = x ++ colon :: y -> y <> [] -> ~ separates x
  | _ => False
  end.
Proof.
  induction l as [|c r IH]; intros acc N NS.
  - cbn [find_colon]. intros x y E Y. apply (N x y E). apply (f_equal (@length ascii)) in E. rewrite !app_length, rev_length in E. cbn in E. lia.
  - assert (Next : (forall x y, rev acc ++ c :: r = x ++ colon :: y -> length x < S (length acc) -> ~ separates x) ->
      match find_colon (c :: acc) r with
      | Ok (Some (x, y)) => two_symbols (rev acc ++ c :: r) x y
      | Ok None => forall x y, rev acc ++ c :: r = x ++ colon :: y -> y <> [] -> ~ separates x
      | _ => False
      end).
    { intros N'. specialize (IH (c :: acc)). cbn [rev] in IH. rewrite <- app_assoc in IH. cbn [app] in IH. apply IH; [exact N'|exact NS]. }
    cbn [find_colon]. destruct (Ascii.eqb c colon) eqn:Ec.
    2:{ apply Next. intros x y E L. destruct (rev_split _ _ _ _ _ E L) as [H|(_ & H & _)]; [exact (N x y E H)|]. apply Ascii.eqb_neq in Ec. contradiction. }
    apply Ascii.eqb_eq in Ec. subst c. destruct acc as [|b acc'] eqn:Ea.
    { apply Next. intros x y E L [X _]. destruct x; [apply X; reflexivity|cbn in L; lia]. }
    destruct r as [|d r'] eqn:Er.
    { intros x y E Y. apply (N x y E). apply (f_equal (@length ascii)) in E. rewrite !app_length, rev_length in E. cbn in E. destruct y; [congruence|]. cbn in E. cbn. lia. }
    destruct (Ascii.eqb b backslash) eqn:Eb.
    + apply Ascii.eqb_eq in Eb. subst b. destruct acc' as [|b' acc''].
      { apply NS. exists (d :: r'). split; [discriminate|reflexivity]. }
      destruct (Ascii.eqb b' backslash) eqn:Eb'.
      * apply Ascii.eqb_eq in Eb'. subst b'. split; [reflexivity|]. split; [discriminate|]. split; [apply separates_two|].
        intros x' y' E L. rewrite rev_length in L. exact (N x' y' E L).
      * apply Ascii.eqb_neq in Eb'. apply Next. intros x y E L. destruct (rev_split _ _ _ _ _ E L) as [H|(-> & _ & _)]; [exact (N x y E H)|]. apply not_separates_one, Eb'.
    + apply Ascii.eqb_neq in Eb. split; [reflexivity|]. split; [discriminate|]. split; [apply separates_not_backslash, Eb|].
      intros x' y' E L. rewrite rev_length in L. exact (N x' y' E L).
Qed.
Lemma find_colon_stuck label : stuck label -> find_colon [] label = Diverge.
Proof. intros (y & Y & ->). cbn. destruct y; [congruence|reflexivity]. Qed.
Lemma find_colon_whole label : ~ stuck label ->
  match find_colon [] label with
  | Ok (Some (x, y)) => two_symbols label x y
  | Ok None => forall x y, label = x ++ colon :: y -> y <> [] -> ~ separates x
  | _ => False
  end.
Proof. intros S. apply (find_colon_spec label []); [intros x y _ L; cbn in L; lia|exact S]. Qed.
Lemma two_symbols_unique label x y x' y' : two_symbols label x y -> two_symbols label x' y' -> x = x' /\ y = y'.
Proof.
  intros (E & _ & S & M) (E' & _ & S' & M').
  assert (L : length x = length x').
  { destruct (Nat.lt_trichotomy (length x) (length x')) as [H|[H|H]]; [exfalso; exact (M' _ _ E H S)|exact H|exfalso; exact (M _ _ E' H S')]. }
  rewrite E in E'. assert (A : forall (u v s t : bstr), length u = length v -> u ++ s = v ++ t -> u = v /\ s = t).
  { clear. induction u as [|a u IH]; intros [|b v] s t Q E; try discriminate; [auto|]. cbn in *. injection E as -> E. injection Q as Q. destruct (IH v s t Q E). subst. auto. }
  destruct (A _ _ _ _ L E') as [-> Q]. injection Q as ->. auto.
Qed.
Lemma from_zero_spec x s : from_zero x = s <-> symbol_of x s.
Proof.
  unfold from_zero, symbol_of. change (B "@_EPSILON_SYMBOL_@") with EPS. destruct (bstr_eqb x (B "@0@")) eqn:E.
  - apply bstr_eqb_eq in E. split; [intros <-; auto|intros [[_ ->]|[N _]]; [reflexivity|contradiction]].
  - apply bstr_eqb_neq in E. split; [intros <-; auto|intros [[N _]|[_ ->]]; [contradiction|reflexivity]].
Qed.

(** * Insertion *)
Lemma visible_app l m : visible (l ++ m) = visible l ++ visible m.
Proof. apply filter_app. Qed.
Lemma inserted_visible i o l l' u : inserted_path (padded (pair_fst i o)) l l' u -> u = 0%Z /\ exists m, with_copies (i, o) (visible l) m /\ visible l' = visible m.
Proof.
  induction 1 as [|q l l' w H (-> & m & C & E)|k v l l' w (k0 & A & ->) H (-> & m & C & E)].
  - split; [reflexivity|]. exists []. split; [constructor|reflexivity].
  - split; [reflexivity|]. unfold visible in *. cbn [filter]. destruct (silent q) eqn:Q; cbn [negb].
    + exists m. auto.
    + exists (q :: m). split; [constructor; exact C|]. cbn [filter]. rewrite Q. cbn [negb]. rewrite E. reflexivity.
  - apply pair_accepts in A. destruct A as [-> ->]. split; [reflexivity|]. exists ((i, o) :: m). split; [constructor; exact C|].
    rewrite visible_app. cbn [app]. unfold visible at 1. cbn [filter]. unfold visible in *. cbn [filter]. destruct (silent (i, o)); cbn; rewrite E; reflexivity.
Qed.
Lemma copies_inserted i o l : forall m, with_copies (i, o) (visible l) m -> exists l', inserted_path (padded (pair_fst i o)) l l' 0 /\ visible l' = visible m.
Proof.
  intros m H. remember (visible l) as k eqn:K. revert l K. induction H as [|q k m H IH|k m H IH]; intros l K.
  - induction l as [|q l IHl]; [exists []; split; [constructor|reflexivity]|]. unfold visible in K. cbn [filter] in K. destruct (silent q) eqn:Q; cbn [negb] in K; [|discriminate].
    destruct (IHl K) as (l' & I & E). exists (q :: l'). split; [constructor; exact I|]. unfold visible in *. cbn [filter]. rewrite Q. exact E.
  - induction l as [|r l IHl]; [discriminate|]. unfold visible in K. cbn [filter] in K. destruct (silent r) eqn:Q; cbn [negb] in K.
    + destruct (IHl K) as (l' & I & E). exists (r :: l'). split; [constructor; exact I|]. unfold visible in *. cbn [filter]. rewrite Q. exact E.
    + injection K as -> K. destruct (IH l K) as (l' & I & E). exists (r :: l'). split; [constructor; exact I|]. unfold visible in *. cbn [filter]. rewrite E. reflexivity.
  - destruct (IH l K) as (l' & I & E). exists (((EPS, EPS) :: [(i, o)] ++ [(EPS, EPS)]) ++ l'). split.
    + change 0%Z with (0 + 0)%Z. apply ins_more; [|exact I]. exists [(i, o)]. split; [apply pair_accepts; auto|reflexivity].
    + rewrite visible_app. unfold visible in *. cbn [filter app]. destruct (silent (i, o)); cbn; rewrite E; reflexivity.
Qed.
