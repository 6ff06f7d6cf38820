(** Common definitions: byte strings, ordered association lists (std::map),
    ordered lists (std::set), list helpers.  No HFST code is modelled here. *)
From Coq Require Export String Ascii List Arith ZArith Lia Bool.
From Coq Require Import Sorted Permutation.
Export ListNotations.
Open Scope list_scope.

(** std::string: a finite sequence of bytes. *)
Definition bstr := list ascii.
Definition B (s : string) : bstr := list_ascii_of_string s.
Arguments B s%string_scope.

Fixpoint bstr_eqb (x y : bstr) : bool :=
  match x, y with
  | [], [] => true
  | a :: x', c :: y' => Ascii.eqb a c && bstr_eqb x' y'
  | _, _ => false
  end.

Lemma bstr_eqb_spec x y : reflect (x = y) (bstr_eqb x y).
Proof.
  revert y; induction x as [|a x IH]; intros [|c y]; simpl; try (constructor; congruence).
  destruct (Ascii.eqb_spec a c) as [->|N]; simpl.
  - destruct (IH y) as [->|N]; constructor; congruence.
  - constructor; congruence.
Qed.

Lemma bstr_eqb_refl x : bstr_eqb x x = true.
Proof. destruct (bstr_eqb_spec x x); congruence. Qed.

Lemma bstr_eqb_eq x y : bstr_eqb x y = true <-> x = y.
Proof. destruct (bstr_eqb_spec x y); split; congruence. Qed.

Lemma bstr_eqb_neq x y : bstr_eqb x y = false <-> x <> y.
Proof. destruct (bstr_eqb_spec x y); split; congruence. Qed.

Definition bstr_eq_dec (x y : bstr) : {x = y} + {x <> y} := list_eq_dec ascii_dec x y.

(** Byte order used by std::string comparison (unsigned char). *)
Definition acmp (a c : ascii) : comparison := N.compare (N_of_ascii a) (N_of_ascii c).

Fixpoint bcmp (x y : bstr) : comparison :=
  match x, y with
  | [], [] => Eq
  | [], _ :: _ => Lt
  | _ :: _, [] => Gt
  | a :: x', c :: y' =>
      match acmp a c with Eq => bcmp x' y' | r => r end
  end.

Lemma acmp_eq a c : acmp a c = Eq <-> a = c.
Proof.
  unfold acmp. rewrite N.compare_eq_iff. split; [|congruence].
  intros H. rewrite <- (ascii_N_embedding a), <- (ascii_N_embedding c). congruence.
Qed.

Lemma bcmp_eq x y : bcmp x y = Eq <-> x = y.
Proof.
  revert y; induction x as [|a x IH]; intros [|c y]; simpl; split; try congruence; try discriminate.
  - destruct (acmp a c) eqn:E; try discriminate. apply acmp_eq in E. intros H. apply IH in H. congruence.
  - intros H. injection H as -> ->. rewrite (proj2 (acmp_eq c c) eq_refl). apply IH. reflexivity.
Qed.

(** * Ordered association lists: std::map *)
Section OMap.
  Context {K V : Type} (cmp : K -> K -> comparison).

  Fixpoint mget (k : K) (m : list (K * V)) : option V :=
    match m with
    | [] => None
    | (k', v) :: r => match cmp k k' with Eq => Some v | _ => mget k r end
    end.

  Fixpoint mset (k : K) (v : V) (m : list (K * V)) : list (K * V) :=
    match m with
    | [] => [(k, v)]
    | (k', v') :: r =>
        match cmp k k' with
        | Eq => (k, v) :: r
        | Lt => (k, v) :: (k', v') :: r
        | Gt => (k', v') :: mset k v r
        end
    end.

  Fixpoint mdel (k : K) (m : list (K * V)) : list (K * V) :=
    match m with
    | [] => []
    | (k', v') :: r => match cmp k k' with Eq => mdel k r | _ => (k', v') :: mdel k r end
    end.

  Hypothesis Hcmp : forall x y, cmp x y = Eq <-> x = y.

  Lemma cmp_refl x : cmp x x = Eq.
  Proof. apply Hcmp; reflexivity. Qed.

  Lemma mget_mset_same k v m : mget k (mset k v m) = Some v.
  Proof.
    induction m as [|[k' v'] r IH]; simpl; [rewrite cmp_refl; reflexivity|].
    destruct (cmp k k') eqn:E; simpl; rewrite ?cmp_refl; try reflexivity.
    rewrite E. exact IH.
  Qed.

  Lemma mget_mset_other k k2 v m : k2 <> k -> mget k2 (mset k v m) = mget k2 m.
  Proof.
    intros N. induction m as [|[k' v'] r IH]; simpl.
    - destruct (cmp k2 k) eqn:E; try reflexivity. apply Hcmp in E. congruence.
    - destruct (cmp k k') eqn:E; simpl.
      + apply Hcmp in E; subst k'. destruct (cmp k2 k) eqn:E2; try reflexivity.
        apply Hcmp in E2. congruence.
      + destruct (cmp k2 k) eqn:E2; try reflexivity. apply Hcmp in E2. congruence.
      + destruct (cmp k2 k'); try reflexivity; exact IH.
  Qed.

  Lemma mget_mdel_same k m : mget k (mdel k m) = None.
  Proof.
    induction m as [|[k' v'] r IH]; simpl; [reflexivity|].
    destruct (cmp k k') eqn:E; simpl; try rewrite E; exact IH.
  Qed.

  Lemma mget_mdel_other k k2 m : k2 <> k -> mget k2 (mdel k m) = mget k2 m.
  Proof.
    intros N. induction m as [|[k' v'] r IH]; simpl; [reflexivity|].
    destruct (cmp k k') eqn:E; simpl.
    - apply Hcmp in E; subst k'. rewrite IH. destruct (cmp k2 k) eqn:E2; try reflexivity.
      apply Hcmp in E2. congruence.
    - destruct (cmp k2 k'); try reflexivity; exact IH.
    - destruct (cmp k2 k'); try reflexivity; exact IH.
  Qed.

  Lemma mget_In k v m : mget k m = Some v -> In (k, v) m.
  Proof.
    induction m as [|[k' v'] r IH]; simpl; [discriminate|].
    destruct (cmp k k') eqn:E; intros H.
    - apply Hcmp in E. left. congruence.
    - right; auto.
    - right; auto.
  Qed.

  Lemma mget_None_notin k m : mget k m = None -> forall v, ~ In (k, v) m.
  Proof.
    induction m as [|[k' v'] r IH]; simpl; [tauto|].
    destruct (cmp k k') eqn:E; intros H v [Hin|Hin]; try discriminate;
      try (eapply IH; eassumption).
    all: injection Hin as -> ->; rewrite cmp_refl in E; discriminate.
  Qed.

  Lemma In_mset k v m x : In x (mset k v m) -> x = (k, v) \/ In x m.
  Proof.
    induction m as [|[k' v'] r IH]; simpl; [intuition|].
    destruct (cmp k k'); simpl; intuition.
  Qed.
End OMap.

(** * Ordered duplicate-free lists: std::set *)
Section OSet.
  Context {K : Type} (cmp : K -> K -> comparison).

  Fixpoint smem (k : K) (s : list K) : bool :=
    match s with
    | [] => false
    | k' :: r => match cmp k k' with Eq => true | _ => smem k r end
    end.

  Fixpoint sadd (k : K) (s : list K) : list K :=
    match s with
    | [] => [k]
    | k' :: r =>
        match cmp k k' with
        | Eq => k' :: r
        | Lt => k :: k' :: r
        | Gt => k' :: sadd k r
        end
    end.

  Fixpoint sdel (k : K) (s : list K) : list K :=
    match s with
    | [] => []
    | k' :: r => match cmp k k' with Eq => sdel k r | _ => k' :: sdel k r end
    end.

  Hypothesis Hcmp : forall x y, cmp x y = Eq <-> x = y.

  Lemma smem_In k s : smem k s = true <-> In k s.
  Proof.
    induction s as [|k' r IH]; simpl; [split; [discriminate|tauto]|].
    destruct (cmp k k') eqn:E.
    - apply Hcmp in E. subst; tauto.
    - rewrite IH. split; [tauto|]. intros [->|H]; [|exact H].
      rewrite (proj2 (Hcmp k k) eq_refl) in E; discriminate.
    - rewrite IH. split; [tauto|]. intros [->|H]; [|exact H].
      rewrite (proj2 (Hcmp k k) eq_refl) in E; discriminate.
  Qed.

  Lemma In_sadd x k s : In x (sadd k s) <-> x = k \/ In x s.
  Proof.
    induction s as [|k' r IH]; simpl; [intuition|].
    destruct (cmp k k') eqn:E; simpl.
    - apply Hcmp in E. subst. intuition.
    - intuition.
    - rewrite IH. intuition.
  Qed.

  Lemma In_sdel x k s : In x (sdel k s) <-> x <> k /\ In x s.
  Proof.
    induction s as [|k' r IH]; simpl; [tauto|].
    destruct (cmp k k') eqn:E; simpl.
    - apply Hcmp in E; subst. rewrite IH. split; [tauto|]. intros [N [H|H]]; [congruence|tauto].
    - rewrite IH. split.
      + intros [->|H]; [|tauto]. split; [|tauto]. intros ->.
        rewrite (proj2 (Hcmp k k) eq_refl) in E; discriminate.
      + tauto.
    - rewrite IH. split.
      + intros [->|H]; [|tauto]. split; [|tauto]. intros ->.
        rewrite (proj2 (Hcmp k k) eq_refl) in E; discriminate.
      + tauto.
  Qed.
End OSet.

(** * List helpers *)
Fixpoint upd {A} (n : nat) (x : A) (l : list A) : list A :=
  match l, n with
  | [], _ => []
  | _ :: r, 0 => x :: r
  | y :: r, S n' => y :: upd n' x r
  end.

Lemma upd_length {A} n (x : A) (l : list A) : length (upd n x l) = length l.
Proof. revert n; induction l as [|y r IH]; intros [|n]; simpl; auto. Qed.

Lemma nth_error_upd_same {A} n (x : A) l : n < length l -> nth_error (upd n x l) n = Some x.
Proof. revert n; induction l as [|y r IH]; intros [|n] H; simpl in *; try lia; auto. apply IH; lia. Qed.

Lemma nth_error_upd_other {A} n m (x : A) l : m <> n -> nth_error (upd n x l) m = nth_error l m.
Proof.
  revert n m; induction l as [|y r IH]; intros [|n] [|m] H; simpl; auto; try congruence.
Qed.

Lemma nth_upd_same {A} n (x d : A) l : n < length l -> nth n (upd n x l) d = x.
Proof. revert n; induction l as [|y r IH]; intros [|n] H; simpl in *; try lia; auto. apply IH; lia. Qed.

Lemma nth_upd_other {A} n m (x d : A) l : m <> n -> nth m (upd n x l) d = nth m l d.
Proof.
  revert n m; induction l as [|y r IH]; intros [|n] [|m] H; simpl; auto; try congruence.
Qed.

Lemma upd_out {A} n (x : A) l : length l <= n -> upd n x l = l.
Proof. revert n; induction l as [|y r IH]; intros [|n] H; simpl in *; try lia; auto. f_equal; apply IH; lia. Qed.

(** Is [p] a prefix of [s]? *)
Fixpoint is_prefix (p s : bstr) : bool :=
  match p, s with
  | [], _ => true
  | a :: p', c :: s' => Ascii.eqb a c && is_prefix p' s'
  | _ :: _, [] => false
  end.

Lemma is_prefix_spec p s : is_prefix p s = true <-> exists r, s = p ++ r.
Proof.
  revert s; induction p as [|a p IH]; intros s; simpl.
  - split; [exists s; reflexivity|reflexivity].
  - destruct s as [|c s].
    + split; [discriminate|intros [r H]; discriminate].
    + rewrite andb_true_iff, IH. split.
      * intros [E [r ->]]. apply Ascii.eqb_eq in E. subst. exists r; reflexivity.
      * intros [r H]. injection H as -> ->. split; [apply Ascii.eqb_refl|exists r; reflexivity].
Qed.

Lemma is_prefix_app p r : is_prefix p (p ++ r) = true.
Proof. apply is_prefix_spec. exists r; reflexivity. Qed.

Lemma is_prefix_skipn p s : is_prefix p s = true -> s = p ++ skipn (length p) s.
Proof.
  intros H. apply is_prefix_spec in H. destruct H as [r ->].
  rewrite skipn_app, skipn_all, Nat.sub_diag. reflexivity.
Qed.

(** * Outcomes: a value, a C++ exception, undefined behaviour, non-termination. *)
Inductive res (A : Type) := Ok (a : A) | Throw | Ub | Diverge.
Arguments Ok {A} a. Arguments Throw {A}. Arguments Ub {A}. Arguments Diverge {A}.
Definition rbind {A C} (r : res A) (f : A -> res C) : res C :=
  match r with Ok a => f a | Throw => Throw | Ub => Ub | Diverge => Diverge end.
Definition rmap {A C} (f : A -> C) (r : res A) : res C :=
  match r with Ok a => Ok (f a) | Throw => Throw | Ub => Ub | Diverge => Diverge end.

(** std::string(const char* p) and c_str(): the bytes before the first NUL. *)
Definition no_nul (s : bstr) : Prop := ~ In "000"%char s.
