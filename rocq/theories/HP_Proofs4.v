(** The text of the tokens. *)
From Verif Require Import Base HP_Model HP_Spec HP_Proofs HP_Proofs2 HP_Proofs3.
From Coq Require Import Lia NArith.

(** * The trie *)
Fixpoint trie_get (t : trie) (y : bstr) : option nat :=
  match y with
  | [] => None
  | [c] => aget c (symbols t)
  | c :: r => match aget c (letters t) with Some u => trie_get u r | None => None end
  end.
Fixpoint trie_sub (t : trie) (y : bstr) : option trie :=
  match y with
  | [] => Some t
  | c :: r => match aget c (letters t) with Some u => trie_sub u r | None => None end
  end.
Lemma aget_mset {V} c d (v : V) m : aget c (mset acmp d v m) = if Ascii.eqb c d then Some v else aget c m.
Proof.
  unfold aget. destruct (Ascii.eqb_spec c d) as [->|N]; [apply mget_mset_same, acmp_eq|]. apply mget_mset_other; auto. apply acmp_eq.
Qed.
Lemma trie_get_empty y : trie_get (Trie [] []) y = None.
Proof. destruct y as [|c [|d y]]; reflexivity. Qed.
Lemma trie_sub_empty y u : trie_sub (Trie [] []) y = Some u -> y = [].
Proof. destruct y as [|c y]; [auto|discriminate]. Qed.
Lemma add_string_cons c d p key t : add_string (c :: d :: p) key t =
  Trie (mset acmp c (add_string (d :: p) key (match aget c (letters t) with Some u => u | None => Trie [] [] end)) (letters t)) (symbols t).
Proof. reflexivity. Qed.
Lemma trie_get_cons c d y t : trie_get t (c :: d :: y) = match aget c (letters t) with Some u => trie_get u (d :: y) | None => None end.
Proof. reflexivity. Qed.
Lemma trie_get_add p key : forall t y, p <> [] -> trie_get (add_string p key t) y = if bstr_eqb y p then Some key else trie_get t y.
Proof.
  induction p as [|c p IH]; intros t y N; [congruence|]. destruct p as [|d p].
  - destruct y as [|c' [|d' y]]; simpl; [reflexivity| |].
    + rewrite aget_mset, andb_true_r. reflexivity.
    + rewrite andb_false_r. reflexivity.
  - rewrite add_string_cons. destruct y as [|c' [|d' y]]; [reflexivity|simpl; rewrite andb_false_r; reflexivity|].
    rewrite !trie_get_cons. cbn [letters]. rewrite aget_mset. cbn [bstr_eqb].
    destruct (Ascii.eqb_spec c' c) as [->|Nc]; cbn [andb].
    + rewrite IH by discriminate. cbn [bstr_eqb]. destruct (aget c (letters t)); [reflexivity|].
      rewrite trie_get_empty. reflexivity.
    + reflexivity.
Qed.
(** Every node has symbols below. *)
Definition live (t : trie) : Prop := forall y u, trie_sub t y = Some u -> y <> [] -> exists v, v <> [] /\ trie_get t (y ++ v) <> None.
Lemma trie_sub_add p key : forall t y u, trie_sub (add_string p key t) y = Some u ->
  (exists v, v <> [] /\ p = y ++ v) \/ exists u', trie_sub t y = Some u'.
Proof.
  induction p as [|c p IH]; intros t y u E; [right; eauto|]. destruct p as [|d p].
  - destruct y as [|c' y]; [right; simpl; eauto|]. right. simpl in E |- *. destruct (aget c' (letters t)); [eauto|discriminate].
  - rewrite add_string_cons in E. destruct y as [|c' y]; [right; simpl; eauto|]. cbn [trie_sub letters] in E |- *. rewrite aget_mset in E.
    destruct (Ascii.eqb_spec c' c) as [->|Nc].
    + destruct (IH _ _ _ E) as [(v & Nv & ->)|(u' & Eu)]; [left; exists v; auto|].
      destruct (aget c (letters t)); [right; eauto|]. apply trie_sub_empty in Eu. subst y. left. exists (d :: p). split; [discriminate|reflexivity].
    + right. eauto.
Qed.
Lemma live_add p key t : p <> [] -> live t -> live (add_string p key t).
Proof.
  intros N L y u E Ny. destruct (trie_sub_add _ _ _ _ _ E) as [(v & Nv & ->)|(u' & Eu)].
  - exists v. split; auto. rewrite trie_get_add, bstr_eqb_refl by auto. discriminate.
  - destruct (L _ _ Eu Ny) as (v & Nv & G). exists v. split; auto. rewrite trie_get_add by auto. destruct (bstr_eqb _ _); [discriminate|exact G].
Qed.
Lemma trie_extract_spec : forall s t k r, trie_extract t s = Ok (k, r) ->
  match k with
  | None => r = s
  | Some k => (exists y, s = y ++ r /\ trie_get t y = Some k) \/ (k = 0 /\ r = [] /\ exists u, trie_sub t s = Some u)
  end.
Proof.
  induction s as [|c s IH]; intros t k r E.
  { injection E as <- <-. right. simpl. eauto. }
  cbn [trie_extract] in E. destruct (Ascii.eqb c byte255); [discriminate|].
  assert (forall r', r' = s -> match aget c (symbols t) with Some k => Ok (Some k, r') | None => Ok (None, c :: r') end = Ok (k, r) ->
    match k with None => r = c :: s | Some k => (exists y, c :: s = y ++ r /\ trie_get t y = Some k) \/ (k = 0 /\ r = [] /\ exists u, trie_sub t (c :: s) = Some u) end) as Here.
  { intros r' -> H. destruct (aget c (symbols t)) eqn:As; injection H as <- <-; [|reflexivity]. left. exists [c]. auto. }
  destruct (aget c (letters t)) as [u|] eqn:Al; [|apply (Here s eq_refl E)].
  destruct (trie_extract u s) as [[k' r']| | |] eqn:Ex; try discriminate. cbn [rbind] in E. specialize (IH _ _ _ Ex).
  destruct k' as [k'|]; [|apply (Here r' IH E)].
  injection E as <- <-. destruct IH as [(y & -> & G)|(-> & -> & u' & S)].
  - left. exists (c :: y). split; auto. destruct y; [discriminate|]. rewrite trie_get_cons, Al. exact G.
  - right. repeat split; auto. cbn [trie_sub]. rewrite Al. eauto.
Qed.

(** * The symbolizer *)
Record built (z : symbolizer) (names : list bstr) : Prop := {
  b_count : symbol_count z = length names; b_live : live (strie z);
  b_trie : forall y k, trie_get (strie z) y = Some k -> nth_error names k = Some y /\ y <> [];
  b_ascii : forall c k, aget c (ascii_symbols z) = Some (S k) -> nth_error names (S k) = Some [c] }.
Lemma nth_error_snoc {A} (l : list A) x k y : nth_error l k = Some y -> nth_error (l ++ [x]) k = Some y.
Proof. intros E. rewrite nth_error_app1; auto. apply nth_error_Some. congruence. Qed.
Lemma nth_error_end {A} (l : list A) x : nth_error (l ++ [x]) (length l) = Some x.
Proof. rewrite nth_error_app2, Nat.sub_diag by lia. reflexivity. Qed.
Lemma built_symbols names : built (add_symbols names) names.
Proof.
  induction names as [|p names IH] using rev_ind.
  { constructor; simpl; auto.
    - intros y u E N. apply trie_sub_empty in E. congruence.
    - intros y k. rewrite trie_get_empty. discriminate.
    - discriminate. }
  unfold add_symbols. rewrite fold_left_app. cbn [fold_left]. fold (add_symbols names). set (z := add_symbols names) in *.
  destruct IH as [C L T A]. unfold add_symbol. destruct p as [|c p].
  - constructor; cbn [symbol_count strie ascii_symbols]; auto.
    + rewrite app_length. simpl. lia.
    + intros y k E. destruct (T y k E). split; auto using nth_error_snoc.
    + intros d k E. apply nth_error_snoc. auto.
  - constructor; cbn [symbol_count strie ascii_symbols].
    + rewrite app_length. simpl. lia.
    + apply live_add; auto. discriminate.
    + intros y k. rewrite trie_get_add by discriminate. destruct (bstr_eqb_spec y (c :: p)) as [->|].
      * intros Eq. injection Eq as <-. rewrite C. split; [apply nth_error_end|discriminate].
      * intros E. destruct (T y k E). split; auto using nth_error_snoc.
    + intros d k E. assert (aget d (mset acmp c (match p with [] => symbol_count z | _ => 0 end) (ascii_symbols z)) = Some (S k) \/ aget d (ascii_symbols z) = Some (S k)) as [H|H].
      { destruct (aget c (ascii_symbols z)) as [[|q]|]; auto. }
      * rewrite aget_mset in H. destruct (Ascii.eqb_spec d c) as [->|].
        -- destruct p; [|discriminate]. injection H as H. rewrite <- H, C. apply nth_error_end.
        -- apply nth_error_snoc. auto.
      * apply nth_error_snoc. auto.
Qed.
(** What is extracted: a symbol, nothing, or the end in the middle of a symbol. *)
Lemma extract_symbol_spec names s k r : extract_symbol (add_symbols names) s = Ok (k, r) ->
  match k with
  | None => r = s
  | Some k => (exists y, s = y ++ r /\ nth_error names k = Some y /\ y <> []) \/
              (k = 0 /\ s <> [] /\ exists v, v <> [] /\ In (s ++ v) names)
  end.
Proof.
  destruct (built_symbols names) as [_ L T A]. intros E. destruct s as [|c s]; [discriminate|]. cbn [extract_symbol] in E.
  destruct (Ascii.eqb c NUL). { injection E as <- <-. reflexivity. }
  destruct (Ascii.eqb c byte255); [discriminate|].
  destruct (aget c (ascii_symbols (add_symbols names))) as [[|q]|] eqn:Ea.
  2:{ injection E as <- <-. left. exists [c]. split; [reflexivity|]. split; [apply A, Ea|discriminate]. }
  all: apply trie_extract_spec in E; destruct k as [k|]; [|exact E].
  all: destruct E as [(y & -> & G)|(-> & -> & u & S)]; [left; exists y; destruct (T _ _ G); auto|].
  all: right; split; [reflexivity|]; split; [discriminate|]; destruct (L _ _ S ltac:(discriminate)) as (v & Nv & G); exists v; split; auto.
  all: destruct (trie_get _ _) as [q|] eqn:Eq; [|congruence]; destruct (T _ _ Eq) as [N _]; eapply nth_error_In, N.
Qed.
