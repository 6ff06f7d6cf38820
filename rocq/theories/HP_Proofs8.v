(** A text with a reserved character is never analysed to the end. *)
From Verif Require Import Base HP_Model HP_Spec HP_Proofs HP_Proofs7.
From Coq Require Import Lia.

Section Reserved.
  Variables (g : config) (M : machine) (F : formatter) (ts : list token) (rest : bstr) (i : nat) (c : ascii).
  Hypothesis no_none : ~ In TNone ts.
  Hypothesis short : length ts < 1024.
  Hypothesis res_at : nth_error ts i = Some (TRes c).
  Notation z := 1024.
  Lemma i_lt : i < length ts. Proof using res_at. apply nth_error_Some. rewrite res_at. discriminate. Qed.
  Lemma next x p l : stream_at g z ts rest x p l -> p <= i ->
    exists t x', nth_error ts p = Some t /\ t <> TNone /\ get_token g x = Ok (t, x') /\ stream_at g z ts rest x' (S p) (max l (S p)).
  Proof using no_none short res_at.
    intros S P. pose proof i_lt. destruct (get_token_some g z ts rest no_none x p l S ltac:(lia)) as (t & x' & E & N & G & S' & _). eauto 8.
  Qed.
  Lemma back x p l k : stream_at g z ts rest x p l -> k < p -> exists x', move_back x k = Ok x' /\ stream_at g z ts rest x' (p - k) l.
  Proof using short.
    intros S K. pose proof (r_len _ _ _ _ _ (proj1 S)). destruct (move_back_at g z ts rest x p l k S K ltac:(lia)) as (x' & E & S' & _). eauto.
  Qed.
  Lemma gather_back f : forall x t surface p l x' surface', stream_at g z ts rest x p l -> p <= i -> length surface < p ->
    gather g f x t surface = Ok (x', surface') ->
    exists p' l', stream_at g z ts rest x' p' l' /\ 1 < p' <= S i /\ length surface' < p'.
  Proof using no_none short res_at.
    induction f as [|f IH]; intros x t surface p l x' surface' S P L E; cbn [gather] in E; [discriminate|].
    destruct (next x p l S P) as (u & y & Eu & Nu & G & S'). rewrite G in E. cbn [rbind] in E.
    assert (L' : length (surface ++ [t]) < Datatypes.S p) by (rewrite app_length; simpl; lia).
    destruct (Nat.eq_dec p i) as [->|Np].
    - rewrite res_at in Eu. injection Eu as <-. cbv [is_alphabetic to_symbol] in E. injection E as <- <-. exists (Datatypes.S i), (max l (Datatypes.S i)). (split; [exact S'|lia]).
    - assert (D : (exists p' l', stream_at g z ts rest y p' l' /\ 1 < p' <= Datatypes.S i /\ length (surface ++ [t]) < p')) by (exists (Datatypes.S p), (max l (Datatypes.S p)); (split; [exact S'|lia])).
      assert (K : forall b : bool, (if b then gather g f y u (surface ++ [t]) else Ok (y, surface ++ [t])) = Ok (x', surface') ->
        exists p' l', stream_at g z ts rest x' p' l' /\ 1 < p' <= Datatypes.S i /\ length surface' < p').
      { intros [|] E'; [apply (IH _ _ _ _ _ _ _ S' ltac:(lia) L' E')|injection E' as <- <-; exact D]. }
      apply (K (is_alphabetic (alph g) u)). destruct u; try congruence; exact E.
  Qed.
  Lemma word_back f x t loc surface found p l x' : stream_at g z ts rest x p l -> 0 < p <= i -> length surface < p -> (found <> [] -> 1 <= loc < p) ->
    end_of_word g F f x t loc surface found = Ok x' -> exists p' l', stream_at g z ts rest x' p' l' /\ p' <= i.
  Proof using no_none short res_at.
    intros S P L Lo E. unfold end_of_word in E. destruct ((length surface =? 0) && negb (is_alphabetic (alph g) t)) eqn:Q.
    - injection E as <-. exists p, l. split; [|lia]. destruct (preserve_nonalphabetic F); [apply put_at|]; exact S.
    - assert (Un : forall (b : bool) (y : res io), (if b then
          rbind (if is_alphabetic (alph g) t then rbind (gather g f x t surface) (fun '(x, surface) => rmap (fun x => (x, surface)) (move_back x 1)) else Ok (x, surface)) (fun '(x, surface) =>
          match surface with [] => Ub | v :: _ => if negb (is_alphabetic (alph g) v) then move_back (if preserve_nonalphabetic F then put (token_to_string g v) x else x) (length surface - 1)
            else move_back (put (print_unknown_word F surface) x) (if is_alphabetic (alph g) t then 0 else 1) end)
        else y) = Ok x' -> (b = true /\ exists p' l', stream_at g z ts rest x' p' l' /\ p' <= i) \/ (b = false /\ y = Ok x')).
      { intros [|] y E'; [left; split; [reflexivity|]|right; auto]. destruct (is_alphabetic (alph g) t) eqn:At.
        - destruct (gather g f x t surface) as [[y1 s1]| | |] eqn:Ga; try discriminate. cbn [rbind] in E'. destruct (gather_back f x t surface p l y1 s1 S ltac:(lia) ltac:(lia) Ga) as (p1 & l1 & S1 & P1 & L1).
          destruct (back y1 p1 l1 1 S1 ltac:(lia)) as (y2 & B2 & S2). rewrite B2 in E'. cbn [rmap rbind] in E'. destruct s1 as [|v s1]; [discriminate|].
          destruct (negb (is_alphabetic (alph g) v)).
          + assert (S3 : stream_at g z ts rest (if preserve_nonalphabetic F then put (token_to_string g v) y2 else y2) (p1 - 1) l1) by (destruct (preserve_nonalphabetic F); [apply put_at|]; exact S2).
            destruct (back _ _ _ (length (v :: s1) - 1) S3 ltac:(lia)) as (y3 & B3 & S4). rewrite B3 in E'. injection E' as <-. exists (p1 - 1 - (length (v :: s1) - 1)), l1. split; [exact S4|lia].
          + destruct (back _ _ _ 0 (put_at g z ts rest y2 _ _ (print_unknown_word F (v :: s1)) S2) ltac:(lia)) as (y3 & B3 & S4). rewrite B3 in E'. injection E' as <-. exists (p1 - 1 - 0), l1. split; [exact S4|lia].
        - cbn [rbind] in E'. destruct surface as [|v s1]; [discriminate|]. destruct (negb (is_alphabetic (alph g) v)).
          + assert (S3 : stream_at g z ts rest (if preserve_nonalphabetic F then put (token_to_string g v) x else x) p l) by (destruct (preserve_nonalphabetic F); [apply put_at|]; exact S).
            destruct (back _ _ _ (length (v :: s1) - 1) S3 ltac:(lia)) as (y3 & B3 & S4). rewrite B3 in E'. injection E' as <-. exists (p - (length (v :: s1) - 1)), l. split; [exact S4|lia].
          + cbn [length] in L. destruct (back _ _ _ 1 (put_at g z ts rest x _ _ (print_unknown_word F (v :: s1)) S) ltac:(lia)) as (y3 & B3 & S4). rewrite B3 in E'. injection E' as <-. exists (p - 1), l. split; [exact S4|lia]. }
      match type of E with rbind ?m _ = _ => destruct m as [b| | |] eqn:Em; try discriminate end. cbn [rbind] in E.
      apply Un in E. destruct E as [[_ E]|[-> E]]; [exact E|]. destruct found as [|a0 found]; [discriminate|]. specialize (Lo ltac:(discriminate)).
      assert (D : b_diff_prev (tb x) (loc + 1) = p - Datatypes.S loc).
      { pose proof (r_len _ _ _ _ _ (proj1 S)). pose proof (r_le _ _ _ _ _ (proj1 S)). rewrite <- (ring_diff _ _ _ _ _ loc (proj1 S)) by lia. rewrite Nat.mod_small by lia. reflexivity. }
      rewrite D in E. destruct (length surface <? p - Datatypes.S loc); [discriminate|].
      destruct (back _ _ _ (p - Datatypes.S loc + 1) (put_at g z ts rest x _ _ (print_word F (firstn (length surface - (p - Datatypes.S loc)) surface) (a0 :: found)) S) ltac:(lia)) as (y3 & B3 & S4).
      rewrite B3 in E. injection E as <-. exists (p - (p - Datatypes.S loc + 1)), l. split; [exact S4|lia].
  Qed.
  Lemma reserved_run f : forall x st loc surface found p l o, stream_at g z ts rest x p l -> p <= i -> length surface <= p -> (found <> [] -> 1 <= loc < p) ->
    analysis g M F f x st loc surface found <> Ok o.
  Proof using no_none short res_at.
    induction f as [|f IH]; intros x st loc surface found p l o S P L Lo E; cbn [analysis] in E; [discriminate|].
    destruct (next x p l S P) as (t & y & Et & Nt & G & S'). rewrite G in E. cbn [rbind] in E.
    destruct (Nat.eq_dec p i) as [->|Np]; [rewrite res_at in Et; injection Et as <-; discriminate|].
    assert (K : rbind (record_finals g M y st loc surface found) (fun '(loc, found) =>
        if is_active (mstep st (to_symbol (alph g) t)) then analysis g M F f y (mstep st (to_symbol (alph g) t)) loc (surface ++ [t]) found
        else rbind (end_of_word g F f y t loc surface found) (fun x => analysis g M F f x reset loc [] [])) = Ok o).
    { destruct t; try congruence; try exact E; discriminate. }
    clear E. destruct (record_finals g M y st loc surface found) as [[loc' found']| | |] eqn:Er; try discriminate. cbn [rbind] in K.
    assert (Lo' : found' <> [] -> 1 <= loc' < Datatypes.S p).
    { unfold record_finals in Er. destruct ((0 <? length surface) && is_final st); [|injection Er as <- <-; intros N; specialize (Lo N); lia].
      assert (Pos : get_pos y = Datatypes.S p).
      { unfold get_pos. pose proof (ring_pos _ _ _ _ _ (proj1 S')) as Rp. pose proof i_lt. rewrite Nat.mod_small in Rp by lia. rewrite (r_cur _ _ _ _ _ (proj1 S')) in *. cbn [rep] in *. lia. }
      rewrite Pos in Er. destruct (Datatypes.S p <? 2) eqn:Lt; [discriminate|]. apply Nat.ltb_ge in Lt.
      destruct (b_get (tb y) (Datatypes.S p - 2)) as [prev| | |]; try discriminate. cbn [rbind] in Er.
      match type of Er with rbind ?m _ = _ => destruct m as [[|]| | |]; try discriminate end; injection Er as <- <-; intros N; [lia|specialize (Lo N); lia]. }
    destruct (is_active (mstep st (to_symbol (alph g) t))).
    - apply (IH _ _ _ _ _ _ _ _ S' ltac:(lia)) in K; [exact K|rewrite app_length; simpl; lia|exact Lo'].
    - destruct (end_of_word g F f y t loc' surface found') as [y'| | |] eqn:Ew; try discriminate. cbn [rbind] in K.
      destruct (word_back f y t loc' surface found' (Datatypes.S p) _ y' S' ltac:(lia) ltac:(lia) Lo' Ew) as (p' & l' & S2 & P2).
      apply (IH _ _ _ _ _ _ _ _ S2 P2) in K; [exact K|simpl; lia|congruence].
  Qed.
End Reserved.
Theorem analyse_reserved g M F text ts rest c : reads g (IS text false) ts rest -> In (TRes c) ts -> length ts < 1024 ->
  forall f o, analyse g M F f text <> Ok o.
Proof.
  intros Rd I L f o. apply In_nth_error in I. destruct I as [i E].
  apply (reserved_run g M F ts rest i c (reads_none _ _ _ _ Rd) L E f _ _ _ _ _ 0 0 o (stream_start g ts rest text Rd)); simpl; try lia. congruence.
Qed.
