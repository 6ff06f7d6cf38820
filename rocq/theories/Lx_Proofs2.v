(** Proofs for lexc, part 2: what the calls of a session collect. *)
From Verif Require Import Base OrdMap BT_Model Tok_Model Tok_Spec Tok_Proofs Str_Model Str_Spec Str_Proofs2 Lx_Model Lx_Spec Lx_Proofs.

(** * Text *)
Definition ascii7 (b : ascii) : bool := match b with Ascii _ _ _ _ _ _ _ b7 => negb b7 end.
Lemma ascii_utf8 l : forallb ascii7 l = true -> utf8 l.
Proof.
  induction l as [|b l IH]; intros H; [apply utf8_nil|]. cbn [forallb] in H. apply andb_true_iff in H. destruct H as [H1 H2].
  apply (utf8_app [b] l); [|auto]. exists [[b]]. split; [|reflexivity]. constructor; [|constructor].
  destruct b as [b0 b1 b2 b3 b4 b5 b6 b7]. destruct b7; [discriminate|constructor].
Qed.
Lemma ascii_text l : forallb (fun b => ascii7 b && negb (Ascii.eqb b "000")) l = true -> text l.
Proof.
  intros H. rewrite forallb_forall in H. split.
  - apply ascii_utf8. apply forallb_forall. intros b Hb. specialize (H b Hb). apply andb_true_iff in H. tauto.
  - intros K. specialize (H _ K). discriminate.
Qed.
Lemma text_app a b : text a -> text b -> text (a ++ b).
Proof. intros [U1 N1] [U2 N2]. split; [apply utf8_app; assumption|]. intros K. apply in_app_or in K. tauto. Qed.
Lemma utf8_at_ascii cs : Forall utf8_char cs -> forall a x b, concat cs = a ++ x :: b -> ascii7 x = true -> utf8 a /\ utf8 b.
Proof.
  assert (CB : forall x, cont_byte x -> ascii7 x = false) by (intros x (b0 & b1 & b2 & b3 & b4 & b5 & ->); reflexivity).
  induction 1 as [|c cs Hc Hcs IH]; intros a x b E A; [destruct a; discriminate|]. cbn [concat] in E.
  assert (G : forall y r, utf8_char (y :: r) -> (y :: r) ++ concat cs = a ++ x :: b -> (Forall cont_byte r) -> (ascii7 y = true -> r = []) -> utf8 a /\ utf8 b).
  { intros y r Hy E' Cr A1. destruct a as [|y' a]; cbn [app] in E'; injection E' as -> E'.
    - rewrite (A1 A) in E'. cbn [app] in E'. split; [apply utf8_nil|]. exists cs. auto.
    - assert (Pr : exists a', a = r ++ a').
      { clear -E' Cr CB A. revert a E'. induction Cr as [|z r Hz Hr IH]; intros a E'; [exists a; reflexivity|]. cbn [app] in E'.
        destruct a as [|w a]; cbn [app] in E'; injection E' as -> E'; [rewrite (CB _ Hz) in A; discriminate|].
        destruct (IH a E') as [a' ->]. exists a'. reflexivity. }
      destruct Pr as [a' ->]. rewrite <- app_assoc in E'. apply app_inv_head in E'. destruct (IH a' x b E' A) as [U1 U2]. split; [|exact U2].
      change (utf8 ((y' :: r) ++ a')). apply utf8_app; [|exact U1]. exists [y' :: r]. split; [constructor; [exact Hy|constructor]|]. cbn [concat]. symmetry. apply app_nil_r. }
  inversion Hc; subst; apply (G _ _ Hc E); repeat (constructor; auto); try discriminate.
Qed.
Lemma utf8_split a x b : utf8 (a ++ x :: b) -> ascii7 x = true -> utf8 a /\ utf8 b.
Proof. intros (cs & H & E) A. exact (utf8_at_ascii cs H a x b (eq_sym E) A). Qed.

Lemma occurs_dec (n s : bstr) : occurs n s \/ ~ occurs n s.
Proof.
  induction s as [|a s IH].
  - destruct (bstr_eq_dec n []) as [->|N]; [left; exists [], []; reflexivity|].
    right. intros (a & b & E). destruct a; destruct n; cbn [app] in E; try discriminate. congruence.
  - destruct IH as [(x & y & E)|N]; [left; exists (a :: x), y; cbn [app]; rewrite E; reflexivity|].
    destruct (bstr_eq_dec (firstn (length n) (a :: s)) n) as [E|M].
    + left. exists [], (skipn (length n) (a :: s)). cbn [app]. rewrite <- E at 1. symmetry. apply firstn_skipn.
    + right. intros (x & y & E). destruct x as [|b x]; cbn [app] in E.
      * apply M. rewrite E, firstn_app, firstn_all, Nat.sub_diag. cbn [firstn]. apply app_nil_r.
      * injection E as _ E. apply N. exists x, y. exact E.
Qed.
(** The first occurrence. *)
Lemma occurs_first (n s : bstr) : occurs n s -> exists a b, s = a ++ n ++ b /\ forall a' b', s = a' ++ n ++ b' -> length a <= length a'.
Proof.
  induction s as [|c s IH]; intros H.
  - destruct H as (a & b & E). exists a, b. split; [exact E|]. intros a' b' E'. symmetry in E. apply app_eq_nil in E. destruct E as [-> _]. cbn. lia.
  - destruct (bstr_eq_dec (firstn (length n) (c :: s)) n) as [E|M].
    + exists [], (skipn (length n) (c :: s)). split; [|intros; cbn [length]; lia]. cbn [app]. rewrite <- E at 1. symmetry. apply firstn_skipn.
    + destruct (occurs_dec n s) as [H1|H1].
      * destruct (IH H1) as (a & b & E & Mn). exists (c :: a), b. split; [cbn [app]; rewrite E; reflexivity|].
        intros a' b' E'. destruct a' as [|c' a']; [|cbn [app] in E'; injection E' as _ E'; specialize (Mn _ _ E'); cbn [length]; lia].
        exfalso. apply M. cbn [app] in E'. rewrite E', firstn_app, firstn_all, Nat.sub_diag. cbn [firstn]. apply app_nil_r.
      * exfalso. destruct H as (x & y & E). destruct x as [|c' x]; cbn [app] in E.
        -- apply M. rewrite E, firstn_app, firstn_all, Nat.sub_diag. cbn [firstn]. apply app_nil_r.
        -- injection E as _ E. apply H1. exists x, y. exact E.
Qed.

Lemma replace_zero_cases t : (~ occurs ZERO t /\ replace_zero t = t) \/ (exists a b, t = a ++ ZERO ++ b /\ replace_zero t = a ++ B "0" ++ b /\
  forall a' b', t = a' ++ ZERO ++ b' -> length a <= length a').
Proof.
  destruct (occurs_dec ZERO t) as [H|H].
  - right. destruct (occurs_first _ _ H) as (a & b & -> & Mn). exists a, b. split; [reflexivity|]. split; [|exact Mn]. apply replace_zero_first. exact Mn.
  - left. split; [exact H|]. apply replace_zero_none. exact H.
Qed.
Lemma plain_replace t : plain t -> plain (replace_zero t).
Proof.
  intros [[U N] D]. destruct (replace_zero_cases t) as [[_ ->]|(a & b & -> & -> & _)]; [repeat split; assumption|].
  assert (Sub : forall x, In x (a ++ B "0" ++ b) -> x = "0"%char \/ In x (a ++ ZERO ++ b)).
  { intros x Hx. apply in_app_or in Hx. destruct Hx as [Hx|Hx]; [right; apply in_or_app; auto|]. cbn in Hx. destruct Hx as [<-|Hx]; [auto|].
    right. apply in_or_app. right. apply in_or_app. auto. }
  split; [split|].
  - change (a ++ ZERO ++ b) with (a ++ "@"%char :: B "ZERO@" ++ b) in U. destruct (utf8_split _ _ _ U eq_refl) as [Ua Ub].
    change (B "ZERO@" ++ b) with (B "ZERO" ++ "@"%char :: b) in Ub. destruct (utf8_split _ _ _ Ub eq_refl) as [_ Ub'].
    apply utf8_app; [exact Ua|]. apply utf8_app; [apply ascii_utf8; reflexivity|exact Ub'].
  - intros K. apply Sub in K. destruct K as [K|K]; [discriminate|auto].
  - intros K. apply Sub in K. destruct K as [K|K]; [discriminate|auto].
Qed.
Lemma plain_fix t : plain t -> plain (fix_zero t).
Proof.
  intros H. unfold fix_zero. apply plain_replace. destruct (bstr_eqb t (B "0")); [|exact H].
  split; [apply ascii_text; reflexivity|]. intros K; vm_compute in K; repeat (destruct K as [K|K]; [discriminate|]); exact K.
Qed.
Lemma fix_nonempty t : t <> [] -> fix_zero t <> [].
Proof.
  intros H. unfold fix_zero. destruct (bstr_eqb t (B "0")); [vm_compute; discriminate|].
  destruct (replace_zero_cases t) as [[_ ->]|(a & b & _ & -> & _)]; [exact H|]. destruct a; discriminate.
Qed.
Lemma fix_no_at t : ~ In "@"%char t -> t <> B "0" -> fix_zero t = t.
Proof.
  intros H N. unfold fix_zero. apply bstr_eqb_neq in N. rewrite N. apply replace_zero_none. intros (a & b & ->). apply H.
  apply in_or_app. right. left. reflexivity.
Qed.

(** * Codes of names *)
Definition nc (fl : bool) (n : bstr) : bstr := if fl then flagJoinerEncode n true else joinerEncode n.
Definition cc (fl : bool) (n : bstr) : bstr := if fl then flagJoinerEncode n false else joinerEncode n.
Lemma coded_intro p n s : ~ In dollar p -> ~ In dollar n -> ~ In dollar s -> p ++ n ++ s <> B "R.LEXNAME." -> coded ((dollar :: p) ++ n ++ s ++ [dollar]).
Proof.
  intros H1 H2 H3 H4. exists (p ++ n ++ s). split; [cbn [app]; rewrite <- !app_assoc; reflexivity|]. split; [|exact H4].
  intros K. apply in_app_or in K. destruct K as [K|K]; [auto|]. apply in_app_or in K. tauto.
Qed.
Ltac nodollar := let K := fresh in intros K; vm_compute in K; repeat (destruct K as [K|K]; [discriminate|]); exact K.
Lemma joiner_coded n : name n -> coded (joinerEncode n).
Proof.
  intros [[_ D] [N _]]. change (joinerEncode n) with ((dollar :: B "_LEXC_JOINER.") ++ n ++ B "_" ++ [dollar]). apply coded_intro; auto; [nodollar|nodollar|discriminate].
Qed.
Lemma right_coded n : name n -> coded (flagJoinerEncode n false).
Proof.
  intros [[_ D] [N _]]. change (flagJoinerEncode n false) with ((dollar :: B "P.LEXNAME.") ++ n ++ [] ++ [dollar]). apply coded_intro; auto; [nodollar|discriminate].
Qed.
Lemma left_coded n : name n -> coded (flagJoinerEncode n true).
Proof.
  intros [[_ D] [N _]]. change (flagJoinerEncode n true) with ((dollar :: B "R.LEXNAME.") ++ n ++ [] ++ [dollar]). apply coded_intro; auto; [nodollar|].
  intros E. rewrite app_nil_r in E. apply N. apply (app_inv_head (B "R.LEXNAME.")). rewrite app_nil_r. exact E.
Qed.
Lemma nc_coded fl n : name n -> coded (nc fl n).
Proof. destruct fl; [apply left_coded|apply joiner_coded]. Qed.
Lemma cc_coded fl n : name n -> coded (cc fl n).
Proof. destruct fl; [apply right_coded|apply joiner_coded]. Qed.
Lemma key_coded n k : name n -> name k -> coded (regex_key n k).
Proof.
  intros [[_ D] _] [[_ D'] _]. change (regex_key n k) with ((dollar :: B "_REG.") ++ (n ++ B "_" ++ k) ++ B "_" ++ [dollar]).
  apply coded_intro; [nodollar| |nodollar|discriminate]. intros K. apply in_app_or in K. destruct K as [K|K]; [auto|]. apply in_app_or in K. destruct K as [K|K]; [|auto]. revert K. nodollar.
Qed.
Ltac atext := apply ascii_text; reflexivity.
Lemma nc_text fl n : name n -> text (nc fl n).
Proof. intros [[T _] _]. destruct fl; cbn [nc]; unfold flagJoinerEncode, joinerEncode; repeat apply text_app; try exact T; atext. Qed.
Lemma cc_text fl n : name n -> text (cc fl n).
Proof. intros [[T _] _]. destruct fl; cbn [cc]; unfold flagJoinerEncode, joinerEncode; repeat apply text_app; try exact T; atext. Qed.
Lemma key_text n k : name n -> name k -> text (regex_key n k).
Proof. intros [[T _] _] [[T' _] _]. unfold regex_key, regExpresionEncode. repeat apply text_app; try assumption; atext. Qed.
Lemma nc_no_at fl n : name n -> ~ In "@"%char (nc fl n).
Proof.
  intros (_ & _ & A) K. destruct fl; cbn [nc] in K; unfold flagJoinerEncode, joinerEncode in K;
    (apply in_app_or in K; destruct K as [K|K]; [revert K; nodollar|]; apply in_app_or in K; destruct K as [K|K]; [auto|revert K; nodollar]).
Qed.
Lemma cc_no_at fl n : name n -> ~ In "@"%char (cc fl n).
Proof.
  intros (_ & _ & A) K. destruct fl; cbn [cc] in K; unfold flagJoinerEncode, joinerEncode in K;
    (apply in_app_or in K; destruct K as [K|K]; [revert K; nodollar|]; apply in_app_or in K; destruct K as [K|K]; [auto|revert K; nodollar]).
Qed.
Lemma nc_inj fl n m : nc fl n = nc fl m -> n = m.
Proof. destruct fl; cbn [nc]; intros E; apply app_inv_head, app_inv_tail in E; exact E. Qed.
Lemma cc_inj fl n m : cc fl n = cc fl m -> n = m.
Proof. destruct fl; cbn [cc]; intros E; apply app_inv_head, app_inv_tail in E; exact E. Qed.
Lemma hash_name : name HASH.
Proof. split; [split; [atext|nodollar]|]. split; [discriminate|nodollar]. Qed.
Lemma root_name : name ROOT.
Proof. split; [split; [atext|nodollar]|]. split; [discriminate|nodollar]. Qed.
Lemma coded_quoted w : coded w -> quoted "$" w = true.
Proof.
  intros (b & -> & _). unfold quoted. rewrite Ascii.eqb_refl. cbn [andb]. change (dollar :: b ++ [dollar]) with ((dollar :: b) ++ [dollar]). rewrite last_last. reflexivity.
Qed.
Lemma coded_dollar w : coded w -> In dollar w.
Proof. intros (b & -> & _). left. reflexivity. Qed.
