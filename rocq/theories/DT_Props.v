(** The edges of the dot format of hfst-fst2txt: properties C176 and C177. *)
From Verif Require Import Base IN_Spec MD_Spec BT_Model ATT_Model ATT_Proofs SX_Proofs DT_Spec DT_Model DT_Proofs.
From Coq Require Import NArith ZArith Lia Sorted.

Lemma print_decimal n : decimal (print_nat n) n.
Proof. rewrite <- (print_nat_value n) at 2. apply digits_decimal; [apply print_nat_digits|apply print_nat_nonnil]. Qed.

(** C176: a text that is cut to [n] bytes and then trimmed is the longest sequence of whole characters that
    fits. *)
Theorem C176_whole_characters n cs : 4 <= n -> cs <> [] -> Forall (fun c => character c = true) cs ->
  exists ds, trim_to_valid_utf8 (firstn n (concat cs)) = Ok (concat ds) /\ fitting n cs ds.
Proof. exact (trim_fitting n cs). Qed.
Print Assumptions C176_whole_characters.
(** The label of a single transition: whole characters, as many as fit in 63 bytes, with a backslash before each
    quote. *)
Theorem C176_label price s a cs text : transition_text price a text -> text = concat cs -> cs <> [] ->
  Forall (fun c => character c = true) cs ->
  exists ds ns nt, fitting 63 cs ds /\ decimal ns (N.of_nat s) /\ decimal nt (N.of_nat (tgt a)) /\
    print_edges price s [[a]] = Ok (B "q" ++ ns ++ B " -> q" ++ nt ++ B " [label=""" ++
      flat_map (fun c => if Ascii.eqb c """" then B "\""" else [c]) (concat ds) ++ B " ""];" ++ ["010"%char]).
Proof.
  intros T E N F. apply text_fun in T. destruct (trim_fitting 63 cs) as (ds & R & FT); [lia|exact N|exact F|].
  exists ds, (print_nat (N.of_nat s)), (print_nat (N.of_nat (tgt a))). split; [exact FT|]. split; [apply print_decimal|]. split; [apply print_decimal|].
  cbn [print_edges target_labels mget]. rewrite add_label_eq. unfold bstr in *. rewrite <- T, E, R. cbn [rbind mset map concat]. f_equal.
  rewrite !app_nil_r. unfold edge_line. cbn [fst snd]. reflexivity.
Qed.
Print Assumptions C176_label.
(** The empty text is not trimmed: the byte before it is read. *)
Theorem C176_empty_refuted n : trim_to_valid_utf8 (firstn n (concat [])) = Ub.
Proof. rewrite firstn_nil. reflexivity. Qed.
Print Assumptions C176_empty_refuted.
Example C176_witness : Forall (fun c => character c = true) [B "a"; B "€"; B "€"] /\
  trim_to_valid_utf8 (firstn 6 (concat [B "a"; B "€"; B "€"])) = Ok (B "a€").
Proof. split; [repeat constructor|reflexivity]. Qed.

(** C177: for each state and each of its targets there is one line, with the numbers of both, labelled with
    the transitions between them in order.  Partial: the texts of transitions are not empty, valid
    UTF-8 and without quotes, and those of one line have at most 63 bytes together. *)
Theorem C177_edges_partial price g :
  (forall l a text, In l (sts g) -> In a l -> transition_text price a text -> text <> [] /\ well_formed text /\ ~ In """"%char text) ->
  (forall l t text, In l (sts g) -> lists_transitions price l t text -> length text <= 63) ->
  exists table, length table = length (sts g) /\
    (forall s l row, nth_error (sts g) s = Some l -> nth_error table s = Some row ->
       StronglySorted lt (map (fun e => fst (fst e)) row) /\
       (forall t text, In (t, text) (map fst row) <-> (exists a, In a l /\ tgt a = t) /\ lists_transitions price l t text) /\
       forall t text line, In (t, text, line) row -> exists ns nt, decimal ns (N.of_nat s) /\ decimal nt (N.of_nat t) /\
         line = B "q" ++ ns ++ B " -> q" ++ nt ++ B " [label=""" ++ text ++ B " ""];" ++ ["010"%char]) /\
    print_edges price 0 (sts g) = Ok (concat (map snd (concat table))).
Proof.
  generalize (sts g) as ls. intros ls G L. assert (H : forall k, exists table, length table = length ls /\
    (forall s l row, nth_error ls s = Some l -> nth_error table s = Some row ->
       StronglySorted lt (map (fun e => fst (fst e)) row) /\
       (forall t text, In (t, text) (map fst row) <-> (exists a, In a l /\ tgt a = t) /\ lists_transitions price l t text) /\
       forall t text line, In (t, text, line) row -> exists ns nt, decimal ns (N.of_nat (k + s)) /\ decimal nt (N.of_nat t) /\
         line = B "q" ++ ns ++ B " -> q" ++ nt ++ B " [label=""" ++ text ++ B " ""];" ++ ["010"%char]) /\
    print_edges price k ls = Ok (concat (map snd (concat table)))); [|exact (H 0)].
  induction ls as [|l ls IH]; intros k.
  - exists []. split; [reflexivity|]. split; [|reflexivity]. intros [|s] ? ? E; discriminate E.
  - destruct IH with (k := S k) as (table & TL & TR & TP); [intros l' a text I; apply G; right; exact I|intros l' t text I; apply L; right; exact I|].
    destruct (labels_run price l [] []) as (m & EM & SM & GM).
    { split; [constructor|reflexivity]. }
    { intros a I. destruct (G l a (text_of price a) (or_introl eq_refl) I) as (A & W & Q); [apply text_fun; reflexivity|]. split; [exact A|split; [exact W|exact Q]]. }
    { intros t. apply (L l t); [left; reflexivity|]. apply lists_fun. reflexivity. }
    exists (map (fun e => (e, edge_line k e)) m :: table). split; [cbn; congruence|]. split.
    + intros [|s] l' row E1 E2; cbn in E1, E2.
      * injection E1 as <-. injection E2 as <-. rewrite !map_map. cbn [fst]. rewrite map_id. split; [exact SM|]. split.
        -- intros t text. rewrite (mget_of_In m SM), GM. cbn [app]. rewrite lists_fun.
           assert (X : (exists a, In a l /\ tgt a = t) <-> sel l t <> []).
           { split.
             - intros (a & I & E) C. assert (I' : In a (sel l t)) by (apply filter_In; split; [exact I|apply Nat.eqb_eq, E]). rewrite C in I'. destruct I'.
             - destruct (sel l t) as [|a r] eqn:C; [contradiction|]. intros _. exists a. assert (I' : In a (sel l t)) by (rewrite C; left; reflexivity).
               apply filter_In in I'. destruct I' as [I' E]. apply Nat.eqb_eq in E. auto. }
           rewrite X. destruct (sel l t) as [|a r]; split.
           ++ discriminate.
           ++ intros [C _]. contradiction.
           ++ intros E. injection E as <-. split; [discriminate|reflexivity].
           ++ intros [_ ->]. reflexivity.
        -- intros t text line I. apply in_map_iff in I. destruct I as (e & E & _). injection E as -> <-. rewrite Nat.add_0_r.
           exists (print_nat (N.of_nat k)), (print_nat (N.of_nat t)). split; [apply print_decimal|]. split; [apply print_decimal|]. reflexivity.
      * replace (k + S s) with (S k + s) by lia. exact (TR s l' row E1 E2).
    + cbn [print_edges]. rewrite EM. cbn [rbind]. rewrite TP. cbn [rbind concat]. rewrite map_app, concat_app, map_map. reflexivity.
Qed.
Print Assumptions C177_edges_partial.

Definition no_price (w : Z) : bstr := [].
(** Labels are cut: transducers with different transitions are drawn alike. *)
Theorem C177_long_refuted : exists l a b, print_edges no_price 0 [l ++ [a]] = print_edges no_price 0 [l ++ [b]] /\ isy a <> isy b /\ tgt a = tgt b.
Proof.
  exists [Arc 0 (repeat "x"%char 63) (repeat "x"%char 63) 0], (Arc 0 (B "a") (B "a") 0), (Arc 0 (B "b") (B "b") 0).
  split; [vm_compute; reflexivity|]. split; [discriminate|reflexivity].
Qed.
Print Assumptions C177_long_refuted.
(** The quotes of earlier transitions get a second backslash, so that the quote ends the label: \\ is a
    backslash. *)
Theorem C177_quotes_refuted : print_edges no_price 0 [[Arc 0 (B """") (B """") 0; Arc 0 (B "a") (B "a") 0]] = Ok (B "q0 -> q0 [label=""\\"", a ""];
").
Proof. vm_compute. reflexivity. Qed.
Print Assumptions C177_quotes_refuted.
Example C177_witness : print_edges no_price 0 [[Arc 1 (B "a") BT_Model.EPS 0; Arc 0 (B "b") (B "b") 5; Arc 1 BT_Model.UNK BT_Model.UNK 0]; []] =
  Ok (B "q0 -> q0 [label=""b/ ""];
q0 -> q1 [label=""a:00, ?1:?2 ""];
") /\ lists_transitions no_price [Arc 1 (B "a") BT_Model.EPS 0; Arc 0 (B "b") (B "b") 5; Arc 1 BT_Model.UNK BT_Model.UNK 0] 1 (B "a:00, ?1:?2").
Proof. split; [vm_compute; reflexivity|]. apply lists_fun. vm_compute. reflexivity. Qed.
