(** Properties C116 to C119: matching of patterns in running text. *)
From Coq Require Import Permutation Sorted.
From Verif Require Import Base Flags_Spec PM_Model PM_Spec PM_Proofs PM_Proofs2 PM_Proofs3 PM_Proofs4.

(** C116: in match mode a text is gone through from the left; at each position the longest, and
    of these the lightest, match of the networks is replaced by what it writes, and a symbol at
    which no match starts is copied; whatever texts the container was used for before.  Partial:
    calls among the networks are not recursive and default transitions are not mixed with
    transitions that read nothing, or there are no flags and no default transitions (sound_setting;
    see C116_recursion_refuted, C116_order_refuted); what an empty match writes may be left out
    (see C116_history_refuted). *)
Theorem C116_match_partial nets al nm opts first n mw input s : sound_setting nets al -> reached nets al s ->
  exists t s', match_text nets al nm opts first n mw input s = Ok (stringify nm opts false [] [] t, s') /\
    replaced nets al first n mw input 0 t.
Proof.
  intros SS R. destruct (process_replace nets al nm first n mw input SS s (reached_idle nets al SS s R)) as (pr & s' & E & Rp & _).
  exists (p_result pr), s'. unfold match_text. rewrite E. split; [reflexivity|exact Rp].
Qed.
Print Assumptions C116_match_partial.
(** C116: without empty matches and ties, the result depends on the text alone, not on the texts
    before it. *)
Theorem C116_history_partial nets al nm opts first n mw input s1 s2 : sound_setting nets al -> reached nets al s1 -> reached nets al s2 ->
  no_empty_match nets al n mw input -> one_best nets al n mw input ->
  exists out s1' s2', match_text nets al nm opts first n mw input s1 = Ok (out, s1') /\ match_text nets al nm opts first n mw input s2 = Ok (out, s2').
Proof.
  intros SS R1 R2 NE OB. destruct (C116_match_partial nets al nm opts first n mw input s1 SS R1) as (t1 & s1' & E1 & P1).
  destruct (C116_match_partial nets al nm opts first n mw input s2 SS R2) as (t2 & s2' & E2 & P2).
  rewrite <- (replaced_unique nets al first n mw input NE OB _ _ P1 _ P2) in E2. eauto.
Qed.
Print Assumptions C116_history_partial.
(** C117: in locate mode the text is divided in the same way; for each division there is the
    group of the locations of all the longest matches, the lightest first, or one location for
    text in which nothing matched.  Partial: sound_setting as above; the symbols of the text are
    printable (see C118_boundary_refuted). *)
Theorem C117_locate_partial nets al nm first n mw input s : sound_setting nets al -> reached nets al s ->
  Forall (fun x => n_printable nm x = true /\ n_tag nm x = None) input ->
  exists out s', locate_text nets al nm first n mw input s = Ok (out, s') /\ located nets al nm first n mw input 0 [] out.
Proof.
  intros SS R Pr. destruct (process_locate nets al nm first n mw input SS Pr s (reached_idle nets al SS s R)) as (out & s' & E & L & _). eauto.
Qed.
Print Assumptions C117_locate_partial.
(** C118: the locations cover the text without gaps or overlaps, and the input of each is the
    text at its place.  Partial: as C117; symbols read as members of a list are copied (see
    C118_list_refuted); tags are written without reading. *)
Theorem C118_locations_partial nets al nm first n mw input s : sound_setting nets al -> reached nets al s ->
  Forall (fun x => x <> 0) input -> (forall x, In x input -> n_printable nm x = true) -> n_printable nm 0 = false ->
  literal nets al -> silent_tags nets al nm input ->
  exists out s', locate_text nets al nm first n mw input s = Ok (out, s') /\ tiles nm input 0 out.
Proof.
  intros SS R NZ Pr Z0 Lit ST. destruct (C117_locate_partial nets al nm first n mw input s SS R) as (out & s' & E & L).
  { rewrite Forall_forall. intros x Hx. split; [apply Pr, Hx|apply (proj1 ST), Hx]. }
  exists out, s'. split; [exact E|]. apply (located_tiles nets al nm first n mw input Lit NZ ST Z0 Pr 0 [] out L); cbn; [lia|reflexivity|lia].
Qed.
Print Assumptions C118_locations_partial.

(** C119: the output in which the matches are marked: text and groups in order, each tag
    enclosing what its group has so far. *)
Theorem C119_marked nm items : Forall (well_named nm) items -> after_text nm (flat_map flat items) ->
  stringify nm (Options false true false) false [] [] (flat_map flat items) = marked_text nm items.
Proof.
  intros W A. rewrite (seen_irrelevant nm _ _ false [] []) by (intros _; exact A).
  pose proof (marked_items nm _ items (le_n _) W [] [] [] [] eq_refl) as E. rewrite !app_nil_r in E. exact E.
Qed.
Print Assumptions C119_marked.
(** C119: the output in which tagged text is replaced by its tag. *)
Theorem C119_deleted nm mk items : Forall (well_named nm) items ->
  stringify nm (Options true mk false) false [] [] (flat_map flat items) = fold_left (replaced_by_tags nm) items [].
Proof. intros W. destruct (deleted_items nm _ items (le_n _) W mk false [] [] [] [] eq_refl) as (seen & E). rewrite !app_nil_r in E. exact E. Qed.
Print Assumptions C119_deleted.
(** C119: the output of the groups alone. *)
Theorem C119_extracted nm items : Forall (well_named nm) items -> Forall (fun x => match x with Tag _ _ _ => False | _ => True end) items -> after_text nm (flat_map flat items) ->
  stringify nm (Options false true true) false [] [] (flat_map flat items) = concat (map (extracted nm) items).
Proof.
  intros W NT A. rewrite (seen_irrelevant nm _ _ false [] []) by (intros _; exact A).
  pose proof (extracted_items nm items W NT [] []) as E. rewrite !app_nil_r in E. exact E.
Qed.
Print Assumptions C119_extracted.
(** C119: the output without tags. *)
Theorem C119_plain nm t :
  stringify nm (Options false false false) false [] [] t =
  joined nm (filter (fun k => negb (n_entry nm k) && negb (n_exit nm k) && match n_tag nm k with None => true | _ => false end) (map snd t)).
Proof. apply plain_output. Qed.
Print Assumptions C119_plain.

(** * Examples *)
(** Symbols: a b c X, the flags P.F.1 and D.F, the name of network 1, the list of a and b, the
    boundary, a tag, entry, exit, default. *)
Definition ex_alphabet (default : option nat) : palpha :=
  PAlpha (fun k => if k =? 5 then Some (FP (B "F") (B "1")) else if k =? 6 then Some (FD (B "F") None) else None)
    (fun _ => false) (fun k => if k =? 7 then Some 1 else None) (fun k => k =? 8)
    (fun x => if (x =? 1) || (x =? 2) then [8] else []) (fun _ => []) 14 None None default.
Definition ex_names : names :=
  Names (fun k => (1 <=? k) && (k <=? 4)) (fun k => k =? 11) (fun k => k =? 12) (fun k => if k =? 10 then Some (B "T") else None)
    (fun k => match k with 1 => B "a" | 2 => B "b" | 3 => B "c" | 4 => B "X" | _ => B "@" end).
Definition ex_net (arcs : list (list parc)) (fin : nat) : ptrans := PTrans (fun i => if i =? fin then Some 0%Z else None) (fun i => nth i arcs []).
Definition ex_nets (l : list ptrans) (T : nat) : ptrans := nth T l (PTrans (fun _ => None) (fun _ => [])).

(** A group with a tag around one or more a or b, found by a network of its own. *)
Definition ex_tagger : nat -> ptrans :=
  ex_nets [ex_net [[PArc 0 11 1 0]; [PArc 7 7 2 0]; [PArc 0 10 3 0]; [PArc 0 12 4 0]] 4; ex_net [[PArc 5 5 1 0]; [PArc 8 8 2 0]; [PArc 8 8 2 0]] 2].
Lemma tagger_arcs T i a : In a (pt_arcs (ex_tagger T) i) ->
  T = 0 /\ In a [PArc 0 11 1 0; PArc 7 7 2 0; PArc 0 10 3 0; PArc 0 12 4 0] \/ T = 1 /\ In a [PArc 5 5 1 0; PArc 8 8 2 0].
Proof.
  destruct T as [|[|T]]; [| |destruct T; contradiction]; (destruct i as [|[|[|[|[|i]]]]]; cbn; intros H; try tauto).
Qed.
Lemma tagger_sound : sound_setting ex_tagger (ex_alphabet None).
Proof.
  left. split; [exists (fun T => 1 - T)|intros k T i a b H; discriminate H].
  intros T i a U H E. destruct (tagger_arcs T i a H) as [(-> & Ha)|(-> & Ha)]; cbn [In] in Ha; repeat (destruct Ha as [<-|Ha]; [cbn in E; try discriminate; injection E as <-; lia|]); destruct Ha.
Qed.
Lemma tagger_reads T i a x : reads ex_tagger (ex_alphabet None) T i a x -> pa_in a = 8 /\ pa_out a = 8 \/ x = pa_in a.
Proof.
  intros (H & [S|(E & _)]); [|discriminate]. unfold stands_for in S. cbn [al_lists al_classes al_orig al_identity al_unknown ex_alphabet] in S.
  destruct S as [S|[[]|[(_ & S)|(_ & [S|S])]]]; [|right; congruence|discriminate|discriminate].
  destruct ((x =? 1) || (x =? 2)); [|destruct S]. destruct S as [S|[]]. left. split; [congruence|]. destruct (tagger_arcs T i a H) as [(-> & Ha)|(-> & Ha)]; cbn [In] in Ha; repeat (destruct Ha as [<-|Ha]; [cbn in S; try discriminate; reflexivity|]); destruct Ha.
Qed.
Example C116_witness :
  sound_setting ex_tagger (ex_alphabet None) /\ reached ex_tagger (ex_alphabet None) (new_container 0) /\
  rmap fst (match_text ex_tagger (ex_alphabet None) ex_names (Options false true false) [] 20 None [3; 1; 2; 3] (new_container 0)) = Ok (B "c<T>ab</T>c").
Proof. split; [exact tagger_sound|]. split; [constructor|vm_compute; reflexivity]. Qed.
Example C117_witness :
  sound_setting ex_tagger (ex_alphabet None) /\ reached ex_tagger (ex_alphabet None) (new_container 0) /\
  Forall (fun x => n_printable ex_names x = true /\ n_tag ex_names x = None) [3; 1; 2; 3] /\
  rmap fst (locate_text ex_tagger (ex_alphabet None) ex_names [] 20 None [3; 1; 2; 3] (new_container 0)) =
    Ok [[Loc 0 1 (B "c") (B "@_NONMATCHING_@") [] 0]; [Loc 1 2 (B "ab") (B "ab") (B "<T>") 0]; [Loc 3 1 (B "c") (B "@_NONMATCHING_@") [] 0]].
Proof. split; [exact tagger_sound|]. split; [constructor|]. split; [repeat constructor|vm_compute; reflexivity]. Qed.
Example C118_witness : literal ex_tagger (ex_alphabet None) /\ silent_tags ex_tagger (ex_alphabet None) ex_names [3; 1; 2; 3] /\ n_printable ex_names 0 = false.
Proof.
  split; [|split; [split|reflexivity]].
  - intros T i a x R. destruct (tagger_reads T i a x R) as [(_ & E)|E]; [right; rewrite E; reflexivity|left; congruence].
  - intros x H. cbn in H. repeat (destruct H as [<-|H]; [reflexivity|]). destruct H.
  - intros T i a x Hx R. pose proof R as (H & S). destruct (tagger_arcs T i a H) as [(-> & Ha)|(-> & Ha)]; cbn [In] in Ha; repeat (destruct Ha as [<-|Ha]; [try reflexivity|]); try destruct Ha.
    destruct S as [S|(S & _)]; [|discriminate]. unfold stands_for in S. cbn in S. destruct S as [S|[[]|[(_ & S)|(_ & [S|S])]]]; try discriminate.
    + destruct ((x =? 1) || (x =? 2)); [destruct S as [S|[]]; discriminate|destruct S].
    + cbn in S. subst x. cbn in Hx. repeat (destruct Hx as [Hx|Hx]; [discriminate|]). destruct Hx.
Qed.
Definition ex_tree : list item := [Text 3 3; Group 0 11 [Text 1 1; Group 0 11 [Text 2 4; Tag 0 10 (B "T")] 0 12; Tag 0 10 (B "T")] 0 12; Text 3 3].
Example C119_witness : Forall (well_named ex_names) ex_tree /\ after_text ex_names (flat_map flat ex_tree) /\
  marked_text ex_names ex_tree = B "c<T>a<T>X</T></T>c" /\ fold_left (replaced_by_tags ex_names) ex_tree [] = B "c<T>c" /\
  concat (map (extracted ex_names) ex_tree) = B "<T>a<T>X</T></T>".
Proof.
  split; [repeat constructor|]. split; [|repeat split].
  intros t1 i k t2 g E _. cbn in E. exists (3, 3). split; [|reflexivity]. destruct t1 as [|y t1]; cbn in E; [injection E as <- <- _; left; reflexivity|injection E as <- _; left; reflexivity].
Qed.

(** * What does not hold *)
Definition got {A C} (r : res (A * C)) (d : A * C) : A * C := match r with Ok x => x | _ => d end.
Lemma got_ok {A C} (r : res (A * C)) d : (match r with Ok _ => true | _ => false end) = true -> r = Ok (fst (got r d), snd (got r d)).
Proof. destruct r as [[a c]| | |]; try discriminate. reflexivity. Qed.
(** C116: the result for a text depends on the texts before it: an empty match is inserted or
    not according to a weight left over from them. *)
Definition ex_empty : nat -> ptrans := ex_nets [ex_net [[PArc 0 4 1 1; PArc 1 1 1 5]] 1].
Theorem C116_history_refuted : exists nets al nm opts n input s, sound_setting nets al /\ reached nets al s /\ reached nets al (new_container 0) /\
  rmap fst (match_text nets al nm opts [] n None input s) = Ok (B "Xb") /\ rmap fst (match_text nets al nm opts [] n None input (new_container 0)) = Ok (B "b").
Proof.
  exists ex_empty, (ex_alphabet None), ex_names, (Options false false false), 20, [2].
  exists (snd (got (match_text ex_empty (ex_alphabet None) ex_names (Options false false false) [] 20 None [1] (new_container 0)) ([], new_container 0))). split; [|split; [|split; [constructor|split; [|vm_compute; reflexivity]]]].
  - left. split; [|intros k T i a b H; discriminate H]. exists (fun _ => 0). intros T i a U H. destruct T as [|[|T]]; cbn in H; [|destruct H|destruct H].
    destruct i as [|[|i]]; cbn in H; [|destruct H|destruct H]. destruct H as [<-|[<-|[]]]; cbn; discriminate.
  - eapply reached_match; [apply (reached_new _ _ 0)|apply got_ok; vm_compute; reflexivity].
  - vm_compute. reflexivity.
Qed.
Print Assumptions C116_history_refuted.

Lemma found_prefix nets al input mw n c h : found nets al input mw n c h -> exists u, fst (fst h) = c_out c ++ u.
Proof.
  induction 1 as [n T i e g p o w wf A F|n c c' h A M F (u & E)]; cbn [fst c_out]; [exists []; rewrite app_nil_r; reflexivity|].
  inversion M; subst; cbn [c_out] in *; eauto; rewrite <- app_assoc in E; eexists; exact E.
Qed.
Lemma found_inv nets al input mw n T i k e g p o w h : found nets al input mw n (Conf T i k e g p o w) h -> pt_final (nets T) i = None ->
  exists m a c, found nets al input mw m c h /\ In a (pt_arcs (nets T) i) /\
    (pa_in a = 0 \/
     (exists f e' g', al_flag al (pa_in a) = Some f /\ c = Conf T (pa_to a) k e' g' p o (w + pa_weight a)) \/
     (exists U, al_rtn al (pa_in a) = Some U /\ c = Conf U 0 ((T, pa_to a, e) :: k) env0 g p o (w + pa_weight a)) \/
     (exists x, nth_error input p = Some x /\ reads nets al T i a x /\ c_out c = o ++ [if al_meta al (pa_out a) then (x, x) else (pa_in a, pa_out a)])).
Proof.
  intros H NF. inversion H as [|m c c' h' A M F]; subst; [congruence|]. exists m. inversion M; subst; try congruence; exists a; eexists; (split; [exact F|]); (split; [try assumption; match goal with R : reads _ _ _ _ _ _ |- _ => apply R end|]); eauto 12.
Qed.
(** C116: flags set in a recursive call are seen by the caller after the return, so that a match
    is missed. *)
Definition ex_recursive : nat -> ptrans :=
  ex_nets [ex_net [[PArc 7 7 1 0]] 1; ex_net [[PArc 1 4 1 0; PArc 5 5 5 0]; [PArc 7 7 2 0]; [PArc 6 6 3 0]; [PArc 2 2 4 0]; []; [PArc 3 3 4 0]] 4].
Theorem C116_recursion_refuted : exists nets al nm n input pr s', 
  process nets al nm [] n None false input (new_container 0) = Ok (pr, s') /\ ~ replaced nets al [] n None input 0 (p_result pr).
Proof.
  exists ex_recursive, (ex_alphabet None), ex_names, 20, [1; 3; 2].
  set (r := got (process ex_recursive (ex_alphabet None) ex_names [] 20 None false [1; 3; 2] (new_container 0)) (Progress [] [] 0 [], new_container 0)).
  exists (fst r), (snd r). split; [unfold r; apply got_ok; vm_compute; reflexivity|]. assert (Er : p_result (fst r) = [(1, 1); (3, 3); (2, 2)]) by (vm_compute; reflexivity). rewrite Er. clear Er r.
  assert (Hit : matches ex_recursive (ex_alphabet None) [1; 3; 2] None 20 0 ([(1, 4); (3, 3); (2, 2)], 3, 0%Z)).
  { unfold matches, start. eapply found_move; [exact I|eapply (move_call _ _ _ 0 0 _ _ _ _ _ _ (PArc 7 7 1 0)); [left; reflexivity|discriminate|reflexivity|reflexivity]|].
    eapply found_move; [exact I|eapply (move_read _ _ _ 1 0 _ _ _ _ _ _ (PArc 1 4 1 0)); [reflexivity|split; [left; reflexivity|left; right; right; left; split; [cbn; lia|reflexivity]]]|].
    eapply found_move; [exact I|eapply (move_call _ _ _ 1 1 _ _ _ _ _ _ (PArc 7 7 2 0)); [left; reflexivity|discriminate|reflexivity|reflexivity]|].
    eapply found_move; [exact I|eapply (move_flag _ _ _ 1 0 _ _ _ _ _ _ (PArc 5 5 5 0)); [right; left; reflexivity|discriminate|reflexivity|reflexivity|reflexivity]|].
    eapply found_move; [exact I|eapply (move_read _ _ _ 1 5 _ _ _ _ _ _ (PArc 3 3 4 0)); [reflexivity|split; [left; reflexivity|left; right; right; left; split; [cbn; lia|reflexivity]]]|].
    eapply found_move; [exact I|eapply (move_return _ _ _ 1 4); reflexivity|].
    eapply found_move; [exact I|eapply (move_flag _ _ _ 1 2 _ _ _ _ _ _ (PArc 6 6 3 0)); [left; reflexivity|discriminate|reflexivity|reflexivity|reflexivity]|].
    eapply found_move; [exact I|eapply (move_read _ _ _ 1 3 _ _ _ _ _ _ (PArc 2 2 4 0)); [reflexivity|split; [left; reflexivity|left; right; right; left; split; [cbn; lia|reflexivity]]]|].
    eapply found_move; [exact I|eapply (move_return _ _ _ 1 4); reflexivity|].
    apply (found_here _ _ _ _ _ 0 1 env0 env0 3 [(1, 4); (3, 3); (2, 2)] 0 0); [exact I|reflexivity]. }
  assert (NR : forall T i a x, reads ex_recursive (ex_alphabet None) T i a x -> pa_in a = x \/ pa_in a = 8).
  { intros T i a x (_ & [S|(S & _)]); [|discriminate]. unfold stands_for in S. cbn in S. destruct S as [S|[[]|[(_ & S)|(_ & [S|S])]]]; try discriminate; [|left; exact S].
    destruct ((x =? 1) || (x =? 2)); [destruct S as [S|[]]; right; congruence|destruct S]. }
  assert (Pre : forall h, matches ex_recursive (ex_alphabet None) [1; 3; 2] None 20 0 h -> exists u, fst (fst h) = (1, 4) :: u).
  { intros h H. apply found_inv in H; [|reflexivity]. destruct H as (m & a & c & F & Ha & Hc). destruct Ha as [<-|[]].
    destruct Hc as [Hc|[(f & e' & g' & Hc & _)|[(U & Hc & ->)|(x & Hx & Hr & _)]]]; [discriminate|discriminate| |].
    2:{ injection Hx as <-. apply NR in Hr. cbn in Hr. lia. }
    injection Hc as <-. cbn [pa_to pa_weight] in F. apply found_inv in F; [|reflexivity]. destruct F as (m2 & a & c & F & Ha & Hc). destruct Ha as [<-|[<-|[]]].
    - destruct Hc as [Hc|[(f & e' & g' & Hc & _)|[(U & Hc & _)|(x & Hx & Hr & Ec)]]]; try discriminate. apply found_prefix in F. rewrite Ec in F. exact F.
    - destruct Hc as [Hc|[(f & e' & g' & _ & ->)|[(U & Hc & _)|(x & Hx & Hr & Ec)]]]; try discriminate.
      2:{ injection Hx as <-. apply NR in Hr. cbn in Hr. lia. }
      cbn [pa_to pa_weight] in F. apply found_inv in F; [|reflexivity]. destruct F as (m3 & a & c & F & Ha & Hc). destruct Ha as [<-|[]].
      destruct Hc as [Hc|[(f2 & e2 & g2 & Hc & _)|[(U & Hc & _)|(x & Hx & Hr & Ec)]]]; try discriminate. injection Hx as <-. apply NR in Hr. cbn in Hr. lia. }
  intros R. inversion R as [? L|? x o q w t Ex MS ((M & _) & _) L _ Et|? x t Ex HN _ Et|? x o w t Ex MS HN M _ Et]; subst.
  - destruct (Pre _ M) as (u & Eu). cbn in Eu. subst o. match goal with X : _ ++ _ = _ |- _ => discriminate X end.
  - destruct HN as [HN|HN]; [apply HN; left; reflexivity|]. specialize (HN _ _ _ Hit). lia.
  - specialize (HN _ _ _ Hit). lia.
Qed.
Print Assumptions C116_recursion_refuted.
(** C116: whether a default transition is taken depends on the order of the transitions. *)
Theorem C116_order_refuted : exists nets nets' al nm opts n input, 
  (forall T i, pt_final (nets T) i = pt_final (nets' T) i /\ Permutation (pt_arcs (nets T) i) (pt_arcs (nets' T) i)) /\
  rmap fst (match_text nets al nm opts [] n None input (new_container 0)) = Ok (B "X") /\
  rmap fst (match_text nets' al nm opts [] n None input (new_container 0)) = Ok (B "a").
Proof.
  exists (ex_nets [ex_net [[PArc 0 0 2 0; PArc 0 0 3 0; PArc 13 4 1 0]; []; [PArc 1 1 4 0]] 1]), (ex_nets [ex_net [[PArc 0 0 3 0; PArc 0 0 2 0; PArc 13 4 1 0]; []; [PArc 1 1 4 0]] 1]),
    (ex_alphabet (Some 13)), ex_names, (Options false false false), 20, [1].
  split; [|split; vm_compute; reflexivity]. intros T i. destruct T as [|[|T]]; [|split; constructor..]. split; [reflexivity|]. destruct i as [|i]; [cbn; constructor|apply Permutation_refl].
Qed.
Print Assumptions C116_order_refuted.
(** C118: with a boundary in a match, the later locations are displaced. *)
Theorem C118_boundary_refuted : exists nets al nm n input out s', sound_setting nets al /\ literal nets al /\ silent_tags nets al nm input /\
  locate_text nets al nm [] n None input (new_container 0) = Ok (out, s') /\ ~ tiles nm (filter (n_printable nm) input) 0 out.
Proof.
  set (nets := ex_nets [ex_net [[PArc 9 9 2 0; PArc 2 2 1 0]; []; [PArc 1 1 1 0]] 1]). exists nets, (ex_alphabet None), ex_names, 20, [9; 1; 2].
  set (r := got (locate_text nets (ex_alphabet None) ex_names [] 20 None [9; 1; 2] (new_container 0)) ([], new_container 0)). exists (fst r), (snd r).
  assert (A : forall T i a, In a (pt_arcs (nets T) i) -> In a [PArc 9 9 2 0; PArc 2 2 1 0; PArc 1 1 1 0]).
  { intros T i a H. destruct T as [|[|T]]; cbn in H; [|destruct H..]. destruct i as [|[|[|[|i]]]]; cbn in H |- *; tauto. }
  assert (NR : forall T i a x, reads nets (ex_alphabet None) T i a x -> pa_in a = x \/ pa_in a = 8).
  { intros T i a x (_ & [S|(S & _)]); [|discriminate]. unfold stands_for in S. cbn in S. destruct S as [S|[[]|[(_ & S)|(_ & [S|S])]]]; try discriminate; [|left; exact S].
    destruct ((x =? 1) || (x =? 2)); [destruct S as [S|[]]; right; congruence|destruct S]. }
  split; [|split; [|split; [|split; [unfold r; apply got_ok; vm_compute; reflexivity|]]]].
  - left. split; [|intros k T i a b H; discriminate H]. exists (fun _ => 0). intros T i a U H X. apply A in H. destruct H as [<-|[<-|[<-|[]]]]; discriminate.
  - intros T i a x R. destruct (NR _ _ _ _ R) as [X|X]; [left; exact X|]. destruct R as (R & _). apply A in R. destruct R as [<-|[<-|[<-|[]]]]; discriminate.
  - split; [intros x H; cbn in H; repeat (destruct H as [<-|H]; [reflexivity|]); destruct H|]. intros T i a x _ (R & _). apply A in R. destruct R as [<-|[<-|[<-|[]]]]; reflexivity.
  - assert (Eo : fst r = [[Loc 0 1 (B "a") (B "a") [] 0]; [Loc 2 1 (B "b") (B "b") [] 0]]) by (vm_compute; reflexivity). rewrite Eo.
    intros T. inversion T as [|p q ls rest L _ H1 T1]; subst. destruct (H1 _ (or_introl eq_refl)) as (_ & H2 & _). cbn in H2. inversion T1 as [|p' q' ls' rest' L' _ H1' _]; subst.
    destruct (H1' _ (or_introl eq_refl)) as (H3 & _). cbn in H3. lia.
Qed.
Print Assumptions C118_boundary_refuted.
(** C118: where a member of a list is rewritten, the location does not show the text. *)
Theorem C118_list_refuted : exists nets al nm n input out s', sound_setting nets al /\ (forall x, In x input -> n_printable nm x = true) /\ silent_tags nets al nm input /\
  locate_text nets al nm [] n None input (new_container 0) = Ok (out, s') /\ ~ tiles nm input 0 out.
Proof.
  set (nets := ex_nets [ex_net [[PArc 8 4 1 0]] 1]). exists nets, (ex_alphabet None), ex_names, 20, [1].
  set (r := got (locate_text nets (ex_alphabet None) ex_names [] 20 None [1] (new_container 0)) ([], new_container 0)). exists (fst r), (snd r).
  assert (A : forall T i a, In a (pt_arcs (nets T) i) -> a = PArc 8 4 1 0).
  { intros T i a H. destruct T as [|[|T]]; cbn in H; [|destruct H..]. destruct i as [|[|i]]; cbn in H; [destruct H as [H|[]]; congruence|destruct H..]. }
  split; [|split; [|split; [|split; [unfold r; apply got_ok; vm_compute; reflexivity|]]]].
  - left. split; [|intros k T i a b H; discriminate H]. exists (fun _ => 0). intros T i a U H X. apply A in H. subst a. discriminate.
  - intros x [<-|[]]. reflexivity.
  - split; [intros x [<-|[]]; reflexivity|]. intros T i a x _ (R & _). apply A in R. subst a. reflexivity.
  - assert (Eo : fst r = [[Loc 0 0 [] (B "X") [] 0]]) by (vm_compute; reflexivity). rewrite Eo.
    intros T. inversion T as [|p q ls rest L _ H1 T1]; subst. destruct (H1 _ (or_introl eq_refl)) as (_ & H2 & _). cbn in H2. assert (q = 0) by lia. subst q. inversion T1.
Qed.
Print Assumptions C118_list_refuted.
