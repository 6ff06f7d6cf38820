(** Names and properties of transducers: properties C169, C170 and C171. *)
From Verif Require Import Base HST_Model MD_Spec MD_Model MD_Proofs OrdMap.
From Coq Require Import NArith Lia Sorted.

(** The outcome of naming a result after the text [full]. *)
Definition named_after (full : bstr) (dest : props) (result : res props) : Prop :=
  (length full <= 1024 -> well_formed full -> exists q, result = Ok q) /\
  (forall x, 1024 < length full -> first_bytes 1000 full x -> ((exists q, result = Ok q) <-> well_formed x)) /\
  (forall q, result = Ok q ->
     shortened full (get_property (B "name") q) /\ length (get_property (B "name") q) <= 1024 /\
     forall k, k <> B "name" -> get_property k q = get_property k dest) /\
  ((exists q, result = Ok q) \/ result = Throw).
Lemma named full dest : named_after full dest (set_name dest (stored full)).
Proof.
  assert (G : (exists q, set_name dest (stored full) = Ok q) <-> well_formed (stored full)).
  { split; [intros [q H]; apply set_name_ok in H; exact (proj1 H)|]. intros W. eexists. apply set_name_ok. split; [exact W|reflexivity]. }
  rewrite stored_wf in G. split; [|split; [|split]].
  - intros L W. apply G. destruct (Nat.ltb_spec 1024 (length full)) as [K|_]; [lia|exact W].
  - intros x L (LX & r & E). rewrite G. destruct (Nat.ltb_spec 1024 (length full)) as [_|K]; [|lia].
    rewrite E, firstn_app, LX, Nat.sub_diag, firstn_O, app_nil_r. rewrite <- LX, firstn_all. reflexivity.
  - intros q H. apply set_name_ok in H. destruct H as [_ ->]. rewrite (get_set dest (stored full) (B "name")). change (bstr_eqb (B "name") NAME) with true. cbv iota. split; [|split].
    + apply stored_shortened. reflexivity.
    + apply stored_length.
    + intros k N. rewrite get_set. destruct (bstr_eqb_spec k NAME) as [->|_]; [exfalso; apply N; reflexivity|reflexivity].
  - apply set_name_total.
Qed.

(** C169: the result of an operation on one transducer is named OPERATION(NAME), shortened if that is
    longer than 1024 bytes; its other properties do not change.  Partial: naming fails when the
    name is cut inside a character, see below. *)
Theorem C169_one_partial dest src op shown : known_as (get_property (B "name") src) shown ->
  named_after (op ++ B "(" ++ shown ++ B ")") dest (set_name_of_one dest src op).
Proof. intros ->. rewrite one_name. apply named. Qed.
Print Assumptions C169_one_partial.
(** The same for operations on two transducers. *)
Theorem C169_two_partial dest lhs rhs op shown1 shown2 :
  known_as (get_property (B "name") lhs) shown1 -> known_as (get_property (B "name") rhs) shown2 ->
  named_after (op ++ B "(" ++ shown1 ++ B ", " ++ shown2 ++ B ")") dest (set_name_of_two dest lhs rhs op).
Proof. intros -> ->. rewrite two_names. apply named. Qed.
Print Assumptions C169_two_partial.
(** A well-formed name, cut inside a character, cannot be set: the operation fails. *)
Definition e_acute : bstr := ["195"; "169"]%char.
Theorem C169_cut_refuted dest : exists src, well_formed (get_property (B "name") src) /\
  length (get_property (B "name") src) = 1020 /\ set_name_of_one dest src (B "invert") = Throw /\ set_name_of_one dest src (B "project") <> Throw.
Proof.
  exists [(B "name", concat (repeat e_acute 510))]. split; [|split; [|split]].
  - apply check_utf8_spec. vm_compute. reflexivity.
  - vm_compute. reflexivity.
  - rewrite one_name. unfold set_name, set_property.
    match goal with |- context[check_utf8 ?s] => replace (check_utf8 s) with false by (vm_compute; reflexivity) end. reflexivity.
  - rewrite one_name. unfold set_name, set_property.
    match goal with |- context[check_utf8 ?s] => replace (check_utf8 s) with true by (vm_compute; reflexivity) end. discriminate.
Qed.
Print Assumptions C169_cut_refuted.
Example C169_witness : set_name_of_two [(B "name", B "a"); (B "type", B "x")] [(B "name", B "a")] [] (B "compose") =
  Ok [(B "name", B "compose(a, UNNAMED)"); (B "type", B "x")].
Proof. reflexivity. Qed.

(** C170: hfst-name gives every transducer of the archive the name, cut after the number of bytes
    given, and changes nothing else.  Partial: the text that remains must be well formed. *)
Theorem C170_name_partial {T} name n x (l : list (props * T)) : cut n name x -> well_formed x ->
  exists m, hfst_name name n l = Ok m /\ Forall2 (fun a b => snd b = snd a /\
    forall k, get_property k (fst b) = if bstr_eqb k (B "name") then x else get_property k (fst a)) l m.
Proof.
  intros C W. apply cut_spec in C. subst x. unfold hfst_name.
  apply (over_total _ (fun p q => forall k, get_property k q = if bstr_eqb k (B "name") then truncate_text n name else get_property k p)).
  intros p. exists (mset bcmp NAME (truncate_text n name) p). split; [apply set_name_ok; auto|]. intros k. apply get_set.
Qed.
Print Assumptions C170_name_partial.
(** The tool counts bytes: it fails just when it would cut a well-formed name inside a character. *)
Theorem C170_cut_refuted {T} name n x (l : list (props * T)) : cut n name x -> l <> [] -> ~ well_formed x -> hfst_name name n l = Throw.
Proof.
  intros C N W. apply cut_spec in C. subst x. destruct l as [|[p t] l]; [congruence|]. unfold hfst_name. cbn [over].
  destruct (set_name_total p (truncate_text n name)) as [[q E]|E]; [|rewrite E; reflexivity].
  apply set_name_ok in E. destruct E as [E _]. contradiction.
Qed.
Print Assumptions C170_cut_refuted.
Example C170_witness : cut 5 (B "the name") (B "the n") /\ well_formed (B "the n") /\
  hfst_name (B "the name") 5 [([], 1); ([(B "name", B "old"); (B "type", B "x")], 2)] = Ok [([(B "name", B "the n")], 1); ([(B "name", B "the n"); (B "type", B "x")], 2)] /\
  well_formed e_acute /\ cut 1 e_acute ["195"%char] /\ ~ well_formed ["195"%char] /\ hfst_name e_acute 1 [([] : props, 1)] = Throw.
Proof.
  split; [apply cut_spec; reflexivity|]. split; [apply check_utf8_spec; reflexivity|]. split; [reflexivity|].
  split; [apply check_utf8_spec; reflexivity|]. split; [apply cut_spec; reflexivity|]. split; [|reflexivity].
  rewrite <- check_utf8_spec. vm_compute. discriminate.
Qed.

(** C171: hfst-edit-metadata gives every transducer of the archive the latest value given for each
    property, cut after the number of bytes given, and changes nothing else.  The values must be
    well formed once they are cut, and the character encoding must be UTF-8. *)
Theorem C171_edit_partial {T} args n (l : list (props * T)) : (forall a, In a args -> exists k v, assigns a k v) ->
  (forall k v, given_last args k v ->
     (exists x, cut n v x /\ well_formed x) /\ (k = B "character-encoding" -> v = B "utf-8" \/ v = B "UTF-8")) ->
  exists m, edit_metadata args n l = Ok m /\ Forall2 (fun a b => snd b = snd a /\
    (forall k v x, given_last args k v -> cut n v x -> get_property k (fst b) = x) /\
    (forall k, (forall v, ~ given_last args k v) -> get_property k (fst b) = get_property k (fst a))) l m.
Proof.
  intros A V. destruct (add_options_ok args A) as (g & E & SP & G). unfold edit_metadata. rewrite E. cbn [rbind].
  assert (ND : NoDup (map fst g)) by exact (sorted_NoDup bcmp bcmp_eq _ SP).
  assert (AL : Forall (allowed n) g).
  { apply Forall_forall. intros [k v] I. apply (mget_sorted_In bcmp bcmp_eq k v g ND) in I. apply G in I. destruct (V k v I) as [(x & C & W) EN].
    split; [|exact EN]. cbn [snd]. apply cut_spec in C. subst x. exact W. }
  apply (over_total _ (fun p q => (forall k v x, given_last args k v -> cut n v x -> get_property k q = x) /\
    (forall k, (forall v, ~ given_last args k v) -> get_property k q = get_property k p))).
  intros p. destruct (set_given_ok n g p ND AL) as (q & Eq & M). exists q. split; [exact Eq|]. unfold get_property. split.
  - intros k v x H C. apply cut_spec in C. subst x. apply G in H. rewrite M, H. reflexivity.
  - intros k H. rewrite M. destruct (mget bcmp k g) as [v|] eqn:Q; [|reflexivity]. apply G in Q. exfalso. exact (H v Q).
Qed.
Print Assumptions C171_edit_partial.
(** An option without an equals sign is refused. *)
Theorem C171_no_equals {T} args a n (l : list (props * T)) : In a args -> ~ In "="%char a -> edit_metadata args n l = Throw.
Proof.
  intros I N. unfold edit_metadata. rewrite (add_options_bad args [] a I); [reflexivity|]. intros k v [-> _]. apply N, in_app_iff. right. now left.
Qed.
Print Assumptions C171_no_equals.
(** A character encoding other than UTF-8 is refused. *)
Theorem C171_encoding {T} args n v (l : list (props * T)) : (forall a, In a args -> exists k v, assigns a k v) ->
  given_last args (B "character-encoding") v -> v <> B "utf-8" -> v <> B "UTF-8" -> l <> [] -> edit_metadata args n l = Throw.
Proof.
  intros A G N1 N2 NE. destruct (add_options_ok args A) as (g & E & _ & M). unfold edit_metadata. rewrite E. cbn [rbind].
  apply M in G. apply (mget_In bcmp bcmp_eq) in G. destruct l as [|[p t] l]; [congruence|]. cbn [over].
  rewrite (set_given_bad n g p v G N1 N2). reflexivity.
Qed.
Print Assumptions C171_encoding.
(** Printing a property works when every transducer has it; otherwise an iterator past the end is
    followed, which is undefined. *)
Theorem C171_missing_refuted {T} key (l : list (props * T)) :
  ((forall x, In x l -> mget bcmp key (fst x) <> None) ->
     print_metadata key l = Ok (concat (map (fun x => get_property key (fst x) ++ ["010"%char]) l))) /\
  ((exists x, In x l /\ mget bcmp key (fst x) = None) -> print_metadata key l = Ub).
Proof.
  split.
  - induction l as [|[p t] l IH]; intros H; cbn [print_metadata map concat]; [reflexivity|].
    pose proof (H (p, t) (or_introl eq_refl)) as N. cbn [fst] in *. unfold get_property at 1. destruct (mget bcmp key p) as [v|]; [|congruence].
    rewrite IH by (intros x I; apply H; now right). cbn [rmap]. rewrite <- app_assoc. reflexivity.
  - induction l as [|[p t] l IH]; intros (x & I & N); [destruct I|]. cbn [print_metadata]. destruct I as [<-|I]; cbn [fst] in *; [rewrite N; reflexivity|].
    destruct (mget bcmp key p); [|reflexivity]. rewrite IH by eauto. reflexivity.
Qed.
Print Assumptions C171_missing_refuted.
Example C171_witness : edit_metadata [B "a=1"; B "b=x=y"; B "a=23"] 2 [([(B "c", B "q")], 7); ([], 8)] =
  Ok [([(B "a", B "23"); (B "b", B "x="); (B "c", B "q")], 7); ([(B "a", B "23"); (B "b", B "x=")], 8)] /\
  print_metadata (B "c") [([(B "c", B "q")], 7); ([], 8)] = Ub.
Proof. split; reflexivity. Qed.
