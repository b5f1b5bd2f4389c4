(** Facts about reading the documents of describe_api!. *)
From Verif Require Import Schema Gen GenSpec SerSpec ReadSpec ApiSpec SerExamples SerFacts SerFacts2 SerFacts3 SerFacts4 ReadFacts
  ApiFacts ApiFacts2 ApiFacts3 ApiFacts4 ApiFacts5 ApiFacts6 ApiFacts7 ApiFacts8 Expected Conformance ApiExamples.
Local Open Scope string_scope. Local Open Scope list_scope.

Lemma plain_parameter text n : plain text -> type_parameter text n -> plain n.
Proof.
  intros Hp (before & c & rest & -> & _ & _ & _ & H).
  assert (Hs : forall x, ~ In x (before ++ c :: rest) -> x <> c /\ ~ In x rest).
  { intros x Hx. rewrite in_app_iff in Hx. cbn in Hx. split; [intros ->|]; tauto. }
  destruct Hp as (H1 & H2 & H3). apply Hs in H1, H2, H3. unfold plain, SLASH, LBRACE, RBRACE in *.
  destruct H as [[Hc ->]|[_ ->]]; cbn [In]; repeat split; intros [E|E]; try tauto; try (intuition congruence); lia.
Qed.
Lemma plain_described E reason seg a d : describes E reason seg a d ->
  (forall pd g s, declares_path a pd -> In g (split_url (pd_url pd)) -> seg g = Some s -> plain_segment s) -> plain_paths (og_paths d).
Proof.
  intros Hd Hs p v Hp. destruct (has_path_declared _ _ _ _ _ _ _ (describes_means _ _ _ _ _ Hd) Hp) as (pd & H1 & H2).
  destruct H2 as [(segs & _ & _ & Hg & Hm & _) _]. cbn [fst] in Hm. specialize (Hs pd).
  assert (Ha : forall s, In s segs -> plain_segment s).
  { intros s Hi. apply (In_nth_error) in Hi. destruct Hi as [n Hn].
    assert (Hx : exists g, In g (split_url (pd_url pd)) /\ seg g = Some s).
    { clear -Hg Hn. revert n Hn. induction Hg as [|g s' gs ss Hgs Hf IH]; intros [|n] Hn; try discriminate.
      - injection Hn as ->. exists g. split; [now left|apply Hgs].
      - destruct (IH n Hn) as (g' & ? & ?). exists g'. split; [now right|assumption]. }
    destruct Hx as (g & Hg1 & Hg2). exact (Hs g s H1 Hg1 Hg2). }
  clear -Hm Ha. induction Hm as [|s e ss es H Hm IH]; intros x Hx; [destruct Hx|].
  destruct Hx as [<-|Hx]; [|apply IH; auto; intros; apply Ha; now right].
  specialize (Ha s (or_introl eq_refl)). destruct s as [t|t ty|t ty]; cbn [segment_means plain_segment] in *.
  - now subst.
  - destruct H as (n & Hn & ->). now apply plain_parameter with t.
  - now subst.
Qed.
Lemma read_described E reason seg a d : describes E reason seg a d -> (forall r, raw_response a r -> wf_ref r) ->
  (forall pd g s, declares_path a pd -> In g (split_url (pd_url pd)) -> seg g = Some s -> plain_segment s) ->
  read_document (ser_opg d) = Some d.
Proof. intros Hd Hr Hs. apply read_ser_document; [eapply described_wf; eauto|eapply plain_described; eauto]. Qed.
Lemma test_plain pd g s : declares_path test_api pd -> In g (split_url (pd_url pd)) -> test_seg g = Some s -> plain_segment s.
Proof.
  intros _ _. unfold test_seg.
  repeat match goal with |- (match ?x with _ => _ end) = _ -> _ => destruct x end; try discriminate; intros [= <-]; apply plain_dec; reflexivity.
Qed.

(** a literal segment in braces *)
Definition braces_seg (l : list tree) : option segment := Some (SegLit (u "{id}")).
Definition braces : api := [ScPaths [Build_path_decl_of [UTok (tk_str "{id}")] []]].
Definition braces_doc : opg := {| og_info := info_default; og_tags := []; og_servers := []; og_paths := [([PePath (u "{id}")], path_value_default)];
  og_components := {| cx_schemas := []; cx_security := [] |} |}.
Lemma braces_misread : describes test_env test_reason braces_seg braces braces_doc /\ (forall r, ~ raw_response braces r) /\
  wf_opg braces_doc /\ read_document (ser_opg braces_doc) <> Some braces_doc.
Proof.
  assert (Hd : describes test_env test_reason braces_seg braces braces_doc) by (exists 9; vm_compute; reflexivity).
  assert (Hr : forall r, ~ raw_response braces r).
  { intros r (l & c & x & (pd & m & (ds & Hw & Hi) & Hm) & _).
    assert (E : ds = api_paths braces).
    { clear -Hw. induction Hw as [|ds d m' l' cs t n ds' Hw IH A1 A2 A3 A4]; [reflexivity|].
      subst ds. destruct A1 as [<-|[]]. destruct A2. }
    subst ds. destruct Hi as [<-|[]]. destruct Hm. }
  split; [exact Hd|]. split; [exact Hr|]. split.
  - eapply described_wf; [exact Hd|]. intros r H. destruct (Hr r H).
  - vm_compute. discriminate.
Qed.
