(** The bodies of a described API under the strict reading. *)
From Verif Require Import Attr Ast Derive DeriveSpec Schema SchemaSpec Gen GenSpec GenFacts.
From Verif Require Import Api ApiSpec ApiFacts ApiFacts2 ApiFacts3 ApiFacts5 ApiFacts7 ApiFacts8 Conformance ApiExamples DeriveExamples.
From Verif Require Import SoundSpec FitsSpec SoundFacts4 SoundFacts5 SoundExamples StrictSpec StrictFacts StrictFacts2 StrictFacts4 StrictFacts5 StrictExamples.
From Coq Require Import ZArith.
Local Open Scope string_scope. Local Open Scope list_scope.

Section Api.
  Variable E : env.
  Variable reason : N -> option str.
  Variable seg : list Tokens.tree -> option segment.
  Variables (a : api) (d : opg).
  Hypothesis Hd : describes E reason seg a d.
  Notation S := (cx_schemas (og_components d)).
  Lemma body_refers o x : has_operation (og_paths d) o -> op_body o = Some x -> exists t, names_type seg a t /\ refers E t (rb_schema x).
  Proof.
    intros Ho Hx. destruct (has_operation_declared _ _ _ _ _ _ (describes_means _ _ _ _ _ Hd) Ho) as (l & Hl & Hm).
    destruct Hm as (_ & _ & _ & _ & _ & _ & Hb & _). destruct (last_of _ l) as [b|] eqn:El; [|congruence].
    destruct Hb as (x' & Hx' & Hb). assert (x' = x) by congruence. subst x'.
    apply last_of_In in El as (q & Hq & Hs). destruct q; try discriminate. injection Hs as ->.
    assert (exists t, body_type b t /\ refers E t (rb_schema x)) as (t & Ht & Hr).
    { destruct b as [pl|t].
      - destruct Hb as (_ & _ & t & Ht & Hr). exists t. split; [|exact Hr]. apply last_of_In in Ht as (q & Hq' & Hs).
        destruct q; try discriminate. injection Hs as ->. exact Hq'.
      - destruct Hb as (_ & _ & Hr). exists t. split; [reflexivity|exact Hr]. }
    exists t. split; [eapply nt_body; eauto|exact Hr].
  Qed.
  Lemma response_refers o c x r : has_operation (og_paths d) o -> bm_get c (op_responses o) = Some x -> rs_schema x = Some r -> ~ raw_response a r ->
    exists t, names_type seg a t /\ refers E t r.
  Proof.
    intros Ho Hx Hr Hraw. destruct (has_operation_declared _ _ _ _ _ _ (describes_means _ _ _ _ _ Hd) Ho) as (l & Hl & Hm).
    pose proof (responses_last E reason seg l o c Hm) as Hrl. destruct (last_with response_code c (responses_of l)) as [ [ [c' g] s] |] eqn:El; [|congruence].
    apply last_with_In in El. destruct El as [Hi Hc]. cbn in Hc. subst c'. destruct Hrl as (x' & Hx' & _ & _ & Hsch). cbn [fst snd] in Hsch.
    assert (x' = x) by congruence. subst x'. unfold responses_of in Hi. apply in_flat_map in Hi. destruct Hi as (q & Hq & Hi).
    destruct q; try (now destruct Hi). destruct Hi as [ [= -> -> ->] |[] ]. destruct s as [| |t|rr].
    - rewrite Hr in Hsch. discriminate.
    - destruct Hsch as (r' & Hr' & Hrf). assert (r' = r) by congruence. subst r'. exists (TPrim PUnit). split; [eapply nt_response; eauto; reflexivity|exact Hrf].
    - destruct Hsch as (r' & Hr' & Hrf). assert (r' = r) by congruence. subst r'. exists t. split; [eapply nt_response; eauto; reflexivity|exact Hrf].
    - destruct Hraw. rewrite Hr in Hsch. exists l, c, g. split; [exact Hl|]. now rewrite Hsch.
  Qed.

  Variable pe pp : str -> bool.
  Variable uni : N -> bool.
  Variable D : tid -> derive_input ty.
  Variable ev : str -> str.
  Hypothesis Hun : forall ts, (forall t, In t ts <-> names_type seg a t) -> names_unambiguous E (map (fun t => SMention t false) ts).
  Lemma refers_agree t r j : (forall t, names_type seg a t -> told_apart pe pp uni D False ev E t) ->
    names_type seg a t -> refers E t r -> (valid S r j <-> accepts S r j).
  Proof.
    intros Hap Ht (cx0 & cx1 & Hm). destruct (components_of_types _ _ _ _ _ Hd) as (ts & cx & Hts & Hr & ->).
    apply (readings_agree_source pe pp uni D ev E (map default_call ts) cx) with (c := default_call t) (cx0 := cx0) (cx1 := cx1).
    - rewrite call_sites_default. now apply Hun.
    - exact Hr.
    - intros c Hc. apply in_map_iff in Hc. destruct Hc as (t' & <- & Hi). now apply Hap, Hts.
    - now apply in_map, Hts.
    - exact Hm.
  Qed.
  Lemma refers_accepted t r j : (forall t, names_type seg a t -> told_apart pe pp uni D True ev E t) ->
    names_type seg a t -> refers E t r -> fits S r j -> accepts S r j /\ ~ rejects S r j.
  Proof.
    intros Hap Ht (cx0 & cx1 & Hm) Hf. destruct (components_of_types _ _ _ _ _ Hd) as (ts & cx & Hts & Hr & Ecx). rewrite Ecx in *.
    assert (Ha : accepts (cx_schemas cx) r j).
    { apply (accepted_source pe pp uni D ev E (map default_call ts) cx) with (c := default_call t) (cx0 := cx0) (cx1 := cx1).
      - rewrite call_sites_default. now apply Hun.
      - exact Hr.
      - intros c Hc. apply in_map_iff in Hc. destruct Hc as (t' & <- & Hi). now apply Hap, Hts.
      - now apply in_map, Hts.
      - exact Hm.
      - exact Hf. }
    split; [exact Ha|]. exact (proj1 (strict_consistent _) r j Ha).
  Qed.
End Api.
Theorem body_agree pe pp uni D ev E reason seg a d : describes E reason seg a d ->
  (forall ts, (forall t, In t ts <-> names_type seg a t) -> names_unambiguous E (map (fun t => SMention t false) ts)) ->
  (forall t, names_type seg a t -> told_apart pe pp uni D False ev E t) ->
  forall o x j, has_operation (og_paths d) o -> op_body o = Some x ->
  (valid (cx_schemas (og_components d)) (rb_schema x) j <-> accepts (cx_schemas (og_components d)) (rb_schema x) j).
Proof. intros Hd Hun Hap o x j Ho Hx. destruct (body_refers _ _ _ _ _ Hd _ _ Ho Hx) as (t & Ht & Hr). eapply refers_agree; eauto. Qed.
Theorem response_agree pe pp uni D ev E reason seg a d : describes E reason seg a d ->
  (forall ts, (forall t, In t ts <-> names_type seg a t) -> names_unambiguous E (map (fun t => SMention t false) ts)) ->
  (forall t, names_type seg a t -> told_apart pe pp uni D False ev E t) ->
  forall o c x r j, has_operation (og_paths d) o -> bm_get c (op_responses o) = Some x -> rs_schema x = Some r -> ~ raw_response a r ->
  (valid (cx_schemas (og_components d)) r j <-> accepts (cx_schemas (og_components d)) r j).
Proof. intros Hd Hun Hap o c x r j Ho Hx Hs Hraw. destruct (response_refers _ _ _ _ _ Hd _ _ _ _ Ho Hx Hs Hraw) as (t & Ht & Hr). eapply refers_agree; eauto. Qed.
Theorem body_strict pe pp uni disc D ev E reason seg a d : describes E reason seg a d ->
  (forall ts, (forall t, In t ts <-> names_type seg a t) -> names_unambiguous E (map (fun t => SMention t false) ts)) ->
  (forall t, names_type seg a t -> told_apart pe pp uni D True ev E t) ->
  forall o x, has_operation (og_paths d) o -> op_body o = Some x ->
  exists l b t, declares_operation a l /\ op_means E reason (callback_means E reason seg) l o /\ In (OpBody b) l /\ body_type b t /\
    (supported_inside pe pp D False t -> derived_inside pe pp uni D ev E t -> forall j, emits pe pp uni disc D t j ->
     accepts (cx_schemas (og_components d)) (rb_schema x) j /\ ~ rejects (cx_schemas (og_components d)) (rb_schema x) j).
Proof.
  intros Hd Hun Hap o x Ho Hx. destruct (body_fits pe pp uni disc D ev E reason seg a d Hd Hun _ _ Ho Hx) as (l & b & t & H1 & H2 & H3 & H4 & H5).
  exists l, b, t. repeat (split; [assumption|]). intros Hs Hdv j Hj.
  destruct (body_refers _ _ _ _ _ Hd _ _ Ho Hx) as (t' & Ht & Hr). eapply refers_accepted; eauto.
Qed.
Theorem response_strict pe pp uni disc D ev E reason seg a d : describes E reason seg a d ->
  (forall ts, (forall t, In t ts <-> names_type seg a t) -> names_unambiguous E (map (fun t => SMention t false) ts)) ->
  (forall t, names_type seg a t -> told_apart pe pp uni D True ev E t) ->
  forall o c x r, has_operation (og_paths d) o -> bm_get c (op_responses o) = Some x -> rs_schema x = Some r -> ~ raw_response a r ->
  exists l desc s t, declares_operation a l /\ op_means E reason (callback_means E reason seg) l o /\ In (OpResponse c desc s) l /\ response_type s t /\
    (supported_inside pe pp D False t -> derived_inside pe pp uni D ev E t -> forall j, emits pe pp uni disc D t j ->
     accepts (cx_schemas (og_components d)) r j /\ ~ rejects (cx_schemas (og_components d)) r j).
Proof.
  intros Hd Hun Hap o c x r Ho Hx Hs Hraw. destruct (response_fits pe pp uni disc D ev E reason seg a d Hd Hun _ _ _ _ Ho Hx Hs) as (l & g & s & H1 & H2 & H3 & H4).
  destruct H4 as [->|(t & H4 & H5)]; [destruct Hraw; now exists l, c, g|]. exists l, g, s, t. repeat (split; [assumption|]). intros Hsu Hdv j Hj.
  destruct (response_refers _ _ _ _ _ Hd _ _ _ _ Ho Hx Hs Hraw) as (t' & Ht & Hr). eapply refers_accepted; eauto.
Qed.

(** ** A case *)
Definition report_api : api :=
  [ScPaths [Build_path_decl_of [UTok (Tokens.tk_str "reports")] [PvMethod POST [OpBody (BodyType (TNamed 4)); OpResponse 200 None (RsType (TNamed 4))]]]].
Definition report_doc : opg := Eval vm_compute in
  match describe_api report_env 50 test_reason small_seg report_api with Done d => d | _ => opg_default end.
Lemma report_describes : describes report_env test_reason small_seg report_api report_doc.
Proof. exists 50. vm_compute. reflexivity. Qed.
Lemma report_types_only t : names_type small_seg report_api t <-> t = TNamed 4.
Proof. rewrite <- type_events. cbn. split; [intros [H|[H|[]]]; congruence|intros ->; now left]. Qed.
Lemma report_api_unambiguous ts : (forall t, In t ts <-> names_type small_seg report_api t) -> names_unambiguous report_env (map (fun t => SMention t false) ts).
Proof.
  intros H. apply (unambiguous_same _ (call_sites report_calls)); [|exact report_unambiguous]. intros s. cbn. rewrite in_map_iff. split.
  - intros [<-|[]]. exists (TNamed 4). split; [reflexivity|]. apply H. now apply report_types_only.
  - intros (t & <- & Ht). left. apply H, report_types_only in Ht. now subst.
Qed.
Lemma report_api_case : exists o x, has_operation (og_paths report_doc) o /\ op_body o = Some x /\ rb_schema x = Link (u "Report") /\
  bm_get (u "Report") (cx_schemas (og_components report_doc)) <> None.
Proof.
  eexists _, _. split; [eexists _, _, POST; split; [eexists; split; [constructor|left; reflexivity]|left; reflexivity]|]. split; [reflexivity|]. split; [reflexivity|]. vm_compute. discriminate.
Qed.
