(** Properties of emitted documents as OpenAPI documents: C64 and C65. *)
From Verif Require Import Attr Ast Derive DeriveSpec Schema Gen GenSpec SerSpec ApiSpec ReadSpec SerFacts SerFacts2 SerFacts3 SerFacts4 SerExamples
  Expected Conformance ApiFacts8 ApiExamples ReadFacts ReadFacts2.
From Verif Require Import DeriveExamples SoundExamples OpenApiFacts TidySpec TidyFacts TidyFacts2 TidyFacts3 TidyFacts4 TidyFacts5 TidyFacts6 TidyExamples.
Local Open Scope string_scope. Local Open Scope list_scope.

(** * C64: An OpenAPI reader recovers the document *)
Theorem C64_document : forall d, wf_opg d -> plain_paths (og_paths d) -> read_document (ser_opg d) = Some d.
Proof. exact read_ser_document. Qed.
Theorem C64_schema : forall m, read_schema (ser_model m) = Some m.
Proof. exact read_ser_schema. Qed.
Theorem C64_reference : forall r, read_ref (ser_ref r) = Some r.
Proof. exact read_ser_ref. Qed.
Theorem C64_components : forall c, read_components (ser_components c) = Some c.
Proof. exact read_ser_components. Qed.
(** The documents of describe_api!, if no name or literal in a url template contains a slash or a brace. *)
Theorem C64_described : forall E reason seg a d,
  describes E reason seg a d -> (forall r, raw_response a r -> wf_ref r) ->
  (forall pd g s, declares_path a pd -> In g (split_url (pd_url pd)) -> seg g = Some s -> plain_segment s) ->
  read_document (ser_opg d) = Some d.
Proof. exact read_described. Qed.
(** Without the condition: a literal segment in braces is read as a parameter. *)
Theorem C64_any_path_refuted : exists E reason seg a d,
  describes E reason seg a d /\ (forall r, ~ raw_response a r) /\ wf_opg d /\ read_document (ser_opg d) <> Some d.
Proof. exists test_env, test_reason, braces_seg, braces, braces_doc. exact braces_misread. Qed.
Example C64_case : wf_opg ex_doc /\ plain_paths (og_paths ex_doc) /\
  describes test_env test_reason test_seg test_api test_doc /\ (forall r, raw_response test_api r -> wf_ref r) /\
  (forall pd g s, declares_path test_api pd -> In g (split_url (pd_url pd)) -> test_seg g = Some s -> plain_segment s).
Proof.
  split; [exact ex_wf|]. split; [exact ex_plain|]. split; [exact test_describes|]. split; [|exact test_plain].
  intros r Hr. destruct (test_no_raw r Hr).
Qed.
Print Assumptions C64_document.
Print Assumptions C64_schema.
Print Assumptions C64_reference.
Print Assumptions C64_components.
Print Assumptions C64_described.
Print Assumptions C64_any_path_refuted.

(** * C65: Emitted documents conform to OpenAPI 3.0.3 *)
(** Exactly which documents, and which schemas, conform. *)
Theorem C65_document_iff : forall d, wf_opg d -> (conforms (ser_opg d) <-> tidy_document d).
Proof. exact conforms_iff. Qed.
Theorem C65_schema_iff : forall m, wf_model m -> (is_schema (ser_model m) <-> tidy m).
Proof. exact is_schema_iff. Qed.
(** Generated schemas conform, if the sources of all types in them do. *)
Theorem C65_types_partial : forall pe pp uni ev D E t cx m cx',
  describable pe pp uni ev D E t -> schema_returns E t cx m cx' -> is_schema (ser_model m).
Proof. exact describable_schema. Qed.
Theorem C65_components_partial : forall pe pp uni ev D E calls cx,
  (forall c, In c calls -> describable pe pp uni ev D E (mc_ty c) /\ p_variants (mc_params c) <> Some []) -> mentions_return E calls cx_new cx ->
  forall n m, In (n, m) (cx_schemas cx) -> component_name n /\ is_schema (ser_model m).
Proof. exact describable_components. Qed.
(** Exactly when, for a history of mentions whose types are derived, in which no name stands for two types and no object has
    two fields of one name: everything registered and returned is accepted if and only if the sources of all types visited are filled, no
    tuple among them is empty, and every type linked to has a name that OpenAPI allows. *)
Theorem C65_types_iff : forall pe pp uni ev D E calls cx, mentions_return E calls cx_new cx -> (forall c, In c calls -> p_variants (mc_params c) = None) ->
  names_unambiguous E (call_sites calls) ->
  (forall s id, visited E (call_sites calls) s -> site_ty s = TNamed id -> derive pe pp uni ev (D id) = DOk (E id) /\ fields_apart pe pp (D id)) ->
  (accepted E calls cx <->
   (forall s, visited E (call_sites calls) s -> match site_ty s with TNamed id => input_filled pe pp (D id) | TTuple ts => ts <> [] | _ => True end) /\
   (forall t n, linked E (call_sites calls) t -> type_name E t = Some n -> component_name n)).
Proof. intros pe pp uni ev D E calls cx Hm Hv Hu Hd. exact (types_iff pe pp uni ev D E calls cx Hm Hv (fun s id Hs He => proj1 (Hd s id Hs He)) Hu (fun s id Hs He => proj2 (Hd s id Hs He))). Qed.
Example C65_types_case : mentions_return test_env test_calls cx_new test_cx /\ (forall c, In c test_calls -> p_variants (mc_params c) = None) /\
  names_unambiguous test_env (call_sites test_calls) /\
  (forall s id, visited test_env (call_sites test_calls) s -> site_ty s = TNamed id ->
     derive yes yes noupper eval_text (test_source id) = DOk (test_env id) /\ fields_apart yes yes (test_source id)) /\
  (exists s, visited test_env (call_sites test_calls) s /\ site_ty s = TNamed 20) /\ cx_schemas test_cx <> [].
Proof. exact test_history. Qed.
(** The documents of describe_api!. *)
Theorem C65_described_partial : forall pe pp uni ev D E reason seg a d,
  describes E reason seg a d -> presentable a -> distinct_paths (og_paths d) ->
  (forall t, names_type seg a t -> describable pe pp uni ev D E t) -> conforms (ser_opg d).
Proof. exact describable_conforms. Qed.
(** Exactly which documents do, if nothing is declared in two ways, types are derived, no name stands for two types and no object has two fields of one
    name: those whose operations have responses with codes that HTTP has, whose schemes and linked types have names that OpenAPI allows, whose
    paths differ, and whose types have sources that are filled. *)
Theorem C65_described_iff : forall pe pp uni ev D E reason seg a d ts,
  describes E reason seg a d -> said_once seg a -> (forall r, raw_response a r -> wf_ref r) ->
  (forall t, In t ts <-> names_type seg a t) -> names_unambiguous E (map (fun t => SMention t false) ts) ->
  (forall s id, visited E (map (fun t => SMention t false) ts) s -> site_ty s = TNamed id -> derive pe pp uni ev (D id) = DOk (E id) /\ fields_apart pe pp (D id)) ->
  (conforms (ser_opg d) <->
   presentable a /\ distinct_paths (og_paths d) /\
   (forall s, visited E (map (fun t => SMention t false) ts) s -> match site_ty s with TNamed id => input_filled pe pp (D id) | TTuple l => l <> [] | _ => True end) /\
   (forall t n, linked E (map (fun t => SMention t false) ts) t -> type_name E t = Some n -> component_name n)).
Proof. exact described_iff. Qed.
Example C65_described_case : describes test_env test_reason test_seg test_api test_doc /\ said_once test_seg test_api /\ (forall r, raw_response test_api r -> wf_ref r) /\
  (forall t, In t test_types <-> names_type test_seg test_api t) /\ names_unambiguous test_env (map (fun t => SMention t false) test_types) /\
  (forall s id, visited test_env (map (fun t => SMention t false) test_types) s -> site_ty s = TNamed id ->
     derive yes yes noupper eval_text (test_source id) = DOk (test_env id) /\ fields_apart yes yes (test_source id)) /\
  conforms (ser_opg test_doc).
Proof.
  split; [exact test_describes|]. split; [exact test_said_once|]. split; [intros r Hr; destruct (test_no_raw r Hr)|]. split; [exact (types_written test_seg test_api)|].
  split; [exact test_unambiguous|]. split; [exact (proj1 (proj2 (proj2 (proj2 test_history))))|].
  exact (describable_conforms _ _ _ _ _ _ _ _ _ _ test_describes test_presentable test_distinct test_describable).
Qed.
(** FINDING: without the conditions documents may not conform.  No paths: the required [paths] is left out. *)
Theorem C65_no_paths_refuted : exists E reason seg a d,
  describes E reason seg a d /\ api_paths a = [] /\ ~ conforms (ser_opg d).
Proof. exists test_env, test_reason, small_seg, nothing, (bad_doc nothing). exact nothing_case. Qed.
(** An operation without responses; with a status code that HTTP does not have; an api key in the path. *)
Theorem C65_responses_refuted : exists E reason seg a d,
  describes E reason seg a d /\ a = small [PvMethod GET [OpSummary (u "Summary")]] /\ ~ conforms (ser_opg d).
Proof. exists test_env, test_reason, small_seg, silent, (bad_doc silent). exact silent_case. Qed.
Theorem C65_status_refuted : exists E reason seg a d,
  describes E reason seg a d /\ a = small [PvMethod GET [OpResponse 42 (Some (u "Fine")) RsNone]] /\ ~ conforms (ser_opg d).
Proof. exists test_env, test_reason, small_seg, coded, (bad_doc coded). exact coded_case. Qed.
Theorem C65_api_key_refuted : exists E reason seg a d k,
  describes E reason seg a d /\ declares_scheme a (u "key") (ApiKey k) /\ ak_in k = InPath /\ ~ conforms (ser_opg d).
Proof. exact keyed_case. Qed.
(** An enum whose variants are all skipped, a tuple struct without fields, a struct with two required fields of one name. *)
Theorem C65_enum_refuted : exists i vs, di_data i = DaEnum vs /\ vs <> [] /\ (forall v, In v vs -> variant_skipped yes yes v) /\ TidySpec.misformed yes yes noupper DeriveExamples.same i.
Proof. exact skipped_case. Qed.
Theorem C65_tuple_refuted : exists i, di_data i = DaStruct (FUnnamed []) /\ TidySpec.misformed yes yes noupper DeriveExamples.same i.
Proof. exists no_fields. split; [reflexivity|exact no_fields_misformed]. Qed.
Theorem C65_required_refuted : exists i f g, di_data i = DaStruct (FNamed [f; g]) /\ fs_ident f <> fs_ident g /\ TidySpec.misformed yes yes noupper DeriveExamples.same i.
Proof. exact twins_case. Qed.
Example C65_case : describes test_env test_reason test_seg test_api test_doc /\ presentable test_api /\ distinct_paths (og_paths test_doc) /\
  (forall t, names_type test_seg test_api t -> describable yes yes noupper eval_text test_source test_env t) /\ wf_opg test_doc /\ conforms (ser_opg test_doc).
Proof.
  split; [exact test_describes|]. split; [exact test_presentable|]. split; [exact test_distinct|]. split; [exact test_describable|].
  split; [exact test_wf|]. exact (describable_conforms _ _ _ _ _ _ _ _ _ _ test_describes test_presentable test_distinct test_describable).
Qed.
Print Assumptions C65_document_iff.
Print Assumptions C65_schema_iff.
Print Assumptions C65_types_partial.
Print Assumptions C65_types_iff.
Print Assumptions C65_components_partial.
Print Assumptions C65_described_partial.
Print Assumptions C65_described_iff.
Print Assumptions C65_no_paths_refuted.
Print Assumptions C65_responses_refuted.
Print Assumptions C65_status_refuted.
Print Assumptions C65_api_key_refuted.
Print Assumptions C65_enum_refuted.
Print Assumptions C65_tuple_refuted.
Print Assumptions C65_required_refuted.
