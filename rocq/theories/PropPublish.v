(** From the source of an API description to the readers of the published document: C78. *)
From Coq Require Import List ZArith.
From Verif Require Import Attr Ast Derive DeriveSpec Schema SchemaSpec Gen GenSpec DeriveExamples Conformance.
From Verif Require Import Doc Ser Api SerSpec ApiSpec ApiExamples SoundSpec SoundFacts4 SoundFacts5 SoundExamples.
From Verif Require Import ReadSpec Match Syntax SyntaxSpec SyntaxFacts9 ConformanceSyntax Serde SerdeSpec SerdeFacts PublishSpec PublishFacts PublishExamples.
Local Open Scope string_scope. Local Open Scope list_scope.

(** * C78: What a reader of the published document sees is what the source says *)

(** [publishes] (PublishSpec.v): the tokens compile, the code returns, and serialising its document tells a serializer [t].
    Whatever a source publishes, a reader of OpenAPI documents ([read_document], ReadSpec.v) recovers from it the document that
    the source describes, as the grammar reads it. *)
Theorem C78_reader_sees_source : forall C E reason ts t, rust_like C -> plain_source C ts -> publishes C E reason ts t ->
  exists a d, invocation C ts a /\ describes E reason (url_segment C) a d /\ read_document (to_value t) = Some d.
Proof. exact publishes_reads. Qed.
Print Assumptions C78_reader_sees_source.
(** Every source that describes a document publishes one, and only one. *)
Theorem C78_published : forall C E reason ts a d, rust_like C -> invocation C ts a -> describes E reason (url_segment C) a d ->
  exists t, publishes C E reason ts t /\ forall t', publishes C E reason ts t' -> t' = t.
Proof.
  intros C E reason ts a d HC Ha Hd. destruct (described_publishes _ _ _ _ _ _ HC Ha Hd) as [t Ht]. exists t. split; [exact Ht|].
  intros t' Ht'. exact (publishes_once _ _ _ _ _ _ HC Ht' Ht).
Qed.
Print Assumptions C78_published.
(** Each request body that the reader finds stands in the source with a type, and the schema that the reader finds, with its links
    resolved in what the reader has, accepts what serde writes for values of that type; as C60, for supported types. *)
Theorem C78_request_bodies_partial : forall pe pp uni disc D ev C E reason ts t doc,
  rust_like C -> plain_source C ts -> publishes C E reason ts t -> own_names C E ts -> read_document (to_value t) = Some doc ->
  forall o x, has_operation (og_paths doc) o -> op_body o = Some x ->
  exists a l b ty, invocation C ts a /\ declares_operation a l /\ In (OpBody b) l /\ body_type b ty /\
    (supported_inside pe pp D True ty -> derived_inside pe pp uni D ev E ty ->
     forall j, emits pe pp uni disc D ty j -> valid (cx_schemas (og_components doc)) (rb_schema x) j).
Proof. exact read_bodies. Qed.
Print Assumptions C78_request_bodies_partial.
Theorem C78_responses_partial : forall pe pp uni disc D ev C E reason ts t doc,
  rust_like C -> plain_source C ts -> publishes C E reason ts t -> own_names C E ts -> read_document (to_value t) = Some doc ->
  forall o c x r, has_operation (og_paths doc) o -> bm_get c (op_responses o) = Some x -> rs_schema x = Some r ->
  exists a l desc s, invocation C ts a /\ declares_operation a l /\ In (OpResponse c desc s) l /\
    (s = RsRaw (Some r) \/ exists ty, response_type s ty /\
      (supported_inside pe pp D True ty -> derived_inside pe pp uni D ev E ty ->
       forall j, emits pe pp uni disc D ty j -> valid (cx_schemas (og_components doc)) r j)).
Proof. exact read_responses. Qed.
Print Assumptions C78_responses_partial.

(** The tokens of the invocation in the repository's test; the body of one of its operations, and a value of its type. *)
Example C78_case :
  rust_like test_caller /\ plain_source test_caller test_tokens /\ own_names test_caller test_env test_tokens /\
  (exists t, publishes test_caller test_env test_reason test_tokens t /\ read_document (to_value t) = Some test_doc) /\
  (exists o x, has_operation (og_paths test_doc) o /\ op_body o = Some x /\ rb_schema x = Link (u "InModule")) /\
  supported_inside yes yes test_source True (TNamed 20) /\ derived_inside yes yes noupper test_source eval_text test_env (TNamed 20) /\
  emits yes yes noupper test_disc test_source (TNamed 20)
    (JObj [(u "field", JStr (u "a")); (u "second", JObj [(u "another_field", JNull)])]).
Proof.
  split; [exact test_rust_like|]. split; [exact test_plain_source|]. split; [exact test_own_names|]. split; [exact test_publishes|].
  exact (proj2 (proj2 (api_case True))).
Qed.
