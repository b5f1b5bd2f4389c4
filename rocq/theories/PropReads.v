(** Generated schemas against what serde reads: C66. *)
From Verif Require Import Attr AttrSpec Ast Derive DeriveSpec Schema SchemaSpec Gen GenSpec DeriveExamples Conformance.
From Verif Require Import Doc Ser Api SerSpec ApiSpec ApiExamples SoundSpec SoundExamples ReadsSpec ReadsFacts2 ReadsFacts3 ReadsExamples.
From Coq Require Import ZArith.
Local Open Scope string_scope. Local Open Scope list_scope.

(** * C66: What the schema accepts can be read *)

(** For every type made of types that are described exactly ([exact_inside]: see ReadsSpec.v), in any history of mentions
    in which no two types share a component name. *)
Theorem C66_accepted_json_readable_partial : forall pe pp uni disc D ev E calls cx_end,
  names_unambiguous E (call_sites calls) -> mentions_return E calls cx_new cx_end ->
  forall c cx0 r cx1 j, In c calls -> p_variants (mc_params c) = None ->
  (p_nullable (mc_params c) = Some true -> nullish D (mc_ty c)) ->
  supported_inside pe pp D False (mc_ty c) -> exact_inside pe pp D (mc_ty c) -> derived_inside pe pp uni D ev E (mc_ty c) ->
  mention_returns E (mc_ty c) (mc_inline c) (mc_params c) cx0 r cx1 ->
  distinct_names j -> valid (cx_schemas cx_end) r j -> reads pe pp uni disc D (mc_ty c) j.
Proof. exact mention_readable. Qed.
(** An internally tagged enum that contains an untagged one and a struct with a default; and an accepted text, with a
    member that is not known and one that is missing.  Of the types of the repository's tests, 11 are described exactly. *)
Example C66_case :
  names_unambiguous read_env (call_sites [named_call 2]) /\ mentions_return read_env [named_call 2] cx_new read_cx /\
  supported_inside yes yes read_source False (TNamed 2) /\ exact_inside yes yes read_source (TNamed 2) /\
  derived_inside yes yes noupper read_source DeriveExamples.same read_env (TNamed 2) /\
  mention_returns read_env (TNamed 2) false params_default cx_new (Link (u "Step")) read_cx /\
  (let j := JObj [(u "B", JArr [JInt 3]); (u "kind", JStr (u "Jump")); (u "other", JNull)] in
   distinct_names j /\ valid (cx_schemas read_cx) (Link (u "Step")) j) /\
  forall id, In id [0; 1; 3; 9; 10; 14; 15; 16; 19; 20; 21] ->
    supported_inside yes yes test_source False (TNamed id) /\ exact_inside yes yes test_source (TNamed id) /\
    derived_inside yes yes noupper test_source eval_text test_env (TNamed id).
Proof.
  split; [exact read_unambiguous|]. split; [exact read_return|]. split; [exact read_supported|]. split; [exact read_exact|].
  split; [apply read_derived|]. split; [exists 20; vm_compute; reflexivity|]. split; [split; [apply read_distinct|apply read_valid]|].
  intros id Hid. assert (Hs : In id test_supported) by (cbn in Hid; cbn; tauto). destruct (test_supported_ok (tags := False) id Hs) as [H1 H2].
  split; [exact H1|]. split; [now apply test_exact_ok|exact H2].
Qed.

(** The bodies of a described API. *)
Theorem C66_request_bodies_partial : forall pe pp uni disc D ev E reason seg a d,
  describes E reason seg a d ->
  (forall ts, (forall t, In t ts <-> names_type seg a t) -> names_unambiguous E (map (fun t => SMention t false) ts)) ->
  forall o x, has_operation (og_paths d) o -> op_body o = Some x ->
  exists l b t, declares_operation a l /\ op_means E reason (callback_means E reason seg) l o /\ In (OpBody b) l /\ body_type b t /\
    (supported_inside pe pp D False t -> exact_inside pe pp D t -> derived_inside pe pp uni D ev E t ->
     forall j, distinct_names j -> valid (cx_schemas (og_components d)) (rb_schema x) j -> reads pe pp uni disc D t j).
Proof. exact body_readable. Qed.
Theorem C66_responses_partial : forall pe pp uni disc D ev E reason seg a d,
  describes E reason seg a d ->
  (forall ts, (forall t, In t ts <-> names_type seg a t) -> names_unambiguous E (map (fun t => SMention t false) ts)) ->
  forall o c x r, has_operation (og_paths d) o -> bm_get c (op_responses o) = Some x -> rs_schema x = Some r ->
  exists l desc s, declares_operation a l /\ op_means E reason (callback_means E reason seg) l o /\ In (OpResponse c desc s) l /\
    (s = RsRaw (Some r) \/ exists t, response_type s t /\
      (supported_inside pe pp D False t -> exact_inside pe pp D t -> derived_inside pe pp uni D ev E t ->
       forall j, distinct_names j -> valid (cx_schemas (og_components d)) r j -> reads pe pp uni disc D t j)).
Proof. exact response_readable. Qed.
Example C66_bodies_case :
  describes test_env test_reason test_seg test_api test_doc /\
  (forall ts, (forall t, In t ts <-> names_type test_seg test_api t) -> names_unambiguous test_env (map (fun t => SMention t false) ts)) /\
  (exists o x, has_operation (og_paths test_doc) o /\ op_body o = Some x /\ rb_schema x = Link (u "InModule")) /\
  supported_inside yes yes test_source False (TNamed 20) /\ exact_inside yes yes test_source (TNamed 20) /\
  derived_inside yes yes noupper test_source eval_text test_env (TNamed 20).
Proof.
  destruct (api_case False) as (H1 & H2 & H3 & H4 & H5 & _). repeat (split; [assumption|]). split; [apply test_exact_ok; cbn; tauto|assumption].
Qed.

(** FINDINGS: texts that cannot be read are accepted by the schemas of [()], ... *)
Theorem C66_unit_refuted : exists pe pp uni ev disc D E s, overaccepted pe pp uni ev disc D E (TPrim PUnit) (JStr s).
Proof. do 8 eexists. exact over_unit. Qed.
(** ... an array of fixed length, ... *)
Theorem C66_array_length_refuted : exists pe pp uni ev disc D E n t l,
  N.of_nat (length l) <> n /\ overaccepted pe pp uni ev disc D E (TSeq (KArray n) t) (JArr l).
Proof. do 10 eexists. split; [|exact over_array]. discriminate. Qed.
(** ... a tuple (one element too few), ... *)
Theorem C66_tuple_length_refuted : exists pe pp uni ev disc D E ts l,
  length l < length ts /\ overaccepted pe pp uni ev disc D E (TTuple ts) (JArr l).
Proof. do 9 eexists. split; [|exact over_tuple]. repeat constructor. Qed.
(** ... an externally tagged enum (a name that is no variant's), ... *)
Theorem C66_unknown_variant_refuted : exists pe pp uni ev disc D E id n j,
  (forall rep v, ~ enum_variant pe pp uni (D id) rep n v) /\ represents pe pp (di_attrs (D id)) RepExternal /\
  overaccepted pe pp uni ev disc D E (TNamed id) (JObj [(n, j)]).
Proof. do 10 eexists. split; [|split; [|exact over_external] ]; [exact choice_unknown|exact choice_external]. Qed.
(** ... an adjacently tagged enum (the content of another variant), ... *)
Theorem C66_other_content_refuted : exists pe pp uni ev disc D E id tag content n j v,
  enum_variant pe pp uni (D id) (RepAdjacent tag content) n v /\ ~ reads_payload pe pp uni disc D v j /\
  overaccepted pe pp uni ev disc D E (TNamed id) (JObj [(tag, JStr n); (content, j)]).
Proof. do 13 eexists. split; [exact two_variant|]. split; [|exact over_adjacent]. exact two_unread. Qed.
(** ... an enum written as an integer (one that is no discriminant), ... *)
Theorem C66_discriminant_refuted : exists pe pp uni ev disc D E id z vs,
  di_data (D id) = DaEnum vs /\ written_as_int pe pp (D id) vs /\ (forall v, ~ In (v, z) (discriminants disc 0 vs)) /\
  overaccepted pe pp uni ev disc D E (TNamed id) (JInt z).
Proof. do 10 eexists. split; [|split; [|split; [|exact over_repr] ] ]; [reflexivity|exact level_int|exact level_seven]. Qed.
(** ... and structs with a field marked optional (which is missing), nullable (which is null) or any. *)
Theorem C66_optional_field_refuted : exists pe pp uni ev disc D E id, overaccepted pe pp uni ev disc D E (TNamed id) (JObj []).
Proof. do 8 eexists. exact over_optional. Qed.
Theorem C66_nullable_field_refuted : exists pe pp uni ev disc D E id n, overaccepted pe pp uni ev disc D E (TNamed id) (JObj [(n, JNull)]).
Proof. do 9 eexists. exact over_nullable. Qed.
Theorem C66_any_field_refuted : exists pe pp uni ev disc D E id n b, overaccepted pe pp uni ev disc D E (TNamed id) (JObj [(n, JBool b)]).
Proof. do 10 eexists. exact over_any. Qed.
Print Assumptions C66_accepted_json_readable_partial.
Print Assumptions C66_request_bodies_partial.
Print Assumptions C66_responses_partial.
Print Assumptions C66_unit_refuted.
Print Assumptions C66_array_length_refuted.
Print Assumptions C66_tuple_length_refuted.
Print Assumptions C66_unknown_variant_refuted.
Print Assumptions C66_other_content_refuted.
Print Assumptions C66_discriminant_refuted.
Print Assumptions C66_optional_field_refuted.
Print Assumptions C66_nullable_field_refuted.
Print Assumptions C66_any_field_refuted.
