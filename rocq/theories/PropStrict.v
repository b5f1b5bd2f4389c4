(** Alternatives of generated schemas under the strict reading of oneOf: C69. *)
From Verif Require Import Api ApiSpec SerSpec Conformance ApiExamples.
From Verif Require Import Attr Ast Derive DeriveSpec Schema SchemaSpec Gen GenSpec DeriveExamples.
From Verif Require Import SoundSpec SoundFacts4 SoundExamples StrictSpec StrictFacts StrictFacts2 StrictFacts4 StrictFacts5 StrictExamples StrictFacts6.
From Coq Require Import ZArith.
Local Open Scope string_scope. Local Open Scope list_scope.

(** * C69: Exactly one alternative of every oneOf accepts *)

(** The strict reading is sound: no document is both accepted and rejected. *)
Theorem C69_not_both : forall S r j, accepts S r j -> ~ rejects S r j.
Proof. intros S r j. exact (proj1 (strict_consistent S) r j). Qed.
(** It accepts no more than the lenient one. *)
Theorem C69_strict_is_stricter : forall S r j, accepts S r j -> valid S r j.
Proof. intros S. exact (proj1 (accepts_valid S)). Qed.
(** For types that tell their alternatives apart by their kinds or tags (StrictSpec.v, without [by_members]), both readings accept the same documents, in any history
    of mentions in which no two types share a component name. *)
Theorem C69_readings_agree_partial : forall pe pp uni D ev E calls cx_end,
  names_unambiguous E (call_sites calls) -> mentions_return E calls cx_new cx_end ->
  (forall c, In c calls -> told_apart pe pp uni D False ev E (mc_ty c)) ->
  forall c cx0 r cx1 j, In c calls -> mention_returns E (mc_ty c) (mc_inline c) (mc_params c) cx0 r cx1 ->
  (valid (cx_schemas cx_end) r j <-> accepts (cx_schemas cx_end) r j).
Proof. exact readings_agree_source. Qed.
(** What serde writes for values is accepted under the strict reading even where alternatives are told apart by their members
    only: of two objects each has a field that is always written and that the other has not. *)
Theorem C69_json_accepted_strictly_partial : forall pe pp uni disc D ev E calls cx_end,
  names_unambiguous E (call_sites calls) -> mentions_return E calls cx_new cx_end ->
  (forall c, In c calls -> told_apart pe pp uni D True ev E (mc_ty c)) ->
  forall c cx0 r cx1 j, In c calls -> harmless (mc_params c) ->
  supported_inside pe pp D False (mc_ty c) -> derived_inside pe pp uni D ev E (mc_ty c) ->
  mention_returns E (mc_ty c) (mc_inline c) (mc_params c) cx0 r cx1 ->
  emits pe pp uni disc D (mc_ty c) j -> accepts (cx_schemas cx_end) r j /\ ~ rejects (cx_schemas cx_end) r j.
Proof. exact accepted_strictly. Qed.
(** A struct with an untagged, an internally tagged and an adjacently tagged enum and a tuple in it, and one of its values. *)
Example C69_case :
  names_unambiguous report_env (call_sites report_calls) /\ mentions_return report_env report_calls cx_new report_cx /\
  (forall c, In c report_calls -> told_apart yes yes noupper report_sources False same report_env (mc_ty c) /\ harmless (mc_params c) /\
     supported_inside yes yes report_sources False (mc_ty c) /\ derived_inside yes yes noupper report_sources same report_env (mc_ty c)) /\
  emits yes yes noupper zero report_sources (TNamed 4) report_json.
Proof.
  split; [exact report_unambiguous|]. split; [exact report_return|]. split; [|exact report_json_emits].
  intros c [<-|[] ]. split; [exact (report_told_apart False)|]. split; [apply harmless_default|exact report_supported].
Qed.
(** An untagged enum whose variants are told apart by their members, and one of its values; a document with the members of two
    variants is accepted by the lenient reading only. *)
Example C69_members_case :
  names_unambiguous target_env (call_sites target_calls) /\ mentions_return target_env target_calls cx_new target_cx /\
  (forall c, In c target_calls -> told_apart yes yes noupper target_sources True same target_env (mc_ty c) /\ harmless (mc_params c) /\
     supported_inside yes yes target_sources False (mc_ty c) /\ derived_inside yes yes noupper target_sources same target_env (mc_ty c)) /\
  emits yes yes noupper zero target_sources (TNamed 1) target_json /\
  valid (cx_schemas target_cx) (Link (u "Target")) target_both /\ rejects (cx_schemas target_cx) (Link (u "Target")) target_both.
Proof.
  split; [exact target_unambiguous|]. split; [exact target_return|]. split; [|split; [exact target_json_emits|exact target_both_read] ].
  intros c [<-|[] ]. split; [exact target_told_apart|]. split; [apply harmless_default|exact target_supported].
Qed.
(** The same of the bodies of a described API whose types tell their alternatives apart: an OpenAPI validator that insists on
    exactly one alternative accepts the same bodies as one that does not (with C60: all that serde writes). *)
Theorem C69_request_bodies_partial : forall pe pp uni D ev E reason seg a d,
  describes E reason seg a d ->
  (forall ts, (forall t, In t ts <-> names_type seg a t) -> names_unambiguous E (map (fun t => SMention t false) ts)) ->
  (forall t, names_type seg a t -> told_apart pe pp uni D False ev E t) ->
  forall o x j, has_operation (og_paths d) o -> op_body o = Some x ->
  (valid (cx_schemas (og_components d)) (rb_schema x) j <-> accepts (cx_schemas (og_components d)) (rb_schema x) j).
Proof. exact body_agree. Qed.
Theorem C69_responses_partial : forall pe pp uni D ev E reason seg a d,
  describes E reason seg a d ->
  (forall ts, (forall t, In t ts <-> names_type seg a t) -> names_unambiguous E (map (fun t => SMention t false) ts)) ->
  (forall t, names_type seg a t -> told_apart pe pp uni D False ev E t) ->
  forall o c x r j, has_operation (og_paths d) o -> bm_get c (op_responses o) = Some x -> rs_schema x = Some r -> ~ raw_response a r ->
  (valid (cx_schemas (og_components d)) r j <-> accepts (cx_schemas (og_components d)) r j).
Proof. exact response_agree. Qed.
(** And what serde writes for their values is accepted by exactly one alternative of every oneOf on the way. *)
Theorem C69_request_bodies_strict_partial : forall pe pp uni disc D ev E reason seg a d,
  describes E reason seg a d ->
  (forall ts, (forall t, In t ts <-> names_type seg a t) -> names_unambiguous E (map (fun t => SMention t false) ts)) ->
  (forall t, names_type seg a t -> told_apart pe pp uni D True ev E t) ->
  forall o x, has_operation (og_paths d) o -> op_body o = Some x ->
  exists l b t, declares_operation a l /\ op_means E reason (callback_means E reason seg) l o /\ In (OpBody b) l /\ body_type b t /\
    (supported_inside pe pp D False t -> derived_inside pe pp uni D ev E t -> forall j, emits pe pp uni disc D t j ->
     accepts (cx_schemas (og_components d)) (rb_schema x) j /\ ~ rejects (cx_schemas (og_components d)) (rb_schema x) j).
Proof. exact body_strict. Qed.
Theorem C69_responses_strict_partial : forall pe pp uni disc D ev E reason seg a d,
  describes E reason seg a d ->
  (forall ts, (forall t, In t ts <-> names_type seg a t) -> names_unambiguous E (map (fun t => SMention t false) ts)) ->
  (forall t, names_type seg a t -> told_apart pe pp uni D True ev E t) ->
  forall o c x r, has_operation (og_paths d) o -> bm_get c (op_responses o) = Some x -> rs_schema x = Some r -> ~ raw_response a r ->
  exists l desc s t, declares_operation a l /\ op_means E reason (callback_means E reason seg) l o /\ In (OpResponse c desc s) l /\ response_type s t /\
    (supported_inside pe pp D False t -> derived_inside pe pp uni D ev E t -> forall j, emits pe pp uni disc D t j ->
     accepts (cx_schemas (og_components d)) r j /\ ~ rejects (cx_schemas (og_components d)) r j).
Proof. exact response_strict. Qed.
Example C69_api_case :
  describes report_env test_reason small_seg report_api report_doc /\
  (forall ts, (forall t, In t ts <-> names_type small_seg report_api t) -> names_unambiguous report_env (map (fun t => SMention t false) ts)) /\
  (forall (w : Prop) t, names_type small_seg report_api t -> told_apart yes yes noupper report_sources w same report_env t) /\
  exists o x, has_operation (og_paths report_doc) o /\ op_body o = Some x /\ rb_schema x = Link (u "Report") /\
    bm_get (u "Report") (cx_schemas (og_components report_doc)) <> None.
Proof.
  split; [exact report_describes|]. split; [exact report_api_unambiguous|]. split; [|exact report_api_case].
  intros w t Ht. apply report_types_only in Ht. subst. exact (report_told_apart w).
Qed.
(** FINDINGS: it is false of tuples with two parts of one kind, ... *)
Theorem C69_tuple_refuted : exists pe pp uni ev disc D E, overlapping pe pp uni ev disc D E (TTuple [TPrim PI32; TPrim PI32]) (JArr [JInt 1; JInt 2]).
Proof. do 7 eexists. exact lap_tuple. Qed.
(** ... enums written as integers, ... *)
Theorem C69_repr_enum_refuted : exists pe pp uni ev disc D E id z,
  (exists vs, di_data (D id) = DaEnum vs /\ written_as_int pe pp (D id) vs) /\ overlapping pe pp uni ev disc D E (TNamed id) (JInt z).
Proof.
  exists yes, yes, noupper, same, zero, (sources [i_level]), (sources_env [i_level]), 0, 0%Z. split; [|exact lap_repr].
  eexists. split; [reflexivity|]. exact level_int.
Qed.
(** ... and enums in the default representation, untagged or adjacently tagged, with two variants that carry the same type. *)
Theorem C69_external_refuted : exists pe pp uni ev disc D E id n,
  represents pe pp (di_attrs (D id)) RepExternal /\ overlapping pe pp uni ev disc D E (TNamed id) (JObj [(n, JInt 3)]).
Proof.
  exists yes, yes, noupper, same, zero, (sources [s_external]), (sources_env [s_external]), 0, (u "Feet"). split; [exact s_external_rep|exact lap_external].
Qed.
Theorem C69_untagged_refuted : exists pe pp uni ev disc D E id,
  represents pe pp (di_attrs (D id)) RepUntagged /\ overlapping pe pp uni ev disc D E (TNamed id) (JInt 3).
Proof.
  exists yes, yes, noupper, same, zero, (sources [s_untagged]), (sources_env [s_untagged]), 0. split; [exact s_untagged_rep|exact lap_untagged].
Qed.
Theorem C69_adjacent_refuted : exists pe pp uni ev disc D E id tag content n,
  represents pe pp (di_attrs (D id)) (RepAdjacent tag content) /\
  overlapping pe pp uni ev disc D E (TNamed id) (JObj [(tag, JStr n); (content, JInt 3)]).
Proof.
  exists yes, yes, noupper, same, zero, (sources [s_adjacent]), (sources_env [s_adjacent]), 0, (u "t"), (u "c"), (u "Feet").
  split; [exact s_adjacent_rep|exact lap_adjacent].
Qed.
Print Assumptions C69_not_both.
Print Assumptions C69_strict_is_stricter.
Print Assumptions C69_readings_agree_partial.
Print Assumptions C69_json_accepted_strictly_partial.
Print Assumptions C69_request_bodies_partial.
Print Assumptions C69_responses_partial.
Print Assumptions C69_request_bodies_strict_partial.
Print Assumptions C69_responses_strict_partial.
Print Assumptions C69_tuple_refuted.
Print Assumptions C69_repr_enum_refuted.
Print Assumptions C69_external_refuted.
Print Assumptions C69_untagged_refuted.
Print Assumptions C69_adjacent_refuted.
