(** Schemas published before fields were added against what is written afterwards: C89. *)
From Verif Require Import Attr AttrSpec Ast Derive DeriveSpec Schema SchemaSpec Gen GenSpec DeriveExamples Doc Api SerSpec ApiSpec ApiExamples.
From Verif Require Import SoundSpec SoundExamples AddSpec AddFacts GrowSpec GrowExamples AddExamples.
From Coq Require Import ZArith.
Local Open Scope string_scope. Local Open Scope list_scope.

(** * C89: A document published before fields were added accepts what is written afterwards *)

(** [D] and [E] are the sources and the derived implementations of the types when the document was made, [D1] the sources
    now; [adds_fields] is in AddSpec.v. *)
Theorem C89_mentions_partial : forall pe pp uni disc D D1 ev E calls cx_end, adds_fields pe pp D D1 ->
  names_unambiguous E (call_sites calls) -> mentions_return E calls cx_new cx_end ->
  forall c cx0 r cx1 j, In c calls -> harmless (mc_params c) ->
  supported_inside pe pp D True (mc_ty c) -> derived_inside pe pp uni D ev E (mc_ty c) ->
  mention_returns E (mc_ty c) (mc_inline c) (mc_params c) cx0 r cx1 ->
  emits pe pp uni disc D1 (mc_ty c) j -> valid (cx_schemas cx_end) r j.
Proof. exact added_mention_accepts. Qed.
(** and when types have been narrowed besides: [grows], read backwards *)
Theorem C89_narrowed_partial : forall pe pp uni disc D D1 D2 ev E calls cx_end, adds_fields pe pp D D1 -> grows pe pp D2 D1 ->
  names_unambiguous E (call_sites calls) -> mentions_return E calls cx_new cx_end ->
  forall c cx0 r cx1 t j, In c calls -> harmless (mc_params c) ->
  supported_inside pe pp D True (mc_ty c) -> derived_inside pe pp uni D ev E (mc_ty c) ->
  mention_returns E (mc_ty c) (mc_inline c) (mc_params c) cx0 r cx1 ->
  wider t (mc_ty c) -> emits pe pp uni disc D2 t j -> valid (cx_schemas cx_end) r j.
Proof. exact reduced_mention_accepts. Qed.
(** the bodies and responses of an API described before the change *)
Theorem C89_request_bodies_partial : forall pe pp uni disc D D1 ev E reason seg a d, adds_fields pe pp D D1 ->
  describes E reason seg a d ->
  (forall ts, (forall t, In t ts <-> names_type seg a t) -> names_unambiguous E (map (fun t => SMention t false) ts)) ->
  forall o x, has_operation (og_paths d) o -> op_body o = Some x ->
  exists l b t, declares_operation a l /\ op_means E reason (callback_means E reason seg) l o /\ In (OpBody b) l /\ body_type b t /\
    (supported_inside pe pp D True t -> derived_inside pe pp uni D ev E t ->
     forall j, emits pe pp uni disc D1 t j -> valid (cx_schemas (og_components d)) (rb_schema x) j).
Proof. exact added_body_accepts. Qed.
Theorem C89_responses_partial : forall pe pp uni disc D D1 ev E reason seg a d, adds_fields pe pp D D1 ->
  describes E reason seg a d ->
  (forall ts, (forall t, In t ts <-> names_type seg a t) -> names_unambiguous E (map (fun t => SMention t false) ts)) ->
  forall o c x r, has_operation (og_paths d) o -> bm_get c (op_responses o) = Some x -> rs_schema x = Some r ->
  exists l desc s, declares_operation a l /\ op_means E reason (callback_means E reason seg) l o /\ In (OpResponse c desc s) l /\
    (s = RsRaw (Some r) \/ exists t, response_type s t /\
      (supported_inside pe pp D True t -> derived_inside pe pp uni D ev E t ->
       forall j, emits pe pp uni disc D1 t j -> valid (cx_schemas (og_components d)) r j)).
Proof. exact added_response_accepts. Qed.
(** An order and its events have new fields; then a number is smaller, a field is documented and a state is gone. *)
Example C89_case :
  adds_fields yes yes shop1 shop3 /\ grows yes yes shop4 shop3 /\
  names_unambiguous old_env (call_sites shop_calls) /\ mentions_return old_env shop_calls cx_new old_cx /\
  In (named_call 0) shop_calls /\ supported_inside yes yes shop1 True (TNamed 0) /\
  derived_inside yes yes noupper shop1 DeriveExamples.same old_env (TNamed 0) /\
  mention_returns old_env (TNamed 0) false params_default cx_new (Link (u "Order")) old_cx /\
  emits yes yes noupper zero shop3 (TNamed 0) placed_json /\ emits yes yes noupper zero shop4 (TNamed 0) placed_json /\
  ~ emits yes yes noupper zero shop1 (TNamed 0) placed_json.
Proof.
  split; [exact shop_adds|]. split; [exact shop_reduced|]. split; [exact old_unambiguous|]. split; [exact old_return|]. split; [now left|].
  split; [exact (proj1 old_supported)|]. split; [exact (proj2 old_supported)|]. split; [exact old_mention|].
  split; [apply placed_written; now left|]. split; [apply placed_written; now right|exact placed_not_before].
Qed.

(** A flattened field is new. *)
Example C89_flattened_case :
  adds_fields yes yes bare_sources side_sources /\
  di_data (bare_sources 0) = DaStruct (FNamed [fld [] "text" (TPrim PString)]) /\
  di_data (side_sources 0) = DaStruct (FNamed [fld [] "text" (TPrim PString); side_paging]) /\
  AttrSpec.said yes yes PField (fs_attrs side_paging) SFlatten /\
  supported_inside yes yes bare_sources True (TNamed 0) /\
  derived_inside yes yes noupper bare_sources DeriveExamples.same (sources_env [bare_query; flat_paging]) (TNamed 0) /\
  emits yes yes noupper zero side_sources (TNamed 0) (JObj [(u "text", JStr (u "a")); (u "limit", JInt 5)]).
Proof.
  split; [exact flat_adds|]. split; [reflexivity|]. split; [reflexivity|]. split; [exact side_said|].
  split; [exact (proj1 bare_supported)|]. split; [exact (proj2 bare_supported)|exact side_emits].
Qed.

(** Not all additions: a new variant is rejected by the document published before it. *)
Theorem C89_new_variant_refuted : exists pe pp uni ev disc D D' E id j,
  grows pe pp D D' /\ derived_inside pe pp uni D ev E (TNamed id) /\ emits pe pp uni disc D' (TNamed id) j /\
  exists m cx, schema_returns E (TNamed id) cx_new m cx /\ ~ valid_model (cx_schemas cx) m j.
Proof.
  exists yes, yes, noupper, DeriveExamples.same, zero, (sources [state4]), (sources [state1]), (sources_env [state4]), 0, (JStr (u "Closed")).
  split; [exact closed_grows|]. split; [exact open_derived|]. split; [exact closed_written|exact closed_rejected].
Qed.
Print Assumptions C89_mentions_partial.
Print Assumptions C89_narrowed_partial.
Print Assumptions C89_request_bodies_partial.
Print Assumptions C89_responses_partial.
Print Assumptions C89_new_variant_refuted.
