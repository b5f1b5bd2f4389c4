(** Schemas of types that have grown against what was written before: C88. *)
From Verif Require Import Attr AttrSpec Ast Derive DeriveSpec Schema SchemaSpec Gen GenSpec DeriveExamples Doc Api SerSpec ApiSpec ApiExamples.
From Verif Require Import SoundSpec SoundExamples GrowSpec GrowFacts GrowExamples.
From Coq Require Import ZArith.
Local Open Scope string_scope. Local Open Scope list_scope.

(** * C88: What was written before a compatible change is accepted afterwards *)

(** [D] are the sources of the types before the change, [D'] and [E] those after it; [grows] is in GrowSpec.v. *)
Theorem C88_mentions_partial : forall pe pp uni disc D D' ev E calls cx_end, grows pe pp D D' ->
  names_unambiguous E (call_sites calls) -> mentions_return E calls cx_new cx_end ->
  forall c cx0 r cx1 t j, In c calls -> harmless (mc_params c) ->
  supported_inside pe pp D' True (mc_ty c) -> derived_inside pe pp uni D' ev E (mc_ty c) ->
  mention_returns E (mc_ty c) (mc_inline c) (mc_params c) cx0 r cx1 ->
  wider t (mc_ty c) -> emits pe pp uni disc D t j -> valid (cx_schemas cx_end) r j.
Proof. exact grown_mention_accepts. Qed.
(** the bodies and responses of an API described after the change *)
Theorem C88_request_bodies_partial : forall pe pp uni disc D D' ev E reason seg a d, grows pe pp D D' ->
  describes E reason seg a d ->
  (forall ts, (forall t, In t ts <-> names_type seg a t) -> names_unambiguous E (map (fun t => SMention t false) ts)) ->
  forall o x, has_operation (og_paths d) o -> op_body o = Some x ->
  exists l b t, declares_operation a l /\ op_means E reason (callback_means E reason seg) l o /\ In (OpBody b) l /\ body_type b t /\
    (supported_inside pe pp D' True t -> derived_inside pe pp uni D' ev E t ->
     forall t0 j, wider t0 t -> emits pe pp uni disc D t0 j -> valid (cx_schemas (og_components d)) (rb_schema x) j).
Proof. exact grown_body_accepts. Qed.
Theorem C88_responses_partial : forall pe pp uni disc D D' ev E reason seg a d, grows pe pp D D' ->
  describes E reason seg a d ->
  (forall ts, (forall t, In t ts <-> names_type seg a t) -> names_unambiguous E (map (fun t => SMention t false) ts)) ->
  forall o c x r, has_operation (og_paths d) o -> bm_get c (op_responses o) = Some x -> rs_schema x = Some r ->
  exists l desc s, declares_operation a l /\ op_means E reason (callback_means E reason seg) l o /\ In (OpResponse c desc s) l /\
    (s = RsRaw (Some r) \/ exists t, response_type s t /\
      (supported_inside pe pp D' True t -> derived_inside pe pp uni D' ev E t ->
       forall t0 j, wider t0 t -> emits pe pp uni disc D t0 j -> valid (cx_schemas (og_components d)) r j)).
Proof. exact grown_response_accepts. Qed.
(** An order, its states and its events: fields and variants are added, types are widened and a field is documented; and
    an order written before. *)
Example C88_case :
  grows yes yes shop1 shop2 /\ names_unambiguous shop_env (call_sites shop_calls) /\ mentions_return shop_env shop_calls cx_new shop_cx /\
  In (named_call 0) shop_calls /\ supported_inside yes yes shop2 True (TNamed 0) /\
  derived_inside yes yes noupper shop2 DeriveExamples.same shop_env (TNamed 0) /\
  mention_returns shop_env (TNamed 0) false params_default cx_new (Link (u "Order")) shop_cx /\
  emits yes yes noupper zero shop1 (TNamed 0) order_json /\ shop1 0 <> shop2 0 /\ shop1 1 <> shop2 1 /\ shop1 2 <> shop2 2.
Proof.
  split; [exact shop_grows|]. split; [exact shop_unambiguous|]. split; [exact shop_return|]. split; [now left|].
  split; [exact (proj1 shop_supported)|]. split; [exact (proj2 shop_supported)|]. split; [exact shop_mention|]. split; [exact order_written|].
  split; [|split]; discriminate.
Qed.

(** Not all compatible changes: a field of type [Option] that is always written is required by the schema, although serde
    reads objects without it. *)
Theorem C88_optional_field_refuted : exists pe pp uni ev disc D D' E id fs f t j,
  di_data (D id) = DaStruct (FNamed fs) /\ di_data (D' id) = DaStruct (FNamed (fs ++ [f])) /\ fs_ty f = TOption t /\
  (forall id', id' <> id -> D id' = D' id') /\
  derived_inside pe pp uni D' ev E (TNamed id) /\ emits pe pp uni disc D (TNamed id) j /\
  exists m cx, schema_returns E (TNamed id) cx_new m cx /\ ~ valid_model (cx_schemas cx) m j.
Proof.
  exists yes, yes, noupper, DeriveExamples.same, zero, (sources [i_secret]), (sources [hint_added]), (sources_env [hint_added]), 0. do 4 eexists.
  split; [reflexivity|]. split; [reflexivity|]. split; [reflexivity|].
  split; [intros [|[|id'] ] Hid; [now destruct Hid|reflexivity|reflexivity]|].
  split; [exact hint_derived|]. split; [exact secret_written|exact hint_rejects].
Qed.
(** The first variant with contents changes how the others are described. *)
Theorem C88_first_payload_refuted : exists pe pp uni ev disc D D' E id j,
  grows pe pp D D' /\ derived_inside pe pp uni D' ev E (TNamed id) /\ emits pe pp uni disc D (TNamed id) j /\
  exists m cx, schema_returns E (TNamed id) cx_new m cx /\ ~ valid_model (cx_schemas cx) m j.
Proof.
  exists yes, yes, noupper, DeriveExamples.same, zero, (sources [only_empty]), (sources [unit_or]), (sources_env [unit_or]), 0, (JStr (u "Empty")).
  split; [exact mixed_grows|]. destruct mis_external_unit as (H1 & _ & H2). split; [exact H1|]. split; [exact empty_written|exact H2].
Qed.
Print Assumptions C88_mentions_partial.
Print Assumptions C88_request_bodies_partial.
Print Assumptions C88_responses_partial.
Print Assumptions C88_optional_field_refuted.
Print Assumptions C88_first_payload_refuted.
