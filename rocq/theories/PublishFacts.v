(** From the tokens of an invocation to what a reader of the published document sees: facts for C78. *)
From Coq Require Import List ZArith.
From Verif Require ApiFacts4.
From Verif Require Import Attr Ast Derive DeriveSpec Schema SchemaSpec Gen GenSpec DeriveExamples Conformance.
From Verif Require Import Doc Ser Api SerSpec ApiSpec ApiExamples SoundSpec SoundFacts4 SoundFacts5 SoundExamples.
From Verif Require Import ReadSpec ReadFacts ReadFacts2 Match Syntax SyntaxSpec SyntaxFacts9 ConformanceSyntax Serde SerdeSpec SerdeFacts PublishSpec.
Local Open Scope string_scope. Local Open Scope list_scope.

Lemma publishes_reads C E reason ts t : rust_like C -> plain_source C ts -> publishes C E reason ts t ->
  exists a d, invocation C ts a /\ describes E reason (url_segment C) a d /\ read_document (to_value t) = Some d.
Proof.
  intros HC Hp (fuel & d & Hd & Ht).
  assert (Hx : exists fuel, describe_api_macro C E fuel reason ts = Done d) by eauto.
  apply (api_describes C E reason ts d HC) in Hx. destruct Hx as (a & Ha & Hda). exists a, d. split; [assumption|]. split; [assumption|].
  destruct (opg_tells d) as (t' & Ht' & Hv & _). rewrite Ht in Ht'. injection Ht' as <-. rewrite Hv.
  destruct (Hp a Ha) as [H1 H2]. eapply read_described; eauto.
Qed.
Lemma described_publishes C E reason ts a d : rust_like C -> invocation C ts a -> describes E reason (url_segment C) a d ->
  exists t, publishes C E reason ts t.
Proof.
  intros HC Ha Hd. assert (Hx : exists a, invocation C ts a /\ describes E reason (url_segment C) a d) by eauto.
  apply (api_describes C E reason ts d HC) in Hx. destruct Hx as [fuel Hf].
  destruct (opg_tells d) as (t & Ht & _). exists t, fuel, d. auto.
Qed.
Lemma publishes_once C E reason ts t t' : rust_like C -> publishes C E reason ts t -> publishes C E reason ts t' -> t = t'.
Proof.
  intros HC (f & d & Hd & Ht) (f' & d' & Hd' & Ht').
  assert (Hx : exists fuel, describe_api_macro C E fuel reason ts = Done d) by eauto.
  assert (Hx' : exists fuel, describe_api_macro C E fuel reason ts = Done d') by eauto.
  apply (api_describes C E reason ts _ HC) in Hx, Hx'. destruct Hx as (a & Ha & Hda), Hx' as (a' & Ha' & Hda').
  rewrite (api_one_meaning C ts a' a HC Ha' Ha) in Hda'.
  rewrite (ApiFacts4.describes_unique _ _ _ _ _ _ Hda Hda') in Ht. congruence.
Qed.
Lemma read_bodies pe pp uni disc D ev C E reason ts t doc : rust_like C -> plain_source C ts -> publishes C E reason ts t ->
  own_names C E ts -> read_document (to_value t) = Some doc ->
  forall o x, has_operation (og_paths doc) o -> op_body o = Some x ->
  exists a l b ty, invocation C ts a /\ declares_operation a l /\ In (OpBody b) l /\ body_type b ty /\
    (supported_inside pe pp D True ty -> derived_inside pe pp uni D ev E ty ->
     forall j, emits pe pp uni disc D ty j -> valid (cx_schemas (og_components doc)) (rb_schema x) j).
Proof.
  intros HC Hp Ht Hn Hr o x Ho Hx. destruct (publishes_reads _ _ _ _ _ HC Hp Ht) as (a & d & Ha & Hd & Hr').
  rewrite Hr in Hr'. injection Hr' as <-.
  destruct (body_accepts pe pp uni disc D ev E reason _ a doc Hd (Hn a Ha) o x Ho Hx) as (l & b & ty & H1 & _ & H2 & H3 & H4).
  exists a, l, b, ty. auto.
Qed.
Lemma read_responses pe pp uni disc D ev C E reason ts t doc : rust_like C -> plain_source C ts -> publishes C E reason ts t ->
  own_names C E ts -> read_document (to_value t) = Some doc ->
  forall o c x r, has_operation (og_paths doc) o -> bm_get c (op_responses o) = Some x -> rs_schema x = Some r ->
  exists a l desc s, invocation C ts a /\ declares_operation a l /\ In (OpResponse c desc s) l /\
    (s = RsRaw (Some r) \/ exists ty, response_type s ty /\
      (supported_inside pe pp D True ty -> derived_inside pe pp uni D ev E ty ->
       forall j, emits pe pp uni disc D ty j -> valid (cx_schemas (og_components doc)) r j)).
Proof.
  intros HC Hp Ht Hn Hr o c x r Ho Hx Hs. destruct (publishes_reads _ _ _ _ _ HC Hp Ht) as (a & d & Ha & Hd & Hr').
  rewrite Hr in Hr'. injection Hr' as <-.
  destruct (response_accepts pe pp uni disc D ev E reason _ a doc Hd (Hn a Ha) o c x r Ho Hx Hs) as (l & desc & s & H1 & _ & H2 & H3).
  exists a, l, desc, s. auto.
Qed.
