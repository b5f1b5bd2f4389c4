(** A value with one member more than its schema mentions. *)
From Verif Require Import Attr AttrSpec AttrFacts Ast Derive DeriveSpec Schema SchemaSpec Gen GenSpec GenFacts GenFacts4 DeriveFacts5 DeriveExamples.
From Verif Require Import Doc Ser Api ApiSpec Conformance ApiExamples.
From Verif Require Import SoundSpec FitsSpec FitsFacts SoundFacts4 SoundFacts5 SoundExamples.
From Coq Require Import ZArith.
Local Open Scope string_scope. Local Open Scope list_scope.

Definition extra_json : json :=
  JObj [(u "field", JStr (u "a")); (u "second", JObj [(u "another_field", JNull)]); (u "extra", JInt 1)].
Lemma module_mention : exists cx0 cx1, mention_returns test_env (TNamed 20) false params_default cx0 (Link (u "InModule")) cx1.
Proof. exists cx_new. eexists. exists 20. vm_compute. reflexivity. Qed.
Lemma module_fits : fits (cx_schemas supported_cx) (Link (u "InModule")) module_json.
Proof.
  destruct module_mention as (cx0 & cx1 & Hm).
  eapply (mention_fits yes yes noupper test_disc test_source eval_text test_env supported_calls supported_cx) with (c := named_call 20).
  - exact supported_unambiguous.
  - exact supported_return.
  - apply in_map. cbn. tauto.
  - apply harmless_default.
  - now apply test_supported_ok; cbn; tauto.
  - now apply (test_supported_ok (tags := False)); cbn; tauto.
  - exact Hm.
  - exact module_emits.
Qed.
Definition module_model : option model := Eval vm_compute in bm_get (u "InModule") (cx_schemas supported_cx).
Lemma module_model_ok : bm_get (u "InModule") (cx_schemas supported_cx) = module_model.
Proof. vm_compute. reflexivity. Qed.
Lemma extra_valid : valid (cx_schemas supported_cx) (Link (u "InModule")) extra_json.
Proof.
  pose proof (fits_valid _ _ _ module_fits) as H. inversion H as [|n m j Hg Hv|]; subst. eapply va_link; [exact Hg|].
  rewrite module_model_ok in Hg. unfold module_model in Hg. injection Hg as <-.
  inversion Hv as [| | | | | | |d n props add req l Hr Hp Ha| | |]; subst. apply vm_object.
  - intros k Hk. specialize (Hr k Hk). cbn in Hr |- *. tauto.
  - intros k j r Hin Hk. destruct Hin as [[= <- <-]|[[= <- <-]|[[= <- <-]|[] ] ] ].
    + apply (Hp _ _ _ (or_introl eq_refl) Hk).
    + apply (Hp _ _ _ (or_intror (or_introl eq_refl)) Hk).
    + vm_compute in Hk. discriminate.
  - discriminate.
Qed.
Lemma extra_misfit : ~ fits (cx_schemas supported_cx) (Link (u "InModule")) extra_json.
Proof.
  intros H. inversion H as [|n m j Hg Hv|]; subst. rewrite module_model_ok in Hg. unfold module_model in Hg. injection Hg as <-.
  inversion Hv as [| | | | | | |d n props add req l Hr Hp Ha Hd| | |]; subst.
  apply (Ha (u "extra") (JInt 1)); [cbn; tauto|vm_compute; reflexivity|reflexivity].
Qed.

(** ** A struct with a tag *)
Lemma tagged_schema : exists m, schema_returns (sources_env [tagged_struct]) (TNamed 0) cx_new m cx_new /\
  valid_model (cx_schemas cx_new) m (JObj tagged_json) /\ ~ fits_model (cx_schemas cx_new) m (JObj tagged_json) /\
  exists o, object_of m = Some o /\ bm_get (u "kind") (mo_properties o) = None.
Proof.
  eexists. split; [exists 20; vm_compute; reflexivity|]. split; [|split; [|eexists; split; reflexivity] ].
  - constructor.
    + intros k [<-|[] ]. right. now left.
    + intros k j r Hin Hk. destruct Hin as [Hin|[Hin|[] ] ]; injection Hin as <- <-; [discriminate Hk|]. injection Hk as <-. apply va_inline, vm_integer.
    + discriminate.
  - intros H. inversion H as [| | | | | | |d n props add req l Hr Hp Ha Hx| | |]; subst. apply (Ha (u "kind") (JStr (u "event"))); [now left|reflexivity|reflexivity].
Qed.

(** what is flattened into a struct *)
Lemma side_schema : exists m cx, schema_returns side_env (TNamed 0) cx_new m cx /\
  valid_model (cx_schemas cx) m flat_json /\ ~ fits_model (cx_schemas cx) m flat_json /\
  exists o, object_of m = Some o /\ bm_get (u "limit") (mo_properties o) = None /\ mo_additional o = None.
Proof.
  do 2 eexists. split; [exists 20; vm_compute; reflexivity|]. split; [|split].
  - apply vm_object.
    + intros k [<-|[] ]. now left.
    + intros k j r Hin Hk. destruct Hin as [Hin|[Hin|[] ] ]; injection Hin as <- <-; [|discriminate Hk]. injection Hk as <-. apply va_inline, vm_string. discriminate.
    + discriminate.
  - intros H. inversion H as [| | | | | | |d n props add req l Hr Hp Hx Ha| | |]; subst. apply (Hx (u "limit") (JInt 5)); [right; now left|reflexivity|reflexivity].
  - eexists. split; [reflexivity|]. split; reflexivity.
Qed.
