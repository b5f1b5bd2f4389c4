(** The invocation of the repository's test is published. *)
From Coq Require Import List ZArith.
From Verif Require ApiFacts8 ApiFacts8.
From Verif Require Import Attr Ast Derive DeriveSpec Schema SchemaSpec Gen GenSpec DeriveExamples Conformance.
From Verif Require Import Doc Ser Api SerSpec ApiSpec ApiFacts ApiFacts2 ApiFacts3 ApiFacts8 ApiExamples SoundSpec SoundFacts4 SoundFacts5 SoundExamples.
From Verif Require Import SerExamples ReadSpec ReadFacts ReadFacts2 Match Syntax SyntaxSpec SyntaxFacts9 ConformanceSyntax Serde SerdeSpec SerdeFacts PublishSpec.
Local Open Scope string_scope. Local Open Scope list_scope.

Lemma test_reads_only a : invocation test_caller test_tokens a -> a = test_api.
Proof. intros Ha. exact (api_one_meaning _ _ _ _ test_rust_like Ha test_invocation). Qed.
Lemma test_plain_source : plain_source test_caller test_tokens.
Proof.
  intros a Ha. rewrite (test_reads_only a Ha). split; [intros r Hr; destruct (test_no_raw r Hr)|].
  intros pd g s Hp Hg. apply test_declares in Hp. destruct Hp as [->|[->| ->]]; cbn in Hg;
    repeat destruct Hg as [<-|Hg]; try contradiction; intros Hs; vm_compute in Hs; injection Hs as <-; apply plain_dec; reflexivity.
Qed.
Lemma test_own_names : own_names test_caller test_env test_tokens.
Proof.
  intros a Ha l Hl. rewrite (test_reads_only a Ha) in Hl. eapply ApiFacts8.unambiguous_same; [|exact test_unambiguous].
  apply ApiFacts8.same_sites. intros t. rewrite Hl, <- types_written. reflexivity.
Qed.
Lemma test_publishes : exists t, publishes test_caller test_env test_reason test_tokens t /\ read_document (to_value t) = Some test_doc.
Proof.
  destruct (opg_tells test_doc) as (t & Ht & Hv & _). exists t. split.
  - exists 50, test_doc. split; [vm_compute; reflexivity|exact Ht].
  - rewrite Hv. vm_compute. reflexivity.
Qed.
