(** The code that describe_api! becomes: C77. *)
From Coq Require Import List NArith.
From Verif Require Import Conformance ApiExamples.
From Verif Require Import Str Doc Api Expand ExpandSpec ExpandFacts4 ExpandExamples.
Import ListNotations.

(** * C77: running the code of an invocation gives the document that the invocation says *)

(** [run_api] (Expand.v) runs the statements that the rules of the macro write, with the caller's expressions in them, in a frame
    where a variable of the macro and one of the caller are different even if they have the same name.  [reads_api] says what the
    expressions mean; it knows only the variables of the caller.  The exception are the expressions in [info]: for them the
    properties given before are variables too ([info_in_turn]). *)
Theorem C77_runs_as_read : forall E fuel reason imported seg s x a,
  reads_api info_in_turn s x a -> imported = true \/ no_callbacks x ->
  describe_api E fuel reason seg a <> Rejected ->
  run_api E fuel reason imported seg s x = describe_api E fuel reason seg a.
Proof. intros. now apply run_api_agrees. Qed.
Print Assumptions C77_runs_as_read.

(** With the caller's meaning throughout, if no expression in an [info] depends on a variable with the name of a property given before it.
    What is missing is refuted below. *)
Theorem C77_caller_meaning_partial : forall E fuel reason imported seg s x a,
  reads_api info_meant s x a -> (forall l, In (XcInfo l) x -> info_apart l) -> imported = true \/ no_callbacks x ->
  describe_api E fuel reason seg a <> Rejected ->
  run_api E fuel reason imported seg s x = describe_api E fuel reason seg a.
Proof. intros. apply run_api_agrees; auto. now apply meant_reads. Qed.
Print Assumptions C77_caller_meaning_partial.

(** [info: { title: "A", description: title }]: the description is the title of the document, not the variable of the caller. *)
Theorem C77_caller_meaning_refuted : exists E fuel reason seg s x a d d',
  reads_api info_meant s x a /\ describe_api E fuel reason seg a = Done d /\ run_api E fuel reason true seg s x = Done d' /\
  in_description (og_info d) = Some (u "B") /\ in_description (og_info d') = Some (u "A").
Proof.
  exists test_env, 50, test_reason, small_seg, capture_scope, capture_api, capture_meant. eexists _, _.
  split; [exact capture_reads|]. split; [vm_compute; reflexivity|]. split; [vm_compute; reflexivity|]. split; reflexivity.
Qed.
Print Assumptions C77_caller_meaning_refuted.

(** Where [CallbackObject] is not in scope, an invocation with a callback gives no document, whatever it says. *)
Theorem C77_callbacks_need_import : forall E fuel reason seg s x l d m ops cs t,
  In (XcPaths l) x -> In d l -> In (XvMethod m ops) (xd_props d) -> In (XoCallbacks cs t) ops -> cs <> [] ->
  forall doc, run_api E fuel reason false seg s x <> Done doc.
Proof. intros. eapply no_import_api; eauto. Qed.
Print Assumptions C77_callbacks_need_import.
Theorem C77_import_refuted : exists E fuel reason seg s x a d,
  reads_api info_meant s x a /\ describe_api E fuel reason seg a = Done d /\ run_api E fuel reason false seg s x = Rejected.
Proof.
  exists test_env, 50, test_reason, small_seg, hy_scope, hy_api, hy_read, hy_doc.
  split; [exact hy_meant|]. split; [exact hy_describes|]. vm_compute. reflexivity.
Qed.
Print Assumptions C77_import_refuted.

(** Where an operation takes a text ([summary], [operationId], [description]), an expression that gives a [String] gives no document:
    a reference is needed.  Everywhere else a [String] will do ([shows]). *)
Theorem C77_operation_texts_need_reference : forall E fuel reason imported seg s x l d m ops o e,
  o = XoSummary e \/ o = XoId e \/ o = XoDescription e -> (forall v, exists t, e v = XText t) ->
  In (XcPaths l) x -> In d l -> In (XvMethod m ops) (xd_props d) -> In o ops ->
  forall doc, run_api E fuel reason imported seg s x <> Done doc.
Proof. intros. eapply string_text_api; eauto. Qed.
Print Assumptions C77_operation_texts_need_reference.
(** [get: { summary: title, parameters: { (header "H"): { description: title } } }], where [title] is a [String], and without the summary. *)
Theorem C77_operation_string_refuted : exists E fuel reason seg s d,
  s = [(u "title", XText (u "T"))] /\ run_api E fuel reason true seg s (texts_api [header_only]) = Done d /\
  run_api E fuel reason true seg s (texts_api [XoSummary (given "title"); header_only]) = Rejected.
Proof.
  exists test_env, 50, test_reason, small_seg, texts_scope. eexists _.
  split; [reflexivity|]. split; vm_compute; reflexivity.
Qed.
Print Assumptions C77_operation_string_refuted.

(** An invocation with all sections, where the caller has variables named as those of the macro and uses them: it is read with the
    caller's values and gives its document. *)
Example C77_case :
  reads_api info_in_turn hy_scope hy_api hy_read /\ reads_api info_meant hy_scope hy_api hy_read /\
  (forall l, In (XcInfo l) hy_api -> info_apart l) /\
  run_api test_env 50 test_reason true small_seg hy_scope hy_api = Done hy_doc /\
  in_title (og_info hy_doc) = u "D" /\ map fst (og_tags hy_doc) = [u "t"; u "v"] /\ length (og_paths hy_doc) = 1.
Proof.
  split; [exact hy_reads|]. split; [exact hy_meant|]. split; [exact hy_apart|]. split; [vm_compute; reflexivity|]. repeat split; reflexivity.
Qed.
