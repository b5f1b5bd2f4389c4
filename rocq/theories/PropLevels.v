(** The recursion limit of the compiler: C81. *)
From Verif Require Import Conformance ConformanceSyntax Levels LevelsSpec LevelsFacts LevelsFacts2 LevelsExamples Api ApiSpec Syntax SyntaxSpec SyntaxFacts9.
Local Open Scope string_scope. Local Open Scope list_scope.

(** * C81: how long the lists of an invocation may be *)

(** A piece of source gives a document in a crate with a recursion limit if and only if the grammar reads it as the description
    of that document (C67) and its depth ([api_depth], LevelsSpec.v) is within the limit. *)
Theorem C81_document : forall limit C E reason ts d, rust_like C ->
  ((exists fuel, limited_api_macro limit C E fuel reason ts = Done d) <->
   exists a, invocation C ts a /\ api_depth (url_segment C) a <= limit /\ describes E reason (url_segment C) a d).
Proof. exact limited_document. Qed.
Print Assumptions C81_document.
(** The calls nest exactly as deep as the formula says, whatever the limit, also where what they expand to does not compile. *)
Theorem C81_levels : forall C ts a, rust_like C -> invocation C ts a -> api_levels C ts = api_depth (url_segment C) a.
Proof. intros C ts a HC H. apply api_levels_depth. now apply (SyntaxFacts7.parse_api_spec C HC). Qed.
Print Assumptions C81_levels.
Theorem C81_beyond : forall limit C E fuel reason ts a, rust_like C -> invocation C ts a -> limit < api_depth (url_segment C) a ->
  limited_api_macro limit C E fuel reason ts = Rejected.
Proof. exact beyond_limit. Qed.
Print Assumptions C81_beyond.
(** A crate may raise its limit. *)
Theorem C81_higher_limit : forall limit limit' C E fuel reason ts d, limit <= limit' -> limited_api_macro limit C E fuel reason ts = Done d ->
  limited_api_macro limit' C E fuel reason ts = Done d.
Proof. exact limit_monotone. Qed.
Print Assumptions C81_higher_limit.

(** Sections do not count against each other, nor do paths: their number does not matter. *)
Theorem C81_sections : forall seg a n, api_depth seg a <= n <-> 1 <= n /\ forall s, In s a -> api_depth seg [s] <= n.
Proof. exact sections_alone. Qed.
Print Assumptions C81_sections.
Theorem C81_paths : forall seg l n, api_depth seg [ScPaths l] <= n <-> 2 <= n /\ forall d, In d l -> api_depth seg [ScPaths [d]] <= n.
Proof. exact paths_alone. Qed.
Print Assumptions C81_paths.
(** The properties of an operation count one each, and a response given by a type, [()] or [None] counts two; each property
    starts where those before it have ended, and what it needs for itself comes on top. *)
Theorem C81_operation : forall seg url m ops n, api_depth seg (one_operation url m ops) <= n <->
  url_depth seg url [] + 2 <= n /\ hops_before op_hops ops + 4 <= n /\
  forall l1 p l2, ops = l1 ++ p :: l2 -> hops_before op_hops l1 + 4 + op_depth (callback_depth seg) p <= n.
Proof. exact operation_fits. Qed.
Print Assumptions C81_operation.
(** So do the security schemes. *)
Theorem C81_schemes : forall seg l n, api_depth seg [ScSecurity l] <= n <->
  length l + 3 <= n /\ forall l1 s l2, l = l1 ++ s :: l2 -> length l1 + 3 + scheme_depth s <= n.
Proof. exact schemes_fit. Qed.
Print Assumptions C81_schemes.
(** All other lists that are taken apart: where the items start, and where the end is. *)
Theorem C81_lists : forall A (own hops : A -> nat) l n, one_by_one own hops l <= n <->
  hops_before hops l + 1 <= n /\ forall l1 x l2, l = l1 ++ x :: l2 -> hops_before hops l1 + 1 + own x <= n.
Proof. intros A own hops l n. apply one_by_one_le. Qed.
Print Assumptions C81_lists.
(** A url counts its tokens, one to end, and one or two for its last part. *)
Theorem C81_urls : forall seg url, Forall (fun g => g <> []) (split_url url) ->
  url_depth seg url [] = length url + 1 + part_depth seg (last (split_url url) []).
Proof. exact url_depth_closed. Qed.
Print Assumptions C81_urls.

(** FINDING: whatever the limit, there are invocations with a meaning that the compiler gives up on.. *)
Theorem C81_every_invocation_refuted : forall limit C E reason, rust_like C -> exists ts a d,
  invocation C ts a /\ describes E reason (url_segment C) a d /\ forall fuel, limited_api_macro limit C E fuel reason ts = Rejected.
Proof. exact long_too_deep. Qed.
Print Assumptions C81_every_invocation_refuted.
(** .. with the usual limit of 128, an operation with 63 responses. *)
Theorem C81_responses_refuted : compiled default_limit (responses_source 62) = true /\
  compiled default_limit (responses_source 63) = false /\ compiled 130 (responses_source 63) = true.
Proof. split; [exact responses_fit|exact responses_too_many]. Qed.
Print Assumptions C81_responses_refuted.

(** [describe_type!]: a model is described within the limit if it nests no deeper; how many properties an object has does not
    matter. *)
Theorem C81_model : forall limit C ts m, limited_type_macro limit C ts = Some m <->
  exists d, type_form C ts d /\ type_depth d <= limit /\ m = describe_type d.
Proof. exact limited_model. Qed.
Print Assumptions C81_model.
Theorem C81_objects : forall d l n, type_depth (DtObject d l) <= n <->
  1 <= n /\ forall k r v, In (k, r, v) l -> (if r : bool then 3 else 2) + value_depth v <= n.
Proof. exact object_fits. Qed.
Print Assumptions C81_objects.
Theorem C81_every_type_refuted : forall limit C, exists ts d, type_form C ts d /\ limited_type_macro limit C ts = None.
Proof. exact nested_too_deep. Qed.
Print Assumptions C81_every_type_refuted.

(** The invocation of the tests goes 17 levels deep; a url of 62 parts fits the usual limit, whoever calls. *)
Example C81_case : rust_like test_caller /\ invocation test_caller test_tokens test_api /\ api_levels test_caller test_tokens = 17 /\
  api_depth (url_segment test_caller) test_api <= default_limit /\
  (forall C E reason, rust_like C -> exists fuel d, limited_api_macro default_limit C E fuel reason (long_source 61) = Done d) /\
  Forall (fun g => g <> []) (split_url (long_url 61)).
Proof.
  split; [exact test_rust_like|]. split; [exact test_invocation|]. split; [exact test_levels|].
  split; [rewrite <- (api_levels_depth test_caller test_tokens test_api test_parses), test_levels; repeat constructor|].
  split; [intros C E reason HC; apply (long_fits default_limit C E reason 61 HC); repeat constructor|].
  rewrite long_split. apply Forall_forall. intros g Hg. apply repeat_spec in Hg. now subst.
Qed.
