(** The syntax of describe_api! and describe_type!: C67, C68. *)
From Verif Require Import Doc Api ApiSpec Match Syntax SyntaxSpec SyntaxFacts SyntaxFacts7 SyntaxFacts8 Conformance ConformanceSyntax SyntaxFacts9.
Local Open Scope string_scope. Local Open Scope list_scope.

(** * C67: describe_api! reads exactly its grammar *)

(** A piece of source gives a document if and only if the grammar ([invocation], SyntaxSpec.v) reads it as the
    description of that document. *)
Theorem C67_document : forall C E reason ts d, rust_like C ->
  ((exists fuel, describe_api_macro C E fuel reason ts = Done d) <-> exists a, invocation C ts a /\ describes E reason (url_segment C) a d).
Proof. exact api_describes. Qed.
Print Assumptions C67_document.
Theorem C67_reads : forall C E fuel reason ts a, rust_like C -> invocation C ts a ->
  describe_api_macro C E fuel reason ts = describe_api E fuel reason (url_segment C) a.
Proof. exact api_reads. Qed.
Print Assumptions C67_reads.
(** What the grammar does not read does not compile. *)
Theorem C67_rejects : forall C E fuel reason ts, rust_like C -> (forall a, ~ invocation C ts a) -> describe_api_macro C E fuel reason ts = Rejected.
Proof. exact api_rejects. Qed.
Print Assumptions C67_rejects.
Theorem C67_unknown_section : forall C E fuel reason n p, rust_like C -> ~ In n (map u ["info"; "tags"; "servers"; "security_schemes"; "paths"]) ->
  describe_api_macro C E fuel reason [TkId n; COLON_TK; TkGr Brace p] = Rejected.
Proof. exact unknown_section. Qed.
Print Assumptions C67_unknown_section.
(** The grammar is unambiguous. *)
Theorem C67_one_meaning : forall C ts a a', rust_like C -> invocation C ts a -> invocation C ts a' -> a = a'.
Proof. exact api_one_meaning. Qed.
Print Assumptions C67_one_meaning.
(** A comma after the last section changes nothing. *)
Theorem C67_trailing_comma : forall C E fuel reason ts a, rust_like C -> sep_list COMMA (section_entry C) ts a ->
  describe_api_macro C E fuel reason (ts ++ [COMMA]) = describe_api_macro C E fuel reason ts.
Proof. exact api_trailing_comma. Qed.
Print Assumptions C67_trailing_comma.
(** The segments of urls: a string literal, a type, or [{name: Type}]. *)
Theorem C67_segments : forall C ts s, rust_like C -> (url_segment C ts = Some s <-> segment_form C ts s).
Proof. intros C ts s HC. exact (url_segment_spec C HC ts s). Qed.
Print Assumptions C67_segments.
(** The invocation in the repository's test is read as transcribed in Conformance.v, and gives the expected document. *)
Example C67_case : rust_like test_caller /\ invocation test_caller test_tokens test_api /\
  (exists d, describe_api_macro test_caller test_env 50 test_reason test_tokens = Done d /\ Ser.ser_opg d = Expected.y_expands_normally) /\
  segment_form test_caller [tk_id "uuid"; tk_pu "::"; tk_id "Uuid"] (SegType (u "uuid::Uuid") (TPrim PUuid)) /\
  (forall a, ~ invocation test_caller [tk_id "path"; COLON_TK; TkGr Brace []] a) /\
  (exists ts a, sep_list COMMA (section_entry test_caller) ts a /\ length a = 2).
Proof.
  split; [exact test_rust_like|]. split; [exact test_invocation|]. split.
  { pose proof test_expands as H. destruct (describe_api_macro test_caller test_env 50 test_reason test_tokens) as [d| | |]; try discriminate. exists d. split; [reflexivity|congruence]. }
  split; [apply (url_segment_spec _ test_rust_like); vm_compute; reflexivity|].
  split; [intros a Ha; apply (parse_api_spec _ test_rust_like) in Ha; vm_compute in Ha; discriminate|].
  exists ([tk_id "tags"; COLON_TK; TkGr Brace []] ++ COMMA :: [tk_id "paths"; COLON_TK; TkGr Brace []]), [ScTags []; ScPaths []]. split; [|reflexivity].
  apply sl_more; [|apply sl_last]; (eexists; split; [reflexivity|]; eexists; split; [reflexivity|]; left; constructor).
Qed.

(** FINDING: no section at all does not compile. *)
Theorem C67_no_sections_refuted : comma_list (section_entry test_caller) [] [] /\
  forall C E fuel reason, rust_like C -> describe_api_macro C E fuel reason [] = Rejected.
Proof. exact no_sections. Qed.
Print Assumptions C67_no_sections_refuted.
(** FINDING: a security scheme held in a variable cannot be listed, although there is a rule for it. *)
Theorem C67_scheme_variable_refuted : forall C E fuel reason n rest, rust_like C ->
  describe_api_macro C E fuel reason [tk_id "security_schemes"; COLON_TK; TkGr Brace (TkId n :: rest)] = Rejected.
Proof. exact scheme_variable. Qed.
Print Assumptions C67_scheme_variable_refuted.
(** FINDING: what is written in the braces of a callback that is named by a literal is ignored; and it must be last, with
    no comma after it. *)
Theorem C67_literal_callback_refuted : (forall C E fuel reason n body body', rust_like C ->
    describe_api_macro C E fuel reason (with_callback (literal_callback n body)) = describe_api_macro C E fuel reason (with_callback (literal_callback n body'))) /\
  compiles (with_callback (literal_callback (u "onDone") one_response)) = true /\
  compiles (with_callback (literal_callback (u "onDone") one_response ++ [COMMA])) = false.
Proof. split; [exact literal_callback_same|exact callback_literal_comma]. Qed.
Print Assumptions C67_literal_callback_refuted.
(** FINDING: a comma after the last path is accepted in [paths], but not in a callback. *)
Theorem C67_callback_comma_refuted : compiles (with_callback (named_callback one_response)) = true /\
  compiles (with_callback (named_callback (one_response ++ [COMMA]))) = false /\
  compiles [tk_id "paths"; COLON_TK; TkGr Brace (one_response ++ [COMMA])] = true.
Proof. exact callback_comma. Qed.
Print Assumptions C67_callback_comma_refuted.

(** * C68: describe_type! reads exactly its grammar *)

(** The model is that of the description as which the grammar ([type_form], SyntaxSpec.v) reads the source (see C53 for
    what it looks like); what the grammar does not read does not compile. *)
Theorem C68_model : forall C ts m, Syntax.describe_type_macro C ts = Some m <-> exists d, type_form C ts d /\ m = describe_type d.
Proof. exact type_model. Qed.
Print Assumptions C68_model.
Theorem C68_one_meaning : forall C ts d d', type_form C ts d -> type_form C ts d' -> d = d'.
Proof. exact type_one_meaning. Qed.
Print Assumptions C68_one_meaning.
(** The invocations in the repository's tests. *)
Example C68_case : type_form test_caller macro_tokens macro_model /\ Syntax.describe_type_macro test_caller response_tokens = Some some_response /\
  Syntax.describe_type_macro test_caller invalid_tokens = Some some_response.
Proof. split; [exact macro_form|]. split; [exact response_expands|exact invalid_expands]. Qed.
(** FINDING: the keys must come in one order, and with nothing in between. *)
Theorem C68_key_order_refuted : Syntax.describe_type_macro test_caller swapped = None /\ exists m, Syntax.describe_type_macro test_caller ordered = Some m.
Proof. exact key_order. Qed.
Print Assumptions C68_key_order_refuted.
Theorem C68_commas_refuted : Syntax.describe_type_macro test_caller (two_properties [COMMA]) = None /\
  exists m, Syntax.describe_type_macro test_caller (two_properties []) = Some m.
Proof. exact no_commas. Qed.
Print Assumptions C68_commas_refuted.
