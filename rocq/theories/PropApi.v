(** Properties of describe_api! and describe_type!: C40, C41, C43-C53, C56-C58. *)
From Verif Require Import Attr Ast Derive Schema Gen GenSpec SerSpec SerFacts SerFacts2 SerFacts3 SerFacts4 ApiSpec
  ApiFacts ApiFacts2 ApiFacts3 ApiFacts4 ApiFacts5 ApiFacts6 ApiFacts7 ApiFacts8 Expected Conformance ApiExamples.
Local Open Scope string_scope. Local Open Scope list_scope.

(** * C40: Every path parameter is declared *)

(** Unless a header or query parameter of the path item takes the name. *)
Theorem C40_path_parameters_partial : forall E reason seg a d p v n,
  describes E reason seg a d -> has_path (og_paths d) p v -> In (PeParameter n) p ->
  (forall pd q, declares_path a pd -> In q (path_params_of pd) -> pd_name q <> n) ->
  exists x, bm_get n (pv_parameters v) = Some x /\ pr_in x = InPath /\ pr_required x = true.
Proof. exact path_parameters_declared. Qed.
(** Which entry there is exactly, path by path: that of the header or query parameter declared last under the name, else the path parameter. *)
Theorem C40_path_parameters_exact : forall E reason seg a d p v,
  describes E reason seg a d -> has_path (og_paths d) p v ->
  exists pd, declares_path a pd /\ path_means E reason seg (callback_means E reason seg) pd (p, v) /\
  forall n, (In (PeParameter n) p <-> exists t, template_parameter seg pd n t) /\
    match last_with pd_name n (path_params_of pd) with
    | Some q => exists x, bm_get n (pv_parameters v) = Some x /\ param_means E q (n, x)
    | None =>
        (forall t, template_parameter seg pd n t -> exists x, bm_get n (pv_parameters v) = Some x /\ pr_in x = InPath /\ pr_required x = true) /\
        (forall x, bm_get n (pv_parameters v) = Some x ->
           pr_in x = InPath /\ pr_required x = true /\ pr_deprecated x = false /\ pr_description x = None /\
           exists t r, template_parameter seg pd n t /\ pr_schema x = Some r /\ refers E t r)
    end.
Proof. exact path_parameters_exact. Qed.
(** The emitted text. *)
Theorem C40_emitted_partial : forall E reason seg a d p v n,
  describes E reason seg a d -> In (p, v) (og_paths d) -> In (PeParameter n) p ->
  (forall pd q, declares_path a pd -> In q (path_params_of pd) -> pd_name q <> n) ->
  exists w, emits_path (ser_opg d) p w /\ emits_path_parameter w n.
Proof. exact path_parameters_emitted. Qed.
Theorem C40_path_parameters_refuted : exists E reason seg a d p v n,
  describes E reason seg a d /\ In (p, v) (og_paths d) /\ In (PeParameter n) p /\
  forall x, bm_get n (pv_parameters v) = Some x -> pr_in x <> InPath.
Proof.
  exists test_env, test_reason, small_seg, reused, reused_doc.
  eexists _, _, (u "id"). split; [exact reused_describes|]. split; [left; reflexivity|]. split; [left; reflexivity|].
  intros x Hx. vm_compute in Hx. injection Hx as <-. discriminate.
Qed.
Example C40_case : exists v, In ([PePath (u "hello"); PePath (u "world"); PeParameter (u "paramTest")], v) (og_paths test_doc) /\
  (forall pd q, declares_path test_api pd -> In q (path_params_of pd) -> pd_name q <> u "paramTest") /\ List.length (pv_parameters v) = 4.
Proof. exact test_path_parameter. Qed.
Print Assumptions C40_path_parameters_partial.
Print Assumptions C40_path_parameters_exact.
Print Assumptions C40_emitted_partial.
Print Assumptions C40_path_parameters_refuted.

(** * C41: Every $ref of the emitted document resolves *)
Theorem C41_refs_resolve : forall E reason seg a d s,
  describes E reason seg a d -> (forall r, ~ raw_response a r) -> has_ref s (ser_opg d) ->
  exists n l w, s = u "#/components/schemas/" ++ n /\ at_ ["components"; "schemas"] (ser_opg d) = Some (VMap l) /\ lookup n l = Some w.
Proof. exact refs_resolve_all. Qed.
(** With response schemas written by hand, exactly the links in them may dangle. *)
Theorem C41_refs_resolve_or_written : forall E reason seg a d s,
  describes E reason seg a d -> has_ref s (ser_opg d) ->
  exists n, s = u "#/components/schemas/" ++ n /\
    ((exists l w, at_ ["components"; "schemas"] (ser_opg d) = Some (VMap l) /\ lookup n l = Some w) \/ exists r, raw_response a r /\ occurs n r).
Proof. exact refs_resolve. Qed.
Theorem C41_raw_response_refuted : exists E reason seg a d s,
  describes E reason seg a d /\ has_ref s (ser_opg d) /\ at_ ["components"; "schemas"] (ser_opg d) = None.
Proof.
  exists test_env, test_reason, small_seg, raw, raw_doc, (u "#/components/schemas/Nowhere"). split; [exact raw_describes|].
  split; [|reflexivity]. exact raw_has_ref.
Qed.
Example C41_case : describes test_env test_reason test_seg test_api test_doc /\ (forall r, ~ raw_response test_api r) /\
  has_ref (u "#/components/schemas/SimpleEnum") (ser_opg test_doc).
Proof. split; [exact test_describes|]. split; [exact test_no_raw|exact test_has_ref]. Qed.
Print Assumptions C41_refs_resolve.
Print Assumptions C41_refs_resolve_or_written.
Print Assumptions C41_raw_response_refuted.

(** * C43: No object in the emitted document has duplicate keys *)
Theorem C43_described : forall E reason seg a d,
  describes E reason seg a d -> (forall r, raw_response a r -> wf_ref r) -> (keys_distinct (ser_opg d) <-> distinct_paths (og_paths d)).
Proof. intros E reason seg a d Hd Hr. apply keys_distinct_iff. eapply described_wf; eassumption. Qed.
Theorem C43_described_refuted : exists E reason seg a d, describes E reason seg a d /\ ~ keys_distinct (ser_opg d).
Proof.
  exists test_env, test_reason, small_seg, twice_api, twice_doc. split; [exact twice_describes|].
  intros H. assert (Hp := H [(VStr (u "/{id}"), ser_path_value (snd (nth 0 (og_paths twice_doc) ([], path_value_default))));
    (VStr (u "/{id}"), ser_path_value (snd (nth 0 (og_paths twice_doc) ([], path_value_default))))]).
  assert (Hd : NoDup [VStr (u "/{id}"); VStr (u "/{id}")]) by (apply Hp; exact twice_part).
  inversion Hd as [|x l Hn]; subst. apply Hn. left. reflexivity.
Qed.
Example C43_described_case : describes test_env test_reason test_seg test_api test_doc /\ keys_distinct (ser_opg test_doc).
Proof. split; [exact test_describes|exact test_keys_distinct]. Qed.
Print Assumptions C43_described.
Print Assumptions C43_described_refuted.

(** * C44: No null values are emitted *)
Theorem C44_described : forall E reason seg a d, describes E reason seg a d -> no_null (ser_opg d).
Proof. intros E reason seg a d Hd. apply no_null_iff. eapply described_bodies; eassumption. Qed.
Example C44_described_case : describes test_env test_reason test_seg test_api test_doc /\ no_null (ser_opg test_doc).
Proof. split; [exact test_describes|]. exact (C44_described _ _ _ _ _ test_describes). Qed.
Print Assumptions C44_described.

(** * C45: Emitted mappings are in canonical order *)

(** The documents of describe_api! are among those of C45_document_order. *)
Theorem C45_described : forall E reason seg a d,
  describes E reason seg a d -> (forall r, raw_response a r -> wf_ref r) -> wf_opg d.
Proof. intros E reason seg a d. exact (described_wf E reason seg a d). Qed.
(** Paths and servers keep the order of declaration. *)
Theorem C45_described_order : forall E reason seg a d, describes E reason seg a d ->
  map sv_url (og_servers d) = flat_map (fun s => match s with ScServers l => map fst l | _ => [] end) a /\
  List.length (og_paths d) = List.length (api_paths a) /\
  Forall2 (path_means E reason seg (callback_means E reason seg)) (api_paths a) (og_paths d).
Proof. exact described_order. Qed.
Example C45_described_case : describes test_env test_reason test_seg test_api test_doc /\ (forall r, raw_response test_api r -> wf_ref r) /\
  map sv_url (og_servers test_doc) = [u "https://my.super.server.com/v1"; u "http://test/123"] /\ List.length (og_paths test_doc) = 2.
Proof.
  split; [exact test_describes|]. split; [|split; reflexivity]. intros r Hr. destruct (test_no_raw r Hr).
Qed.
Print Assumptions C45_described.
Print Assumptions C45_described_order.

(** * C46: Repeated declarations in describe_api!: the last one wins *)
Theorem C46_tags : forall E reason seg a d n, describes E reason seg a d ->
  bm_get n (og_tags d) = match last_with fst n (tags_of a) with None => None | Some t => Some {| tg_description := snd t |} end.
Proof. intros E reason seg a d n Hd. eapply tags_last, describes_means, Hd. Qed.
Theorem C46_security_schemes : forall E reason seg a d n s, describes E reason seg a d ->
  last_of (event_declares n) (ev_api seg a) = Some s -> bm_get n (cx_security (og_components d)) = Some s.
Proof. intros E reason seg a d n s Hd Hs. rewrite (scheme_value _ _ _ _ _ n Hd), Hs. reflexivity. Qed.
(** Each path of the document comes from a declaration that means it, ... *)
Theorem C46_paths : forall E reason seg a d p v, describes E reason seg a d -> has_path (og_paths d) p v ->
  exists pd, declares_path a pd /\ path_means E reason seg (callback_means E reason seg) pd (p, v).
Proof. intros E reason seg a d p v Hd. apply has_path_declared, describes_means, Hd. Qed.
(** ... where for each method the last declaration counts, ... *)
Theorem C46_methods : forall E reason seg pd p v m, path_means E reason seg (callback_means E reason seg) pd (p, v) ->
  match last_with fst m (methods_of pd) with
  | None => bm_get m (pv_operations v) = None
  | Some (_, l) => exists o, bm_get m (pv_operations v) = Some o /\ op_means E reason (callback_means E reason seg) l o
  end.
Proof. exact methods_last. Qed.
(** ... and in an operation, for each status code, parameter name and callback name. *)
Theorem C46_operation : forall E reason seg l o, op_means E reason (callback_means E reason seg) l o ->
  (forall c, match last_with (fun r => fst (fst r)) c (responses_of l) with
             | None => bm_get c (op_responses o) = None
             | Some r => exists x, bm_get c (op_responses o) = Some x /\ response_means E reason r (c, x)
             end) /\
  (forall n, match last_with pd_name n (params_of l) with
             | None => bm_get n (op_parameters o) = None
             | Some q => exists x, bm_get n (op_parameters o) = Some x /\ param_means E q (n, x)
             end) /\
  (forall n, match last_with cd_name n (callbacks_of l) with
             | None => bm_get n (op_callbacks o) = None
             | Some q => exists x, bm_get n (op_callbacks o) = Some x /\ callback_means E reason seg q x
             end).
Proof. intros E reason seg l o Ho. split; [|split]; intros k; [apply (responses_last E reason seg l o k Ho)|apply (parameters_last E reason seg l o k Ho)|now apply callbacks_last]. Qed.
(** The whole meaning of an invocation (ApiSpec). *)
Theorem C46_meaning : forall E reason seg a d, describes E reason seg a d -> api_means E reason seg a d.
Proof. exact describes_means. Qed.
Example C46_case : describes test_env test_reason small_seg again again_doc /\
  bm_get (u "a") (og_tags again_doc) = Some {| tg_description := Some (u "two") |} /\
  bm_get (u "auth") (cx_security (og_components again_doc)) = Some (Http (Bearer None None)) /\
  exists p v o x y c, og_paths again_doc = [(p, v)] /\ bm_get GET (pv_operations v) = Some o /\ op_summary o = Some (u "second") /\
    bm_get 200%N (op_responses o) = Some x /\ rs_description x = u "OK" /\ bm_get (u "q") (op_parameters o) = Some y /\
    pr_in y = InHeader /\ pr_description y = Some (u "y") /\ bm_get (u "cb") (op_callbacks o) = Some c /\ List.length (cb_paths c) = 2.
Proof.
  split; [exact again_describes|]. split; [reflexivity|]. split; [reflexivity|]. do 6 eexists. repeat split.
Qed.
Print Assumptions C46_tags.
Print Assumptions C46_security_schemes.
Print Assumptions C46_paths.
Print Assumptions C46_methods.
Print Assumptions C46_operation.
Print Assumptions C46_meaning.

(** * C47: Response descriptions default to the HTTP reason *)
Theorem C47_response_description : forall E reason seg a d o c x,
  describes E reason seg a d -> has_operation (og_paths d) o -> bm_get c (op_responses o) = Some x ->
  exists l given s, declares_operation a l /\ In (OpResponse c given s) l /\
    rs_description x = match given with Some t => t | None => match reason c with Some t => t | None => [] end end.
Proof. exact response_description_given. Qed.
Theorem C47_emitted : forall x, member "description" (ser_response x) = Some (VStr (rs_description x)).
Proof. reflexivity. Qed.
Example C47_case : exists o, has_operation (og_paths again_doc) o /\
  option_map rs_description (bm_get 200%N (op_responses o)) = Some (u "OK") /\ option_map rs_description (bm_get 404%N (op_responses o)) = Some [].
Proof.
  eexists. split; [|split]; [eexists _, _, GET; split; [exists (og_paths again_doc); split; [constructor|left; reflexivity]|left; reflexivity]|reflexivity|reflexivity].
Qed.
Print Assumptions C47_response_description.
Print Assumptions C47_emitted.

(** * C48: Security requirements refer to declared schemes *)
Theorem C48_identifiers_registered : forall E reason seg a d n s, describes E reason seg a d ->
  uses_scheme a n s -> bm_get n (cx_security (og_components d)) <> None.
Proof. intros E reason seg a d n s Hd Hu. apply (scheme_registered _ _ _ _ _ n Hd). exists s. now right. Qed.
(** exactly the declared and the used schemes are registered *)
Theorem C48_registered_iff : forall E reason seg a d n, describes E reason seg a d ->
  (bm_get n (cx_security (og_components d)) <> None <-> exists s, declares_scheme a n s \/ uses_scheme a n s).
Proof. exact scheme_registered. Qed.
(** the last declaration, else the first use, in the order of the text *)
Theorem C48_registered_value : forall E reason seg a d n, describes E reason seg a d ->
  bm_get n (cx_security (og_components d)) =
    match last_of (event_declares n) (ev_api seg a) with Some s => Some s | None => first_of (event_uses n) (ev_api seg a) end /\
  (forall s, In (EvDeclare n s) (ev_api seg a) <-> declares_scheme a n s) /\ (forall s, In (EvUse n s) (ev_api seg a) <-> uses_scheme a n s).
Proof. intros E reason seg a d n Hd. split; [now apply scheme_value with (reason := reason) (E := E)|]. split; intros s; [apply declare_events|apply use_events]. Qed.
(** Requirements named by literals are not checked. *)
Theorem C48_requirements_partial : forall E reason seg a d o s n,
  describes E reason seg a d -> has_operation (og_paths d) o -> In s (op_security o) -> bm_get n s <> None ->
  bm_get n (cx_security (og_components d)) <> None \/ literal_scheme a n.
Proof. exact operation_requirements. Qed.
Theorem C48_requirements_refuted : exists E reason seg a d o s n,
  describes E reason seg a d /\ has_operation (og_paths d) o /\ In s (op_security o) /\ bm_get n s <> None /\
  bm_get n (cx_security (og_components d)) = None.
Proof.
  exists test_env, test_reason, small_seg, literal_security, literal_security_doc.
  eexists _, _, (u "nowhere"). split; [exact literal_security_describes|].
  split; [eexists _, _, GET; split; [exists (og_paths literal_security_doc); split; [constructor|left; reflexivity]|left; reflexivity]|].
  split; [left; reflexivity|]. split; [discriminate|reflexivity].
Qed.
Example C48_case : describes test_env test_reason test_seg test_api test_doc /\ uses_scheme test_api (u "test_auth") test_auth /\
  bm_keys (cx_security (og_components test_doc)) = [u "ApiKeyAuth"; u "basicAuth"; u "bearerAuth"; u "test_auth"].
Proof. split; [exact test_describes|]. split; [exact test_uses|reflexivity]. Qed.
Print Assumptions C48_identifiers_registered.
Print Assumptions C48_registered_iff.
Print Assumptions C48_registered_value.
Print Assumptions C48_requirements_partial.
Print Assumptions C48_requirements_refuted.

(** * C49: Callbacks keep their paths *)
Theorem C49_callbacks_partial : forall E reason seg a d o k c,
  describes E reason seg a d -> has_operation (og_paths d) o -> bm_get k (op_callbacks o) = Some c ->
  exists l cs t, declares_operation a l /\ In (OpCallbacks cs t) l /\
    ((exists ds, In (CbIdent k ds) cs /\ Forall2 (path_means E reason seg (callback_means E reason seg)) ds (cb_paths c)) \/
     (exists ds, In (CbLit k ds) cs /\ cb_paths c = [])).
Proof. exact callbacks_keep. Qed.
(** Every callback named by an identifier, the last of its name in an operation that is the last of its method, is there with all its paths. *)
Theorem C49_declared_partial : forall E reason seg a d pd m l n ds,
  describes E reason seg a d -> In pd (api_paths a) -> last_with fst m (methods_of pd) = Some (m, l) ->
  last_with cd_name n (callbacks_of l) = Some (CbIdent n ds) ->
  exists p v o c, In (p, v) (og_paths d) /\ bm_get m (pv_operations v) = Some o /\ bm_get n (op_callbacks o) = Some c /\
    Forall2 (path_means E reason seg (callback_means E reason seg)) ds (cb_paths c).
Proof. exact callbacks_declared. Qed.
Theorem C49_callbacks_refuted : exists E reason seg a d o c,
  describes E reason seg a d /\ has_operation (og_paths d) o /\ bm_get (u "cb") (op_callbacks o) = Some c /\ cb_paths c = [] /\
  exists l ds, declares_operation a l /\ In (OpCallbacks [CbLit (u "cb") ds] false) l /\ ds <> [].
Proof.
  exists test_env, test_reason, small_seg, literal_callback, literal_callback_doc.
  eexists _, _. split; [exact literal_callback_describes|].
  split; [eexists _, _, GET; split; [exists (og_paths literal_callback_doc); split; [constructor|left; reflexivity]|left; reflexivity]|].
  split; [reflexivity|]. split; [reflexivity|].
  exists [OpCallbacks [CbLit (u "cb") [small_path [PvSummary (u "s")]]] false], [small_path [PvSummary (u "s")]].
  split; [|split; [left; reflexivity|discriminate]].
  eexists _, GET. split; [eexists; split; [constructor|left; reflexivity]|left; reflexivity].
Qed.
Example C49_case : exists o c, has_operation (og_paths test_doc) o /\ bm_get (u "myCallback") (op_callbacks o) = Some c /\
  map fst (cb_paths c) = [[PePath (u "callback_url")]].
Proof.
  eexists _, _. split; [|split]; [eexists _, _, POST; split; [exists (og_paths test_doc); split; [constructor|left; reflexivity]|left; reflexivity]|reflexivity|reflexivity].
Qed.
Example C49_declared_case : exists pd l ds, In pd (api_paths test_api) /\ last_with fst POST (methods_of pd) = Some (POST, l) /\
  last_with cd_name (u "myCallback") (callbacks_of l) = Some (CbIdent (u "myCallback") ds) /\ ds <> [].
Proof. exists test_path_1. do 2 eexists. split; [left; reflexivity|]. split; [reflexivity|]. split; [reflexivity|discriminate]. Qed.
Print Assumptions C49_callbacks_partial.
Print Assumptions C49_declared_partial.
Print Assumptions C49_callbacks_refuted.

(** * C50: The path DSL splits segments at slashes *)
Theorem C50_split_join : forall gs, gs <> [] -> split_url (join_url gs) = gs.
Proof. exact split_join. Qed.
Theorem C50_join_split : forall url, join_url (split_url url) = url.
Proof. exact join_split. Qed.
(** Non-empty segments between slashes give exactly the elements of the path, in order. *)
Theorem C50_elements : forall E reason seg pd p v gs, pd_url pd = join_url gs -> gs <> [] ->
  path_means E reason seg (callback_means E reason seg) pd (p, v) ->
  exists segs, Forall2 (fun g s => g <> [] /\ seg g = Some s) gs segs /\ Forall2 segment_means segs p.
Proof. exact url_elements. Qed.
(** A path with an empty segment (a leading, trailing or doubled slash) or one that matches no form is rejected, wherever it stands. *)
Theorem C50_rejected : forall E reason seg a pd gs, declares_path a pd -> pd_url pd = join_url gs -> gs <> [] ->
  (In [] gs \/ exists g, In g gs /\ seg g = None) -> does_not_compile E reason seg a.
Proof. exact url_rejected. Qed.
Theorem C50_slashes : forall E reason seg a pd url, declares_path a pd ->
  pd_url pd = USlash :: url \/ pd_url pd = url ++ [USlash] \/ (exists url', pd_url pd = url ++ USlash :: USlash :: url') \/ pd_url pd = [] ->
  does_not_compile E reason seg a.
Proof. exact slashes_rejected. Qed.
Example C50_case : split_url [UTok (TkGr Brace [tk_id "id"; tk_pu ":"; tk_id "String"]); USlash; UTok (tk_str "users")] = [[TkGr Brace [tk_id "id"; tk_pu ":"; tk_id "String"]]; [tk_str "users"]] /\
  run [ScPaths [Build_path_decl_of [UTok (TkGr Brace [tk_id "id"; tk_pu ":"; tk_id "String"]); USlash; UTok (tk_str "users")] []]] <> Rejected /\
  run [ScPaths [Build_path_decl_of [USlash; UTok (TkGr Brace [tk_id "id"; tk_pu ":"; tk_id "String"])] []]] = Rejected.
Proof. split; [reflexivity|]. split; [vm_compute; discriminate|reflexivity]. Qed.
Print Assumptions C50_split_join.
Print Assumptions C50_join_split.
Print Assumptions C50_elements.
Print Assumptions C50_rejected.
Print Assumptions C50_slashes.

(** * C51: Builder methods set exactly one setting *)
Theorem C51_changes_only : forall c o, changes_only (call_setting c) o (call c o).
Proof. exact call_changes. Qed.
Theorem C51_sets : forall l o,
  op_summary (calls l o) = match last_of (fun c => match c with BcSummary s => Some s | _ => None end) l with Some s => Some s | None => op_summary o end /\
  op_id (calls l o) = match last_of (fun c => match c with BcId s => Some s | _ => None end) l with Some s => Some s | None => op_id o end /\
  op_description (calls l o) = match last_of (fun c => match c with BcDescription s => Some s | _ => None end) l with Some s => Some s | None => op_description o end /\
  op_deprecated (calls l o) = match last_of (fun c => match c with BcDeprecated s => Some s | _ => None end) l with Some s => s | None => op_deprecated o end /\
  op_body (calls l o) = match last_of (fun c => match c with BcBody s => Some s | _ => None end) l with Some s => Some s | None => op_body o end /\
  op_tags (calls l o) = op_tags o /\ op_security (calls l o) = op_security o /\ op_responses (calls l o) = op_responses o /\
  op_parameters (calls l o) = op_parameters o /\ op_callbacks (calls l o) = op_callbacks o.
Proof. exact calls_settings. Qed.
Theorem C51_later_overrides : forall c c' o, call_setting c = call_setting c' -> call c' (call c o) = call c' o.
Proof. exact call_last. Qed.
Theorem C51_commute : forall c c' o, call_setting c <> call_setting c' -> call c (call c' o) = call c' (call c o).
Proof. exact call_commute. Qed.
Example C51_case : op_summary (calls [BcSummary (u "a"); BcDeprecated true; BcSummary (u "b")] operation_default) = Some (u "b") /\
  op_deprecated (calls [BcSummary (u "a"); BcDeprecated true; BcSummary (u "b")] operation_default) = true.
Proof. split; reflexivity. Qed.
Print Assumptions C51_changes_only.
Print Assumptions C51_sets.
Print Assumptions C51_later_overrides.
Print Assumptions C51_commute.

(** * C52: Parameters have the documented defaults *)
Theorem C52_operation_parameters : forall E reason seg a d o n x,
  describes E reason seg a d -> has_operation (og_paths d) o -> bm_get n (op_parameters o) = Some x ->
  exists l q, declares_operation a l /\ In q (params_of l) /\ param_means E q (n, x).
Proof. exact operation_parameter_means. Qed.
Theorem C52_header : forall E n props x, param_means E (PdHeader n props) (n, x) ->
  pr_in x = InHeader /\
  ((forall b, ~ In (PpRequired b) props) -> pr_required x = true) /\ ((forall b, ~ In (PpDeprecated b) props) -> pr_deprecated x = false) /\
  ((forall s, ~ In (PpDescription s) props) -> pr_description x = None) /\
  ((forall t, ~ In (PpSchema t) props) -> exists r, pr_schema x = Some r /\ refers E (TPrim PString) r).
Proof. exact header_defaults. Qed.
Theorem C52_query : forall E n t props x, param_means E (PdQuery n t props) (n, x) ->
  pr_in x = InQuery /\
  ((forall b, ~ In (PpRequired b) props) -> pr_required x = false) /\ ((forall b, ~ In (PpDeprecated b) props) -> pr_deprecated x = false) /\
  ((forall s, ~ In (PpDescription s) props) -> pr_description x = None) /\
  ((forall t', ~ In (PpSchema t') props) -> exists r, pr_schema x = Some r /\ refers E t r).
Proof. exact query_defaults. Qed.
(** a property that is given counts, the last time it is *)
Theorem C52_given : forall E q n x before p after, param_means E q (n, x) -> pd_params q = before ++ p :: after ->
  match p with
  | PpRequired b => (forall b', ~ In (PpRequired b') after) -> pr_required x = b
  | PpDeprecated b => (forall b', ~ In (PpDeprecated b') after) -> pr_deprecated x = b
  | PpDescription s => (forall s', ~ In (PpDescription s') after) -> pr_description x = Some s
  | PpSchema t => (forall t', ~ In (PpSchema t') after) -> exists r, pr_schema x = Some r /\ refers E t r
  end.
Proof. exact given_properties. Qed.
Example C52_case : exists o x y, has_operation (og_paths test_doc) o /\ bm_get (u "someParam") (op_parameters o) = Some x /\
  pr_required x = false /\ pr_deprecated x = true /\ pr_description x = Some (u "Test") /\
  exists p v, In (p, v) (og_paths test_doc) /\ bm_get (u "asd") (pv_parameters v) = Some y /\ pr_required y = true /\ pr_deprecated y = false.
Proof.
  eexists _, _, _. split; [eexists _, _, GET; split; [exists (og_paths test_doc); split; [constructor|right; left; reflexivity]|left; reflexivity]|].
  do 4 (split; [reflexivity|]). eexists _, _. split; [right; left; reflexivity|]. repeat split.
Qed.
Print Assumptions C52_operation_parameters.
Print Assumptions C52_header.
Print Assumptions C52_query.
Print Assumptions C52_given.

(** * C53: describe_type! builds exactly the described schema *)
Theorem C53_object : forall desc l,
  (forall k, property_of (describe_type (DtObject desc l)) k =
     match last_with (fun e => fst (fst e)) k l with Some e => Some (describe_value_ref (snd e)) | None => None end) /\
  exists o, object_of (describe_type (DtObject desc l)) = Some o /\ mo_additional o = None /\
    mo_required o = map (fun e => fst (fst e)) (filter (fun e => snd (fst e)) l) /\
    m_description (describe_type (DtObject desc l)) = desc.
Proof. exact describe_object_form. Qed.
Theorem C53_simple : forall d f e v,
  (let w := ser_model (describe_type (DtString d f e v)) in
   member "type" w = Some (VStr (u "string")) /\ member "description" w = option_map VStr d /\ member "format" w = option_map VStr f /\
   member "example" w = option_map VStr e /\ member "enum" w = option_map (fun l => VSeq (map VStr l)) v /\ member "nullable" w = None) /\
  (let w := ser_model (describe_type (DtNumber d f e)) in
   member "type" w = Some (VStr (u "number")) /\ member "description" w = option_map VStr d /\ member "format" w = option_map VStr f /\
   member "example" w = option_map VStr e /\ member "nullable" w = None) /\
  (let w := ser_model (describe_type (DtInteger d f e)) in
   member "type" w = Some (VStr (u "integer")) /\ member "description" w = option_map VStr d /\ member "format" w = option_map VStr f /\
   member "example" w = option_map VStr e /\ member "nullable" w = None) /\
  (let w := ser_model (describe_type (DtBoolean d)) in
   member "type" w = Some (VStr (u "boolean")) /\ member "description" w = option_map VStr d /\ member "nullable" w = None).
Proof. exact describe_simple. Qed.
Theorem C53_array : forall d v,
  let w := ser_model (describe_type (DtArray d v)) in
  member "type" w = Some (VStr (u "array")) /\ member "description" w = option_map VStr d /\ member "nullable" w = None /\
  member "items" w = Some (match v with DvLink l => VMap [(VStr (u "$ref"), VStr (u "#/components/schemas/" ++ l))] | DvInline x => ser_model (describe_type x) end).
Proof. exact describe_array. Qed.
(** Every link is one that was written, and every one written is there (unless a property is declared again). *)
Theorem C53_links_written : forall l d, occurs_in l (describe_type d) -> written l d.
Proof. intros l. exact (proj1 (describe_links l)). Qed.
Theorem C53_written_links : forall l d, names_distinct d -> written l d -> occurs_in l (describe_type d).
Proof. exact describe_links_back. Qed.
Theorem C53_not_nullable : forall d m, all_described d -> inside m (describe_type d) -> nullable_of m = Some false.
Proof. intros d m Hd. exact (describe_not_nullable d Hd m). Qed.
Example C53_case : all_described described_object /\ names_distinct described_object /\ written (u "Sub") described_object /\
  exists o, object_of (describe_type described_object) = Some o /\ mo_required o = [u "id"; u "a"] /\ bm_keys (mo_properties o) = [u "a"; u "b"; u "id"].
Proof. exact described_object_case. Qed.
Print Assumptions C53_object.
Print Assumptions C53_simple.
Print Assumptions C53_array.
Print Assumptions C53_links_written.
Print Assumptions C53_written_links.
Print Assumptions C53_not_nullable.

(** * C56: The components of a document are those of the types written in it *)

(** Whatever their names: the schemas are what mentioning the types written, in order, gives. *)
Theorem C56_components : forall E reason seg a d, describes E reason seg a d ->
  exists ts cx, (forall t, In t ts <-> names_type seg a t) /\
    mentions_return E (map (fun t => {| mc_ty := t; mc_inline := false; mc_params := params_default |}) ts) cx_new cx /\
    cx_schemas (og_components d) = cx_schemas cx.
Proof. exact components_of_types. Qed.
(** If no two types share a name: exactly the types that the written types lead to, each with its schema. *)
Theorem C56_components_exact : forall E reason seg a d ts, describes E reason seg a d ->
  (forall t, In t ts <-> names_type seg a t) -> names_unambiguous E (map (fun t => SMention t false) ts) ->
  (forall n, registered (og_components d) n <-> exists t, linked E (map (fun t => SMention t false) ts) t /\ type_name E t = Some n) /\
  (forall t n, linked E (map (fun t => SMention t false) ts) t -> type_name E t = Some n ->
     exists m, bm_get n (cx_schemas (og_components d)) = Some m /\ forall cx, exists cx', schema_returns E t cx m cx').
Proof. exact components_exact. Qed.
(** The order of the sections, paths and declarations does not matter to the schemas. *)
Theorem C56_order_irrelevant : forall E reason seg a a' d d', describes E reason seg a d -> describes E reason seg a' d' ->
  (forall t, names_type seg a t <-> names_type seg a' t) ->
  (forall ts, (forall t, In t ts <-> names_type seg a t) -> names_unambiguous E (map (fun t => SMention t false) ts)) ->
  cx_schemas (og_components d) = cx_schemas (og_components d').
Proof. exact components_same. Qed.
Example C56_case : describes test_env test_reason test_seg test_api test_doc /\ names_type test_seg test_api (TNamed 19) /\
  names_unambiguous test_env (map (fun t => SMention t false) (types_of (ev_api test_seg test_api))) /\
  (forall t, In t (types_of (ev_api test_seg test_api)) <-> names_type test_seg test_api t) /\
  bm_keys (cx_schemas (og_components test_doc)) = [u "InModule"; u "SimpleEnum"; u "Test"].
Proof. exact test_names. Qed.
Print Assumptions C56_components.
Print Assumptions C56_components_exact.
Print Assumptions C56_order_irrelevant.

(** * C57: When describe_api! gives a document *)

(** If it compiles, the types in its urls have names, and no type written in it is recursive; otherwise not. *)
Theorem C57_describes_iff : forall E reason seg a ts,
  (forall t, In t ts <-> names_type seg a t) -> names_unique E (map (fun t => SMention t false) ts) ->
  (forall t, In t ts -> exists l, forall t', contains E t t' -> In t' l) ->
  ((exists d, describes E reason seg a d) <->
   ~ does_not_compile E reason seg a /\ ~ unnameable seg a /\ forall t, In t ts -> ~ recursive E t).
Proof. exact describes_when. Qed.
Theorem C57_deterministic : forall E reason seg a d d', describes E reason seg a d -> describes E reason seg a d' -> d = d'.
Proof. exact describes_unique. Qed.
(** Without recursive types it does, whatever the names. *)
Theorem C57_not_recursive : forall E reason seg a,
  ~ does_not_compile E reason seg a -> ~ unnameable seg a ->
  (forall t, names_type seg a t -> ~ recursive E t /\ exists l, forall t', contains E t t' -> In t' l) ->
  exists d, describes E reason seg a d.
Proof. exact not_recursive_describes. Qed.
(** FINDING: with a recursive type the program does not return (it overflows the stack). *)
Theorem C57_recursive : forall E reason seg a ts t,
  (forall t, In t ts <-> names_type seg a t) -> names_unique E (map (fun t => SMention t false) ts) ->
  ~ does_not_compile E reason seg a -> ~ unnameable seg a -> In t ts -> recursive E t -> never_returns E reason seg a.
Proof. exact recursive_never. Qed.
(** FINDING: with a type in a url that gives no name it gives no document, and panics unless a recursive type keeps it from returning. *)
Theorem C57_unnameable : forall E reason seg a, ~ does_not_compile E reason seg a -> unnameable seg a ->
  (forall d, ~ describes E reason seg a d) /\
  ((forall t, names_type seg a t -> ~ recursive E t /\ exists l, forall t', contains E t t' -> In t' l) -> panics E reason seg a).
Proof. exact unnameable_panics. Qed.
Example C57_case :
  describes test_env test_reason test_seg test_api test_doc /\
  (forall t, In t (types_of (ev_api test_seg test_api)) -> ~ recursive test_env t /\ exists l, forall t', contains test_env t t' -> In t' l) /\
  never_returns test_env test_reason small_seg [ScPaths [Build_path_decl_of [UTok (tk_id "Rec")] []]] /\
  panics test_env test_reason small_seg [ScPaths [Build_path_decl_of [UTok (tk_id "Wide")] []]] /\
  does_not_compile test_env test_reason small_seg [ScPaths [Build_path_decl_of [UTok (tk_id "Nope")] []]].
Proof. exact outcome_cases. Qed.
Print Assumptions C57_describes_iff.
Print Assumptions C57_deterministic.
Print Assumptions C57_not_recursive.
Print Assumptions C57_recursive.
Print Assumptions C57_unnameable.

(** * C58: Which invocations compile *)
Theorem C58_does_not_compile_iff : forall E reason seg a, does_not_compile E reason seg a <-> breaks_rule seg a.
Proof. exact compiles_rules. Qed.
Example C58_case : ~ breaks_rule test_seg test_api /\
  breaks_rule small_seg (small [PvMethod POST [OpBody (BodyProps [BpDescription (u "x")])]]).
Proof. exact compiles_cases. Qed.
Print Assumptions C58_does_not_compile_iff.
