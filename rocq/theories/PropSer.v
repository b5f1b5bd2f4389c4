(** Properties of serialised documents: C39, C42, C43, C44 (for documents built by hand; see PropApi for describe_api!), C45. *)
From Coq Require Import Permutation.
From Verif Require Import SerSpec SerFacts SerFacts2 SerFacts3 SerFacts4 SerExamples.
Local Open Scope string_scope. Local Open Scope list_scope.

(** * C39: A path renders unambiguously *)
Theorem C39_render_shape : forall p q s,
  render_path (p ++ q) = render_path p ++ render_path q /\ render_path [] = [] /\
  render_path [PePath s] = u "/" ++ s /\ render_path [PeParameter s] = u "/{" ++ s ++ u "}".
Proof. intros p q s. repeat split; [apply flat_map_app|cbn; now rewrite app_nil_r|cbn; now rewrite app_nil_r]. Qed.
Theorem C39_parse_back : forall p, plain_path p -> parse_path (render_path p) = p.
Proof. exact parse_render. Qed.
Theorem C39_injective : forall p p', plain_path p -> plain_path p' -> render_path p = render_path p' -> p = p'.
Proof. exact render_inj. Qed.
(** Without the condition on segments, different paths render alike. *)
Theorem C39_any_path_refuted : exists p p', p <> p' /\ render_path p = render_path p'.
Proof. exists [PePath (u "{id}")], [PeParameter (u "id")]. split; [discriminate|reflexivity]. Qed.
Example C39_case : plain_path [PePath (u "users"); PeParameter (u "id")] /\
  render_path [PePath (u "users"); PeParameter (u "id")] = u "/users/{id}" /\
  parse_path (u "/users/{id}") = [PePath (u "users"); PeParameter (u "id")].
Proof.
  split; [|split; reflexivity]. intros e [<-|[<-|[]]]; apply plain_dec; reflexivity.
Qed.
Print Assumptions C39_render_shape.
Print Assumptions C39_parse_back.
Print Assumptions C39_injective.
Print Assumptions C39_any_path_refuted.

(** * C42: Serialisation loses nothing *)
Theorem C42_document : forall d d', plain_paths (og_paths d) -> plain_paths (og_paths d') -> ser_opg d = ser_opg d' -> d = d'.
Proof. exact ser_opg_inj. Qed.
Theorem C42_schema : forall m m', ser_model m = ser_model m' -> m = m'.
Proof. exact ser_model_inj. Qed.
Theorem C42_reference : forall r r', ser_ref r = ser_ref r' -> r = r'.
Proof. exact ser_ref_inj. Qed.
Theorem C42_components : forall c c', ser_components c = ser_components c' -> c = c'.
Proof. exact ser_components_inj. Qed.
Theorem C42_operation : forall o o',
  (forall k c, In (k, c) (op_callbacks o) -> plain_paths (cb_paths c)) -> (forall k c, In (k, c) (op_callbacks o') -> plain_paths (cb_paths c)) ->
  ser_operation o = ser_operation o' -> o = o'.
Proof.
  intros o o' H H'. apply ser_operation_inj. intros k c k' c' Hk Hk'. apply ser_callback_inj; [eapply H|eapply H']; eauto.
Qed.
Theorem C42_parameters : forall p p', ser_parameters p = ser_parameters p' -> p = p'.
Proof. exact ser_parameters_inj. Qed.
Theorem C42_any_path_refuted : exists d d', d <> d' /\ ser_opg d = ser_opg d'.
Proof.
  exists (ex_doc_of [([PePath (u "{id}")], path_value_default)]), (ex_doc_of [([PeParameter (u "id")], path_value_default)]).
  split; [discriminate|reflexivity].
Qed.
Example C42_case : plain_paths (og_paths ex_doc) /\ ser_opg ex_doc <> ser_opg ex_twice /\ ser_model ex_schema <> ser_model ex_tag.
Proof. split; [exact ex_plain|split; discriminate]. Qed.
Print Assumptions C42_document.
Print Assumptions C42_schema.
Print Assumptions C42_reference.
Print Assumptions C42_components.
Print Assumptions C42_operation.
Print Assumptions C42_parameters.
Print Assumptions C42_any_path_refuted.

(** * C43: No object in the emitted document has duplicate keys *)
Theorem C43_keys_distinct_iff : forall d, wf_opg d -> (keys_distinct (ser_opg d) <-> distinct_paths (og_paths d)).
Proof. exact keys_distinct_iff. Qed.
Theorem C43_keys_distinct_refuted : exists d, wf_opg d /\ ~ keys_distinct (ser_opg d).
Proof.
  exists ex_twice. split; [exact ex_twice_wf|]. rewrite (keys_distinct_iff _ ex_twice_wf). exact ex_twice_dup.
Qed.
Example C43_case : wf_opg ex_doc /\ keys_distinct (ser_opg ex_doc).
Proof. split; [exact ex_wf|]. apply (keys_distinct_iff _ ex_wf). exact ex_distinct. Qed.
Print Assumptions C43_keys_distinct_iff.
Print Assumptions C43_keys_distinct_refuted.

(** * C44: No null values are emitted *)
Theorem C44_no_null_iff : forall d, no_null (ser_opg d) <-> bodies_described (og_paths d).
Proof. exact no_null_iff. Qed.
Theorem C44_no_null_refuted : exists d, ~ no_null (ser_opg d).
Proof.
  exists ex_null. rewrite no_null_iff. intros H.
  apply (H (with_request_body {| rb_description := None; rb_required := true; rb_schema := Any |} operation_default)
           {| rb_description := None; rb_required := true; rb_schema := Any |}); [|reflexivity|reflexivity].
  eapply has_operation_self; [left; reflexivity|left; reflexivity].
Qed.
Example C44_case : no_null (ser_opg ex_doc).
Proof. apply no_null_iff, ex_described. Qed.
Print Assumptions C44_no_null_iff.
Print Assumptions C44_no_null_refuted.

(** * C45: Emitted mappings are in canonical order *)
Theorem C45_document_order : forall d, wf_opg d ->
  (forall v, member "tags" (ser_opg d) = Some v -> has_names v (bm_keys (og_tags d))) /\ ascending (bm_keys (og_tags d)) /\
  (forall v, at_ ["components"; "schemas"] (ser_opg d) = Some v -> has_keys v (map VStr (bm_keys (cx_schemas (og_components d))))) /\
  ascending (bm_keys (cx_schemas (og_components d))) /\
  (forall v, at_ ["components"; "securitySchemes"] (ser_opg d) = Some v -> has_keys v (map VStr (bm_keys (cx_security (og_components d))))) /\
  ascending (bm_keys (cx_security (og_components d))) /\
  (forall v, member "paths" (ser_opg d) = Some v -> has_keys v (map (fun e => VStr (render_path (fst e))) (og_paths d))) /\
  (forall v, member "servers" (ser_opg d) = Some v -> exists l, v = VSeq l /\ map (member "url") l = map (fun s => Some (VStr (sv_url s))) (og_servers d)).
Proof. exact opg_order. Qed.
Theorem C45_path_item_order : forall v, wf_path_value v ->
  (exists pre ops post, ser_path_value v = VMap (pre ++ ops ++ post) /\
    map fst ops = map (fun m => VStr (method_name m)) (filter (fun m => bm_mem m (pv_operations v)) [GET; PUT; POST; DELETE; OPTIONS; HEAD; PATCH; TRACE]) /\
    (forall e m, In e (pre ++ post) -> fst e <> VStr (method_name m))) /\
  (forall w, member "parameters" (ser_path_value v) = Some w -> has_names w (bm_keys (pv_parameters v))) /\ ascending (bm_keys (pv_parameters v)).
Proof. exact path_value_order. Qed.
Theorem C45_operation_order : forall o, wf_operation o ->
  (forall v, member "responses" (ser_operation o) = Some v -> has_keys v (map VNum (bm_keys (op_responses o)))) /\ ascending (bm_keys (op_responses o)) /\
  (forall v, member "parameters" (ser_operation o) = Some v -> has_names v (bm_keys (op_parameters o))) /\ ascending (bm_keys (op_parameters o)) /\
  (forall v, member "callbacks" (ser_operation o) = Some v -> has_keys v (map VStr (bm_keys (op_callbacks o)))) /\ ascending (bm_keys (op_callbacks o)) /\
  (forall v, member "security" (ser_operation o) = Some v -> exists l, v = VSeq l /\ Forall2 (fun w s => has_keys w (map VStr (bm_keys s))) l (op_security o)) /\
  (forall s, In s (op_security o) -> ascending (bm_keys s)) /\
  (forall v, member "tags" (ser_operation o) = Some v -> v = VSeq (map VStr (op_tags o))).
Proof. exact operation_order. Qed.
Theorem C45_schema_order : forall m o, wf_model m -> object_of m = Some o ->
  (forall v, member "properties" (ser_model m) = Some v -> has_keys v (map VStr (bm_keys (mo_properties o)))) /\
  ascending (bm_keys (mo_properties o)) /\
  (forall v, member "required" (ser_model m) = Some v -> v = VSeq (map VStr (mo_required o))).
Proof. exact schema_order. Qed.
(** Whatever the order of declaration, a map ends up the same. *)
Theorem C45_declaration_order_irrelevant : forall (K V : Type) (O : Ord K) (l l' : list (K * V)),
  NoDup (map fst l) -> Permutation l l' -> declare l = declare l'.
Proof. intros K V O. exact declare_permutation. Qed.
Example C45_case : wf_opg ex_doc /\ wf_path_value ex_value /\ wf_model ex_schema /\
  at_ ["components"; "schemas"] (ser_opg ex_doc) = Some (ser_map ser_model [(u "Tag", ex_tag); (u "User", ex_schema)]) /\
  declare [(u "b", 1%N); (u "a", 2%N)] = declare [(u "a", 2%N); (u "b", 1%N)].
Proof.
  split; [exact ex_wf|]. split; [|split; [exact wf_model_schema|split; reflexivity]].
  destruct ex_wf as (_ & (H & _) & _). apply (H [PePath (u "users"); PeParameter (u "id")]).
  apply has_path_self. left. reflexivity.
Qed.
Print Assumptions C45_document_order.
Print Assumptions C45_path_item_order.
Print Assumptions C45_operation_order.
Print Assumptions C45_schema_order.
Print Assumptions C45_declaration_order_irrelevant.
