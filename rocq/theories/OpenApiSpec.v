(** What OpenAPI 3.0.3 demands of a document, written from the OpenAPI specification.  Fixed fields that opg does not know are left
    out, which makes the demands stricter.  Demands that span the document are separate properties: references resolve (C41), security
    requirements name declared schemes (C48), the parameters in a path are declared (C40). *)
From Verif Require Export SerSpec.
Local Open Scope string_scope. Local Open Scope list_scope.

(** ** Fields of an object *)
(** only these fields, each at most once *)
Definition fields (ks : list string) (l : entries) : Prop :=
  NoDup (map fst l) /\ forall k w, In (k, w) l -> exists s, In s ks /\ k = VStr (u s).
Definition optional (k : string) (P : value -> Prop) (l : entries) : Prop := forall w, lookup (u k) l = Some w -> P w.
Definition required (k : string) (P : value -> Prop) (l : entries) : Prop := exists w, lookup (u k) l = Some w /\ P w.

Definition any_value (v : value) : Prop := True.
Definition is_text (v : value) : Prop := exists s, v = VStr s.
Definition is_flag (v : value) : Prop := exists b, v = VBool b.
Definition one_of (ss : list string) (v : value) : Prop := exists s, In s ss /\ v = VStr (u s).
Definition list_of (P : value -> Prop) (v : value) : Prop := exists l, v = VSeq l /\ forall w, In w l -> P w.
Definition nonempty_list_of (P : value -> Prop) (v : value) : Prop := exists l, v = VSeq l /\ l <> [] /\ forall w, In w l -> P w.
(** a map with distinct keys *)
Definition map_of (K : str -> Prop) (P : value -> Prop) (v : value) : Prop :=
  exists l, v = VMap l /\ NoDup (map fst l) /\ forall k w, In (k, w) l -> exists s, k = VStr s /\ K s /\ P w.
Definition any_key (s : str) : Prop := True.

(** ** Schema Object or Reference Object *)
Inductive is_schema : value -> Prop :=
| schema_reference n : is_schema (VMap [(VStr (u "$ref"), VStr (u "#/components/schemas/" ++ n))])
| schema_object l :
    fields ["description"; "nullable"; "type"; "format"; "example"; "enum"; "items"; "properties"; "additionalProperties"; "required";
            "oneOf"; "allOf"; "anyOf"] l ->
    optional "description" is_text l ->
    optional "nullable" is_flag l ->
    optional "type" (one_of ["string"; "number"; "integer"; "boolean"; "array"; "object"]) l ->
    optional "format" is_text l ->
    optional "example" any_value l ->
    optional "enum" (nonempty_list_of is_text) l ->
    optional "items" is_schema l ->
    (lookup (u "type") l = Some (VStr (u "array")) -> lookup (u "items") l <> None) ->
    optional "properties" (map_of any_key is_schema) l ->
    optional "additionalProperties" is_schema l ->
    optional "required" (fun v => exists ss, v = VSeq (map VStr ss) /\ ss <> [] /\ NoDup ss) l ->
    optional "oneOf" (nonempty_list_of is_schema) l ->
    optional "allOf" (nonempty_list_of is_schema) l ->
    optional "anyOf" (nonempty_list_of is_schema) l ->
    is_schema (VMap l).

(** ** Security Scheme Object, Components Object *)
Definition is_scheme (v : value) : Prop :=
  exists l, v = VMap l /\
  ((fields ["type"; "scheme"; "bearerFormat"; "description"] l /\ required "type" (one_of ["http"]) l /\ required "scheme" is_text l /\
    optional "bearerFormat" is_text l /\ optional "description" is_text l) \/
   (fields ["type"; "in"; "name"; "description"] l /\ required "type" (one_of ["apiKey"]) l /\
    required "in" (one_of ["query"; "header"; "cookie"]) l /\ required "name" is_text l /\ optional "description" is_text l)).
(** the name of a component: letters, digits, dots, dashes and underscores *)
Definition name_char (c : N) : Prop :=
  (48 <= c <= 57 \/ 65 <= c <= 90 \/ 97 <= c <= 122)%N \/ In c [45; 46; 95]%N.
Definition component_name (s : str) : Prop := s <> [] /\ forall c, In c s -> name_char c.
Definition is_components (v : value) : Prop :=
  exists l, v = VMap l /\ fields ["schemas"; "securitySchemes"] l /\
  optional "schemas" (map_of component_name is_schema) l /\ optional "securitySchemes" (map_of component_name is_scheme) l.

(** ** Parameter Object: a path parameter is required, and there is a schema *)
Definition is_parameter (v : value) : Prop :=
  exists l, v = VMap l /\ fields ["name"; "in"; "description"; "required"; "deprecated"; "schema"] l /\
  required "name" is_text l /\ required "in" (one_of ["query"; "header"; "path"; "cookie"]) l /\ optional "description" is_text l /\
  optional "required" is_flag l /\ optional "deprecated" is_flag l /\ required "schema" is_schema l /\
  (lookup (u "in") l = Some (VStr (u "path")) -> lookup (u "required") l = Some (VBool true)).
(** a parameter is identified by its name and place *)
Definition is_parameters (v : value) : Prop :=
  list_of is_parameter v /\ forall l, v = VSeq l -> NoDup (map (fun p => (member "name" p, member "in" p)) l).

(** ** Request Body Object, Response Object *)
Definition is_media_type (v : value) : Prop := exists l, v = VMap l /\ fields ["schema"] l /\ optional "schema" is_schema l.
Definition is_content : value -> Prop := map_of any_key is_media_type.
Definition is_body (v : value) : Prop :=
  exists l, v = VMap l /\ fields ["description"; "content"; "required"] l /\
  optional "description" is_text l /\ required "content" is_content l /\ optional "required" is_flag l.
Definition is_response (v : value) : Prop :=
  exists l, v = VMap l /\ fields ["description"; "content"] l /\ required "description" is_text l /\ optional "content" is_content l.
(** Responses Object: at least one response, by status code *)
Definition is_responses (v : value) : Prop :=
  exists l, v = VMap l /\ l <> [] /\ NoDup (map fst l) /\
  forall k w, In (k, w) l -> exists c, k = VNum c /\ (100 <= c <= 599)%N /\ is_response w.
Definition is_requirement : value -> Prop := map_of any_key (list_of is_text).

(** ** Operation Object, Path Item Object, Callback Object *)
Definition methods : list string := ["get"; "put"; "post"; "delete"; "options"; "head"; "patch"; "trace"].
Inductive is_operation : value -> Prop :=
| operation_object l :
    fields ["tags"; "summary"; "description"; "operationId"; "parameters"; "requestBody"; "responses"; "callbacks"; "deprecated"; "security"] l ->
    optional "tags" (list_of is_text) l ->
    optional "summary" is_text l ->
    optional "description" is_text l ->
    optional "operationId" is_text l ->
    optional "parameters" is_parameters l ->
    optional "requestBody" is_body l ->
    required "responses" is_responses l ->
    optional "callbacks" (map_of any_key (map_of any_key is_path_item)) l ->
    optional "deprecated" is_flag l ->
    optional "security" (list_of is_requirement) l ->
    is_operation (VMap l)
with is_path_item : value -> Prop :=
| path_item_object l :
    fields (["summary"; "description"; "parameters"] ++ methods) l ->
    optional "summary" is_text l ->
    optional "description" is_text l ->
    optional "parameters" is_parameters l ->
    (forall m, In m methods -> optional m is_operation l) ->
    is_path_item (VMap l).

(** ** OpenAPI Object *)
Definition is_info (v : value) : Prop :=
  exists l, v = VMap l /\ fields ["title"; "description"; "version"] l /\
  required "title" is_text l /\ optional "description" is_text l /\ required "version" is_text l.
Definition is_tag (v : value) : Prop :=
  exists l, v = VMap l /\ fields ["name"; "description"] l /\ required "name" is_text l /\ optional "description" is_text l.
(** tag names are unique *)
Definition is_tags (v : value) : Prop := list_of is_tag v /\ forall l, v = VSeq l -> NoDup (map (member "name") l).
Definition is_server (v : value) : Prop :=
  exists l, v = VMap l /\ fields ["url"; "description"] l /\ required "url" is_text l /\ optional "description" is_text l.
(** a path begins with a slash *)
Definition path_key (s : str) : Prop := exists s', s = SLASH :: s'.
Definition conforms (v : value) : Prop :=
  exists l, v = VMap l /\ fields ["openapi"; "info"; "servers"; "paths"; "components"; "tags"] l /\
  required "openapi" (one_of ["3.0.3"]) l /\ required "info" is_info l /\
  optional "servers" (list_of is_server) l /\
  required "paths" (map_of path_key is_path_item) l /\
  optional "components" is_components l /\
  optional "tags" is_tags l.

(** ** The documents that conform *)

(** a schema, at any depth: alternatives and enums are not empty, no property is required twice *)
Definition tidy_toplevel (m : model) : Prop :=
  match m with
  | Model _ (OneOf l) | Model _ (AllOf l) | Model _ (AnyOf l) => l <> []
  | Model _ (Single (MType _ (TdString s))) => mst_variants s <> Some []
  | Model _ (Single (MType _ (TdObject (MObject _ _ r)))) => NoDup r
  | _ => True
  end.
Inductive tidy (m : model) : Prop :=
| tidy_intro : tidy_toplevel m -> (forall m', child (Inline m') m -> tidy m') -> tidy m.
Definition tidy_ref (r : model_ref) : Prop := match r with Inline m => tidy m | _ => True end.
Definition tidy_parameter (p : op_parameter) : Prop :=
  (exists r, pr_schema p = Some r /\ tidy_ref r) /\ (pr_in p = InPath -> pr_required p = true).
Definition tidy_operation (o : operation) : Prop :=
  (forall k p, In (k, p) (op_parameters o) -> tidy_parameter p) /\
  (forall b, op_body o = Some b -> rb_description b <> None /\ tidy_ref (rb_schema b)) /\
  op_responses o <> [] /\
  (forall c r, In (c, r) (op_responses o) -> (100 <= c <= 599)%N /\ forall s, rs_schema r = Some s -> tidy_ref s).
Definition tidy_path_value (v : path_value) : Prop := forall k p, In (k, p) (pv_parameters v) -> tidy_parameter p.
Definition tidy_paths (l : list (path * path_value)) : Prop :=
  distinct_paths l /\ (forall p v, has_path l p v -> tidy_path_value v) /\ (forall o, has_operation l o -> tidy_operation o).
Definition tidy_components (c : components) : Prop :=
  (forall n m, In (n, m) (cx_schemas c) -> component_name n /\ tidy m) /\
  (forall n s, In (n, s) (cx_security c) -> component_name n /\ forall k, s = ApiKey k -> ak_in k <> InPath).
Definition tidy_document (d : opg) : Prop :=
  og_paths d <> [] /\ (forall p v, In (p, v) (og_paths d) -> p <> []) /\ tidy_paths (og_paths d) /\ tidy_components (og_components d).
