(** Model of the serialisation of opg/src/models.rs: the value handed to a serde serializer. *)
From Verif Require Export Doc.

(** serde's data model, as far as used.  Mappings are lists of entries in order of emission; structs are mappings
    keyed by field names. *)
Inductive value :=
| VNull
| VBool (b : bool)
| VNum (n : N)
| VStr (s : str)
| VSeq (l : list value)
| VMap (l : list (value * value)).

Definition entries := list (value * value).
(** a member that is always there; one with [skip_serializing_if = "Option::is_none"]; a flag with
    [skip_serializing_if = "is_false"] (models.rs:402-404); one with [skip_serializing_if = "..::is_empty"] *)
Definition mem (k : string) (v : value) : entries := [(VStr (u k), v)].
Definition mem_opt {A} (k : string) (f : A -> value) (o : option A) : entries := match o with Some a => mem k (f a) | None => [] end.
Definition mem_true (k : string) (b : bool) : entries := if b then mem k (VBool true) else [].
Definition mem_seq {A} (k : string) (f : list A -> value) (l : list A) : entries := match l with [] => [] | _ => mem k (f l) end.

Definition ser_strs (l : list str) : value := VSeq (map VStr l).
(** a [BTreeMap] with string keys *)
Definition ser_map {V} (f : V -> value) (m : bmap str V) : value := VMap (map (fun e => (VStr (fst e), f (snd e))) m).

(** models.rs:884-892 *)
Definition ser_simple (s : model_simple) : entries := mem_opt "format" VStr (ms_format s) ++ mem_opt "example" VStr (ms_example s).
(** models.rs:853-861 *)
Definition ser_string (s : model_string) : entries := mem_opt "enum" ser_strs (mst_variants s) ++ ser_simple (mst_data s).

Definition SCHEMA_REFERENCE_PREFIX : str := u "#/components/schemas/". (* lib.rs:11 *)

(** models.rs:639-647 [Model] (data flattened), 688-694 (untagged), 720-762, 780-788, 821-829 (tag first), 911-913,
    931-943, 1007-1041 *)
Fixpoint ser_model (m : model) : value :=
  let 'Model d data := m in VMap (mem_opt "description" VStr d ++ ser_data data)
with ser_data (d : model_data) : entries :=
  match d with
  | Single t => ser_type t
  | OneOf l => mem "oneOf" (VSeq (map ser_ref l))
  | AllOf l => mem "allOf" (VSeq (map ser_ref l))
  | AnyOf l => mem "anyOf" (VSeq (map ser_ref l))
  end
with ser_type (t : model_type) : entries :=
  let 'MType n td := t in mem_true "nullable" n ++ ser_desc td
with ser_desc (td : type_desc) : entries :=
  match td with
  | TdString s => mem "type" (VStr (u "string")) ++ ser_string s
  | TdNumber s => mem "type" (VStr (u "number")) ++ ser_simple s
  | TdInteger s => mem "type" (VStr (u "integer")) ++ ser_simple s
  | TdBoolean => mem "type" (VStr (u "boolean"))
  | TdArray items => mem "type" (VStr (u "array")) ++ mem "items" (ser_ref items)
  | TdObject o => mem "type" (VStr (u "object")) ++ ser_object o
  end
with ser_object (o : model_object) : entries :=
  let 'MObject p a r := o in
  mem_seq "properties" (fun l => VMap (map (fun e => (VStr (fst e), ser_ref (snd e))) l)) p ++
  mem_opt "additionalProperties" (fun x => ser_ref x) a ++
  mem_seq "required" ser_strs r
with ser_ref (r : model_ref) : value :=
  match r with
  | Link l => VMap (mem "$ref" (VStr (SCHEMA_REFERENCE_PREFIX ++ l)))
  | Inline m => ser_model m
  | Any => VMap []
  end.

(** models.rs:500-507 *)
Definition ser_in (i : parameter_in) : value :=
  VStr (match i with InQuery => u "query" | InHeader => u "header" | InPath => u "path" | InCookie => u "cookie" end).

(** models.rs:1069-1121 *)
Definition ser_scheme (s : security_scheme) : value :=
  match s with
  | Http (Basic d) => VMap (mem "type" (VStr (u "http")) ++ mem "scheme" (VStr (u "basic")) ++ mem_opt "description" VStr d)
  | Http (Bearer f d) =>
      VMap (mem "type" (VStr (u "http")) ++ mem "scheme" (VStr (u "bearer")) ++ mem_opt "bearerFormat" VStr f ++
            mem_opt "description" VStr d)
  | ApiKey k =>
      VMap (mem "type" (VStr (u "apiKey")) ++ mem "in" (ser_in (ak_in k)) ++ mem "name" (VStr (ak_name k)) ++
            mem_opt "description" VStr (ak_description k))
  end.

(** models.rs:512-522 *)
Definition ser_components (cx : components) : value :=
  VMap (mem_seq "schemas" (ser_map ser_model) (cx_schemas cx) ++ mem_seq "securitySchemes" (ser_map ser_scheme) (cx_security cx)).

(** models.rs:144-158 *)
Definition render_element (e : path_element) : str :=
  u "/" ++ match e with PePath s => s | PeParameter s => u "{" ++ s ++ u "}" end.
Definition render_path (p : path) : str := flat_map render_element p.

(** models.rs:410-412, 429-433 *)
Definition ser_content (r : model_ref) : value := VMap (mem "application/json" (VMap (mem "schema" (ser_ref r)))).
(** models.rs:340-364 *)
Definition ser_body (b : request_body) : value :=
  VMap (mem_true "required" (rb_required b) ++
        mem "description" (match rb_description b with Some s => VStr s | None => VNull end) ++
        mem "content" (ser_content (rb_schema b))).
(** models.rs:378-398 *)
Definition ser_response (r : response) : value :=
  VMap (mem "description" (VStr (rs_description r)) ++ mem_opt "content" ser_content (rs_schema r)).
(** models.rs:443-470 *)
Definition ser_parameter (e : str * op_parameter) : value :=
  let (name, p) := e in
  VMap (mem "name" (VStr name) ++ mem_opt "description" VStr (pr_description p) ++ mem "in" (ser_in (pr_in p)) ++
        mem_true "required" (pr_required p) ++ mem_true "deprecated" (pr_deprecated p) ++ mem_opt "schema" ser_ref (pr_schema p)).
(** models.rs:436-473 *)
Definition ser_parameters (m : bmap str op_parameter) : value := VSeq (map ser_parameter m).

(** models.rs:214-236 *)
Definition method_name (m : http_method) : str :=
  match m with
  | GET => u "get" | PUT => u "put" | POST => u "post" | DELETE => u "delete" | OPTIONS => u "options" | HEAD => u "head"
  | PATCH => u "patch" | TRACE => u "trace"
  end.

Section Nested.
  Variable ser_callback : callback -> value.
  (** models.rs:241-287 *)
  Definition ser_operation_with (o : operation) : value :=
    VMap (mem_seq "tags" ser_strs (op_tags o) ++ mem_opt "summary" VStr (op_summary o) ++ mem_opt "operationId" VStr (op_id o) ++
          mem_opt "description" VStr (op_description o) ++ mem_true "deprecated" (op_deprecated o) ++
          mem_seq "security" (fun l => VSeq (map (ser_map ser_strs) l)) (op_security o) ++
          mem_opt "requestBody" ser_body (op_body o) ++
          mem "responses" (VMap (map (fun e => (VNum (fst e), ser_response (snd e))) (op_responses o))) ++
          mem_seq "parameters" ser_parameters (op_parameters o) ++
          mem_seq "callbacks" (fun l => VMap (map (fun e => (VStr (fst e), ser_callback (snd e))) l)) (op_callbacks o)).
  (** models.rs:177-197; the operations are flattened *)
  Definition ser_path_value_with (v : path_value) : value :=
    VMap (mem_opt "summary" VStr (pv_summary v) ++ mem_opt "description" VStr (pv_description v) ++
          map (fun e => (VStr (method_name (fst e)), ser_operation_with (snd e))) (pv_operations v) ++
          mem_seq "parameters" ser_parameters (pv_parameters v)).
  (** models.rs:54-70 *)
  Definition ser_paths_with (l : list (path * path_value)) : value :=
    VMap (map (fun e => (VStr (render_path (fst e)), ser_path_value_with (snd e))) l).
End Nested.
(** models.rs:417-426, flattened *)
Fixpoint ser_callback (c : callback) : value := let 'Callback l := c in ser_paths_with ser_callback l.
Definition ser_operation : operation -> value := ser_operation_with ser_callback.
Definition ser_path_value : path_value -> value := ser_path_value_with ser_callback.
Definition ser_paths : list (path * path_value) -> value := ser_paths_with ser_callback.

(** models.rs:99-110, 127-135 *)
Definition ser_info (i : info) : value :=
  VMap (mem "title" (VStr (in_title i)) ++ mem_opt "description" VStr (in_description i) ++ mem "version" (VStr (in_version i))).
Definition ser_server (s : server) : value := VMap (mem "url" (VStr (sv_url s)) ++ mem_opt "description" VStr (sv_description s)).
(** models.rs:72-94 *)
Definition ser_tag (e : str * tag) : value :=
  VMap (mem "name" (VStr (fst e)) ++ mem_opt "description" VStr (tg_description (snd e))).

(** models.rs:12-40; lib.rs:10 *)
Definition ser_opg (d : opg) : value :=
  VMap (mem "openapi" (VStr (u "3.0.3")) ++ mem "info" (ser_info (og_info d)) ++
        mem_seq "tags" (fun l => VSeq (map ser_tag l)) (og_tags d) ++
        mem_seq "servers" (fun l => VSeq (map ser_server l)) (og_servers d) ++
        mem_seq "paths" ser_paths (og_paths d) ++ mem "components" (ser_components (og_components d))).
