(** Model of the [Serialize] impls of opg/src/models.rs as they are written: the attributes on the declarations, what
    serde's derive makes of them, and the hand-written impls and [serialize_with] functions.

    serde and serde_derive are not part of the repository; what is used of them is modelled from their documentation and
    source: which call of the serializer a derived impl makes, and what the two serializers that serde itself puts in
    between (for [flatten] and for internally tagged enums) make of such calls.  [None] is an error of serialisation. *)
From Verif Require Export Case Ser.

(** ** What a [Serialize] impl tells the serializer: one call of a [Serializer] method, with what is told inside *)
Inductive told :=
| ToStr (s : str)                    (* serialize_str *)
| ToBool (b : bool)
| ToU16 (n : N)
| ToNone                             (* serialize_none *)
| ToSome (t : told)                  (* serialize_some *)
| ToSeq (l : list told)              (* serialize_seq *)
| ToMap (l : list (told * told))     (* serialize_map *)
| ToStruct (l : list (str * told))   (* serialize_struct *)
| ToNewtype (t : told)               (* serialize_newtype_struct *)
| ToUnitVariant (name : str).        (* serialize_unit_variant *)

(** What a serializer for a self-describing format makes of it (serde_yaml, serde_json): structs are mappings, unit
    variants their names, newtype structs and [Some] transparent, [None] is null. *)
Fixpoint to_value (t : told) : value :=
  match t with
  | ToStr s | ToUnitVariant s => VStr s
  | ToBool b => VBool b
  | ToU16 n => VNum n
  | ToNone => VNull
  | ToSome t | ToNewtype t => to_value t
  | ToSeq l => VSeq (map to_value l)
  | ToMap l => VMap (map (fun e => (to_value (fst e), to_value (snd e))) l)
  | ToStruct l => VMap (map (fun e => (VStr (fst e), to_value (snd e))) l)
  end.

(** What [FlatMapSerializer] adds to the mapping it stands for; everything else is the error "can only flatten structs
    and maps". *)
Fixpoint flat (t : told) : option (list (told * told)) :=
  match t with
  | ToMap l => Some l
  | ToStruct l => Some (map (fun e => (ToStr (fst e), snd e)) l)
  | ToSome t => flat t
  | ToNone => Some []
  | _ => None
  end.
(** What [TaggedSerializer] tells instead, with the tag first; everything else is the error "cannot serialize tagged
    newtype variant containing ..". *)
Fixpoint tagged (tag name : str) (t : told) : option told :=
  match t with
  | ToMap l => Some (ToMap ((ToStr tag, ToStr name) :: l))
  | ToStruct l => Some (ToStruct ((tag, ToStr name) :: l))
  | ToNewtype t => tagged tag name t
  | _ => None
  end.

(** ** Derived impls *)
(** The attributes used: [flatten], [rename = "s"], [skip_serializing_if = "f"] with what [f] says of the field. *)
Inductive sattr := Flatten | Rename (s : string) | SkipIf (b : bool).
(** a field: its identifier, attributes, and what is told of its value (by its type's impl or by [serialize_with]) *)
Record sfield := Fld { sf_ident : string; sf_attrs : list sattr; sf_told : option told }.

Definition is_flatten (a : sattr) : bool := match a with Flatten => true | _ => false end.
Definition skipped (f : sfield) : bool := existsb (fun a => match a with SkipIf b => b | _ => false end) (sf_attrs f).
Definition flattened (f : sfield) : bool := existsb is_flatten (sf_attrs f).
Definition renamed (l : list sattr) : option string :=
  match find (fun a => match a with Rename _ => true | _ => false end) l with Some (Rename s) => Some s | _ => None end.
Definition field_name (rule : rename_rule) (f : sfield) : option str :=
  match renamed (sf_attrs f) with Some s => Some (u s) | None => apply_to_field rule (u (sf_ident f)) end.
(** opg's own copy of serde's renaming of variants (Case.v); the first argument only matters for other rules *)
Definition variant_name (rule : rename_rule) (ident : string) : option str := apply_to_variant (fun _ => false) rule (u ident).

Definition andthen {A B} (o : option A) (f : A -> option B) : option B := match o with Some a => f a | None => None end.
Fixpoint sequence {A} (l : list (option A)) : option (list A) :=
  match l with [] => Some [] | o :: l' => andthen o (fun a => andthen (sequence l') (fun r => Some (a :: r))) end.

(** the entries that a field gives: those of its value if flattened, else one *)
Definition field_entries (rule : rename_rule) (f : sfield) : option (list (told * told)) :=
  if skipped f then Some []
  else andthen (sf_told f) (fun t =>
    if flattened f then flat t else andthen (field_name rule f) (fun n => Some [(ToStr n, t)])).
Definition field_members (rule : rename_rule) (f : sfield) : option (list (str * told)) :=
  if skipped f then Some [] else andthen (sf_told f) (fun t => andthen (field_name rule f) (fun n => Some [(n, t)])).
(** A struct with named fields: a mapping if some field is flattened, a struct otherwise. *)
Definition derive_struct (rule : rename_rule) (fs : list sfield) : option told :=
  if existsb flattened fs then option_map (fun l => ToMap (concat l)) (sequence (map (field_entries rule) fs))
  else option_map (fun l => ToStruct (concat l)) (sequence (map (field_members rule) fs)).
(** A tuple struct of one field. *)
Definition derive_newtype (t : option told) : option told := option_map ToNewtype t.

(** Enums: the variant that is serialised, with its attributes.  [rename_all] on the enum renames variants, not their fields. *)
Inductive svariant := UnitVariant | NewtypeVariant (t : option told) | StructVariant (fs : list sfield).
Definition derive_external_unit (rule : rename_rule) (ident : string) : option told := option_map ToUnitVariant (variant_name rule ident).
Definition derive_internal (tag : string) (rule : rename_rule) (ident : string) (v : svariant) : option told :=
  andthen (variant_name rule ident) (fun n =>
    match v with
    | UnitVariant => Some (ToStruct [(u tag, ToStr n)])
    | NewtypeVariant t => andthen t (tagged (u tag) n)
    | StructVariant fs =>
        option_map (fun l => ToStruct ((u tag, ToStr n) :: concat l)) (sequence (map (field_members RNone) fs))
    end).
Definition derive_untagged (t : option told) : option told := t.

(** ** Impls of serde for std's types *)
Definition tell_str (s : str) : option told := Some (ToStr s).
Definition tell_bool (b : bool) : option told := Some (ToBool b).
Definition tell_option {A} (f : A -> option told) (o : option A) : option told :=
  match o with Some a => option_map ToSome (f a) | None => Some ToNone end.
Definition tell_vec {A} (f : A -> option told) (l : list A) : option told := option_map ToSeq (sequence (map f l)).
Definition tell_entry {K V} (fk : K -> option told) (fv : V -> option told) (e : K * V) : option (told * told) :=
  andthen (fk (fst e)) (fun k => andthen (fv (snd e)) (fun v => Some (k, v))).
Definition tell_map {K V} (fk : K -> option told) (fv : V -> option told) (m : list (K * V)) : option told :=
  option_map ToMap (sequence (map (tell_entry fk fv) m)).

(** the predicates *)
Definition is_none {A} (o : option A) : bool := match o with Some _ => false | None => true end. (* Option::is_none *)
Definition is_empty {A} (l : list A) : bool := match l with [] => true | _ => false end.         (* Vec::is_empty, BTreeMap::is_empty *)
Definition is_false (b : bool) : bool := negb b.                                                  (* models.rs:402-404 *)

(** ** The impls *)
(** models.rs:883-892 *)
Definition tell_simple (s : model_simple) : option told :=
  derive_struct RCamelCase
    [Fld "format" [SkipIf (is_none (ms_format s))] (tell_option tell_str (ms_format s));
     Fld "example" [SkipIf (is_none (ms_example s))] (tell_option tell_str (ms_example s))].
(** models.rs:851-861 *)
Definition tell_string (s : model_string) : option told :=
  derive_struct RCamelCase
    [Fld "variants" [Rename "enum"; SkipIf (is_none (mst_variants s))] (tell_option (tell_vec tell_str) (mst_variants s));
     Fld "data" [Flatten] (tell_simple (mst_data s))].

(** models.rs:1021-1033 [serialize_model_reference_link], 1036-1041 [serialize_model_reference_any] *)
Definition serialize_model_reference_link (l : str) : option told := Some (ToMap [(ToStr (u "$ref"), ToStr (SCHEMA_REFERENCE_PREFIX ++ l))]).
Definition serialize_model_reference_any : option told := Some (ToStruct []).

(** models.rs:637-647 [Model], 687-694 [ModelData], 718-722 [ModelOneOf], 738-742 [ModelAllOf], 758-762 [ModelAnyOf],
    778-788 [ModelType], 820-829 [ModelTypeDescription], 909-913 [ModelArray] ([Box<T>] is told as [T]), 929-943
    [ModelObject], 1006-1019 [ModelReference] *)
Fixpoint tell_model (m : model) : option told :=
  let 'Model d data := m in
  derive_struct RCamelCase [Fld "description" [SkipIf (is_none d)] (tell_option tell_str d); Fld "data" [Flatten] (tell_data data)]
with tell_data (d : model_data) : option told :=
  match d with
  | Single t => derive_untagged (tell_type t)
  | OneOf l => derive_untagged (derive_struct RCamelCase [Fld "one_of" [] (tell_vec tell_ref l)])
  | AllOf l => derive_untagged (derive_struct RCamelCase [Fld "all_of" [] (tell_vec tell_ref l)])
  | AnyOf l => derive_untagged (derive_struct RCamelCase [Fld "any_of" [] (tell_vec tell_ref l)])
  end
with tell_type (t : model_type) : option told :=
  let 'MType n td := t in
  derive_struct RCamelCase [Fld "nullable" [SkipIf (is_false n)] (tell_bool n); Fld "type_description" [Flatten] (tell_desc td)]
with tell_desc (td : type_desc) : option told :=
  match td with
  | TdString s => derive_internal "type" RCamelCase "String" (NewtypeVariant (tell_string s))
  | TdNumber s => derive_internal "type" RCamelCase "Number" (NewtypeVariant (tell_simple s))
  | TdInteger s => derive_internal "type" RCamelCase "Integer" (NewtypeVariant (tell_simple s))
  | TdBoolean => derive_internal "type" RCamelCase "Boolean" UnitVariant
  | TdArray items =>
      derive_internal "type" RCamelCase "Array" (NewtypeVariant (derive_struct RCamelCase [Fld "items" [] (tell_ref items)]))
  | TdObject o => derive_internal "type" RCamelCase "Object" (NewtypeVariant (tell_object o))
  end
with tell_object (o : model_object) : option told :=
  let 'MObject p a r := o in
  derive_struct RCamelCase
    [Fld "properties" [SkipIf (is_empty p)] (tell_map tell_str tell_ref p);
     Fld "additional_properties" [SkipIf (is_none a)] (tell_option tell_ref a);
     Fld "required" [SkipIf (is_empty r)] (tell_vec tell_str r)]
with tell_ref (r : model_ref) : option told :=
  match r with
  | Link l => derive_untagged (serialize_model_reference_link l)
  | Inline m => derive_untagged (tell_model m)
  | Any => derive_untagged serialize_model_reference_any
  end.

(** models.rs:500-507 *)
Definition tell_in (i : parameter_in) : option told :=
  derive_external_unit RLowerCase
    (match i with InQuery => "Query" | InHeader => "Header" | InPath => "Path" | InCookie => "Cookie" end).

(** models.rs:1079-1094 *)
Definition tell_http (s : http_security_scheme) : option told :=
  match s with
  | Basic d =>
      derive_internal "scheme" RCamelCase "Basic"
        (StructVariant [Fld "description" [SkipIf (is_none d)] (tell_option tell_str d)])
  | Bearer f d =>
      derive_internal "scheme" RCamelCase "Bearer"
        (StructVariant [Fld "format" [Rename "bearerFormat"; SkipIf (is_none f)] (tell_option tell_str f);
                        Fld "description" [SkipIf (is_none d)] (tell_option tell_str d)])
  end.
(** models.rs:1108-1121 *)
Definition tell_api_key (k : api_key_scheme) : option told :=
  derive_struct RCamelCase
    [Fld "parameter_in" [Rename "in"] (tell_in (ak_in k)); Fld "name" [] (tell_str (ak_name k));
     Fld "description" [SkipIf (is_none (ak_description k))] (tell_option tell_str (ak_description k))].
(** models.rs:1069-1075 *)
Definition tell_scheme (s : security_scheme) : option told :=
  match s with
  | Http h => derive_internal "type" RCamelCase "Http" (NewtypeVariant (tell_http h))
  | ApiKey k => derive_internal "type" RCamelCase "ApiKey" (NewtypeVariant (tell_api_key k))
  end.

(** models.rs:512-522 *)
Definition tell_components (cx : components) : option told :=
  derive_struct RCamelCase
    [Fld "schemas" [SkipIf (is_empty (cx_schemas cx))] (tell_map tell_str tell_model (cx_schemas cx));
     Fld "security_schemes" [SkipIf (is_empty (cx_security cx))] (tell_map tell_str tell_scheme (cx_security cx))].

(** models.rs:144-158 [serialize_path_elements] *)
Definition serialize_path_elements (elements : list path_element) : option told :=
  Some (ToStr (fold_left (fun result element =>
    result ++ u "/" ++ match element with PePath path => path | PeParameter param => u "{" ++ param ++ u "}" end) elements [])).
(** models.rs:140-141 *)
Definition tell_path (p : path) : option told := derive_newtype (serialize_path_elements p).
(** models.rs:54-70 [serialize_ordered_entries] *)
Definition serialize_ordered_entries {K V} (fk : K -> option told) (fv : V -> option told) (entries : list (K * V)) : option told :=
  option_map ToMap (sequence (map (tell_entry fk fv) entries)).

(** models.rs:410-413 [ResponseMediaType], 429-433 [ResponseContent] *)
Definition tell_content (schema : model_ref) : option told :=
  derive_struct RNone [Fld "media_type" [Rename "application/json"] (derive_struct RNone [Fld "schema" [] (tell_ref schema)])].
(** models.rs:340-364 *)
Definition tell_body (b : request_body) : option told :=
  derive_struct RNone
    [Fld "required" [SkipIf (is_false (rb_required b))] (tell_bool (rb_required b));
     Fld "description" [] (tell_option tell_str (rb_description b));
     Fld "content" [] (tell_content (rb_schema b))].
(** models.rs:378-398 *)
Definition tell_response (r : response) : option told :=
  derive_struct RNone
    [Fld "description" [] (tell_str (rs_description r));
     Fld "content" [SkipIf (is_none (rs_schema r))] (tell_option tell_content (rs_schema r))].
(** models.rs:443-470, within 436-473 [serialize_parameters] *)
Definition tell_parameter (e : str * op_parameter) : option told :=
  let (name, p) := e in
  derive_struct RCamelCase
    [Fld "name" [] (tell_str name);
     Fld "description" [SkipIf (is_none (pr_description p))] (tell_option tell_str (pr_description p));
     Fld "parameter_in" [Rename "in"] (tell_in (pr_in p));
     Fld "required" [SkipIf (is_false (pr_required p))] (tell_bool (pr_required p));
     Fld "deprecated" [SkipIf (is_false (pr_deprecated p))] (tell_bool (pr_deprecated p));
     Fld "schema" [SkipIf (is_none (pr_schema p))] (tell_option tell_ref (pr_schema p))].
Definition serialize_parameters (m : bmap str op_parameter) : option told := option_map ToSeq (sequence (map tell_parameter m)).

(** models.rs:214-236 *)
Definition as_str (m : http_method) : str :=
  match m with
  | GET => u "get" | PUT => u "put" | POST => u "post" | DELETE => u "delete" | OPTIONS => u "options" | HEAD => u "head"
  | PATCH => u "patch" | TRACE => u "trace"
  end.
Definition tell_method (m : http_method) : option told := tell_str (as_str m).

Section Nested.
  Variable tell_callback : callback -> option told.
  (** models.rs:241-287 *)
  Definition tell_operation_with (o : operation) : option told :=
    derive_struct RCamelCase
      [Fld "tags" [SkipIf (is_empty (op_tags o))] (tell_vec tell_str (op_tags o));
       Fld "summary" [SkipIf (is_none (op_summary o))] (tell_option tell_str (op_summary o));
       Fld "operation_id" [SkipIf (is_none (op_id o))] (tell_option tell_str (op_id o));
       Fld "description" [SkipIf (is_none (op_description o))] (tell_option tell_str (op_description o));
       Fld "deprecated" [SkipIf (is_false (op_deprecated o))] (tell_bool (op_deprecated o));
       Fld "security" [SkipIf (is_empty (op_security o))] (tell_vec (tell_map tell_str (tell_vec tell_str)) (op_security o));
       Fld "request_body" [SkipIf (is_none (op_body o))] (tell_option tell_body (op_body o));
       Fld "responses" [] (tell_map (fun n => Some (ToU16 n)) tell_response (op_responses o));
       Fld "parameters" [SkipIf (is_empty (op_parameters o))] (serialize_parameters (op_parameters o));
       Fld "callbacks" [SkipIf (is_empty (op_callbacks o))] (tell_map tell_str tell_callback (op_callbacks o))].
  (** models.rs:177-197 *)
  Definition tell_path_value_with (v : path_value) : option told :=
    derive_struct RNone
      [Fld "summary" [SkipIf (is_none (pv_summary v))] (tell_option tell_str (pv_summary v));
       Fld "description" [SkipIf (is_none (pv_description v))] (tell_option tell_str (pv_description v));
       Fld "operations" [Flatten; SkipIf (is_empty (pv_operations v))] (tell_map tell_method tell_operation_with (pv_operations v));
       Fld "parameters" [SkipIf (is_empty (pv_parameters v))] (serialize_parameters (pv_parameters v))].
End Nested.
(** models.rs:417-426 *)
Fixpoint tell_callback (c : callback) : option told :=
  let 'Callback l := c in
  derive_struct RNone
    [Fld "paths" [Flatten; SkipIf (is_empty l)] (serialize_ordered_entries tell_path (tell_path_value_with tell_callback) l)].
Definition tell_operation : operation -> option told := tell_operation_with tell_callback.
Definition tell_path_value : path_value -> option told := tell_path_value_with tell_callback.

(** models.rs:99-110, 127-135 *)
Definition tell_info (i : info) : option told :=
  derive_struct RNone
    [Fld "title" [] (tell_str (in_title i));
     Fld "description" [SkipIf (is_none (in_description i))] (tell_option tell_str (in_description i));
     Fld "version" [] (tell_str (in_version i))].
Definition tell_server (s : server) : option told :=
  derive_struct RNone
    [Fld "url" [] (tell_str (sv_url s));
     Fld "description" [SkipIf (is_none (sv_description s))] (tell_option tell_str (sv_description s))].
(** models.rs:72-94 [serialize_tags] *)
Definition tell_tag (e : str * tag) : option told :=
  derive_struct RNone
    [Fld "name" [] (tell_str (fst e));
     Fld "description" [SkipIf (is_none (tg_description (snd e)))] (tell_option tell_str (tg_description (snd e)))].
Definition serialize_tags (m : bmap str tag) : option told := option_map ToSeq (sequence (map tell_tag m)).

(** models.rs:12-40; 44-51 with lib.rs:10 for the version *)
Definition tell_opg (d : opg) : option told :=
  derive_struct RNone
    [Fld "openapi" [] (derive_newtype (tell_str (u "3.0.3")));
     Fld "info" [] (tell_info (og_info d));
     Fld "tags" [SkipIf (is_empty (og_tags d))] (serialize_tags (og_tags d));
     Fld "servers" [SkipIf (is_empty (og_servers d))] (tell_vec tell_server (og_servers d));
     Fld "paths" [SkipIf (is_empty (og_paths d))] (serialize_ordered_entries tell_path tell_path_value (og_paths d));
     Fld "components" [] (tell_components (og_components d))].
