(** A reader of OpenAPI 3.0.3 documents, written from the OpenAPI specification (not from the serialiser): every part of a
    document is looked up under its OpenAPI keyword.  Only the parts that opg's document types can hold are read. *)
From Verif Require Export SerSpec.
From Verif Require Import Api.
Local Open Scope string_scope. Local Open Scope list_scope.

Notation "'let?' p := x 'in' f" := (match x with Some p => f | None => None end) (at level 200, p pattern, x at level 100, f at level 200).

(** the member [k] of an object, read by [f] *)
Definition find {B} (f : value -> B) (k : string) :=
  fix go (l : entries) : option B :=
    match l with
    | [] => None
    | (VStr k', v) :: l' => if str_eqb (u k) k' then Some (f v) else go l'
    | _ :: l' => go l'
    end.
(** all elements of a list can be read *)
Definition all {A B} (f : A -> option B) :=
  fix go (l : list A) : option (list B) :=
    match l with
    | [] => Some []
    | a :: l' => match f a with None => None | Some b => match go l' with None => None | Some bs => Some (b :: bs) end end
    end.

Definition text (v : value) : option str := match v with VStr s => Some s | _ => None end.
Definition flag_ (v : value) : option bool := match v with VBool b => Some b | _ => None end.
Definition sequence {B} (f : value -> option B) (v : value) : option (list B) := match v with VSeq l => all f l | _ => None end.
(** an object used as a map *)
Definition dictionary {B} (f : value -> option B) (v : value) : option (list (str * B)) :=
  match v with
  | VMap l => all (fun e => match e with (VStr k, w) => match f w with Some b => Some (k, b) | None => None end | _ => None end) l
  | _ => None
  end.

(** a required member; one that may be missing; one that stands for [d] if it is missing *)
Definition required {B} (f : value -> option B) (k : string) (l : entries) : option B :=
  match find f k l with Some r => r | None => None end.
Definition optional {B} (f : value -> option B) (k : string) (l : entries) : option (option B) :=
  match find f k l with Some (Some b) => Some (Some b) | Some None => None | None => Some None end.
Definition default {B} (d : B) (f : value -> option B) (k : string) (l : entries) : option B :=
  match find f k l with Some r => r | None => Some d end.

(** [s] without the prefix [p] *)
Fixpoint strip (p s : str) : option str :=
  match p, s with
  | [], _ => Some s
  | a :: p', b :: s' => if N.eqb a b then strip p' s' else None
  | _ :: _, [] => None
  end.

(** ** Schema Object, Reference Object *)
Definition read_simple (l : entries) : option model_simple :=
  let? f := optional text "format" l in let? e := optional text "example" l in Some {| ms_format := f; ms_example := e |}.
Fixpoint read_ref (v : value) : option model_ref :=
  match v with
  | VMap [] => Some Any
  | VMap l =>
      match find text "$ref" l with
      | Some o => let? s := o in let? n := strip (u "#/components/schemas/") s in Some (Link n)
      | None =>
          let? d := optional text "description" l in
          match find text "type" l with
          | Some o =>
              let? t := o in
              let? n := default false flag_ "nullable" l in
              let? td :=
                (if str_eqb t (u "string") then
                   let? v := optional (sequence text) "enum" l in let? s := read_simple l in
                   Some (TdString {| mst_variants := v; mst_data := s |})
                 else if str_eqb t (u "number") then let? s := read_simple l in Some (TdNumber s)
                 else if str_eqb t (u "integer") then let? s := read_simple l in Some (TdInteger s)
                 else if str_eqb t (u "boolean") then Some TdBoolean
                 else if str_eqb t (u "array") then let? r := required read_ref "items" l in Some (TdArray r)
                 else if str_eqb t (u "object") then
                   let? p := default [] (dictionary read_ref) "properties" l in
                   let? a := optional read_ref "additionalProperties" l in
                   let? r := default [] (sequence text) "required" l in
                   Some (TdObject (MObject p a r))
                 else None) in
              Some (Inline (Model d (Single (MType n td))))
          | None =>
              match find (sequence read_ref) "oneOf" l, find (sequence read_ref) "allOf" l, find (sequence read_ref) "anyOf" l with
              | Some o, None, None => let? rs := o in Some (Inline (Model d (OneOf rs)))
              | None, Some o, None => let? rs := o in Some (Inline (Model d (AllOf rs)))
              | None, None, Some o => let? rs := o in Some (Inline (Model d (AnyOf rs)))
              | _, _, _ => None
              end
          end
      end
  | _ => None
  end.
Definition read_schema (v : value) : option model := let? r := read_ref v in match r with Inline m => Some m | _ => None end.

(** ** Security Scheme Object *)
Definition read_in (v : value) : option parameter_in :=
  let? s := text v in
  if str_eqb s (u "query") then Some InQuery else if str_eqb s (u "header") then Some InHeader
  else if str_eqb s (u "path") then Some InPath else if str_eqb s (u "cookie") then Some InCookie else None.
Definition read_scheme (v : value) : option security_scheme :=
  match v with
  | VMap l =>
      let? t := required text "type" l in
      let? d := optional text "description" l in
      if str_eqb t (u "http") then
        let? s := required text "scheme" l in
        let? f := optional text "bearerFormat" l in
        if str_eqb s (u "basic") then Some (Http (Basic d))
        else if str_eqb s (u "bearer") then Some (Http (Bearer f d)) else None
      else if str_eqb t (u "apiKey") then
        let? i := required read_in "in" l in let? n := required text "name" l in
        Some (ApiKey {| ak_in := i; ak_name := n; ak_description := d |})
      else None
  | _ => None
  end.
(** ** Components Object *)
Definition read_components (v : value) : option components :=
  match v with
  | VMap l =>
      let? s := default [] (dictionary read_schema) "schemas" l in
      let? k := default [] (dictionary read_scheme) "securitySchemes" l in
      Some {| cx_schemas := s; cx_security := k |}
  | _ => None
  end.

(** ** Parameter Object, Request Body Object, Response Object (with JSON content) *)
Definition read_parameter (v : value) : option (str * op_parameter) :=
  match v with
  | VMap l =>
      let? n := required text "name" l in let? i := required read_in "in" l in let? d := optional text "description" l in
      let? r := default false flag_ "required" l in let? p := default false flag_ "deprecated" l in
      let? s := optional read_ref "schema" l in
      Some (n, {| pr_description := d; pr_in := i; pr_required := r; pr_deprecated := p; pr_schema := s |})
  | _ => None
  end.
Definition read_content (v : value) : option model_ref :=
  match v with
  | VMap l => required (fun w => match w with VMap l' => required read_ref "schema" l' | _ => None end) "application/json" l
  | _ => None
  end.
(** a [null] description is taken as a missing one *)
Definition nullable_text (v : value) : option (option str) :=
  match v with VStr s => Some (Some s) | VNull => Some None | _ => None end.
Definition read_body (v : value) : option request_body :=
  match v with
  | VMap l =>
      let? r := default false flag_ "required" l in
      let? d := default None nullable_text "description" l in
      let? s := required read_content "content" l in
      Some {| rb_description := d; rb_required := r; rb_schema := s |}
  | _ => None
  end.
Definition read_response (v : value) : option response :=
  match v with
  | VMap l =>
      let? d := required text "description" l in let? s := optional read_content "content" l in
      Some {| rs_description := d; rs_schema := s |}
  | _ => None
  end.
(** Responses Object: by status code *)
Definition read_responses (v : value) : option (list (N * response)) :=
  match v with
  | VMap l => all (fun e => match e with (VNum n, w) => match read_response w with Some r => Some (n, r) | None => None end | _ => None end) l
  | _ => None
  end.

(** ** Operation Object, Path Item Object, Paths Object *)
Definition method_keys : list (string * http_method) :=
  [("get", GET); ("put", PUT); ("post", POST); ("delete", DELETE); ("options", OPTIONS); ("head", HEAD); ("patch", PATCH); ("trace", TRACE)].
Section Nested.
  Variable read_callback : value -> option callback.
  Definition read_operation_with (v : value) : option operation :=
    match v with
    | VMap l =>
        let? t := default [] (sequence text) "tags" l in let? s := optional text "summary" l in
        let? i := optional text "operationId" l in let? d := optional text "description" l in
        let? p := default false flag_ "deprecated" l in
        let? k := default [] (sequence (dictionary (sequence text))) "security" l in
        let? b := optional read_body "requestBody" l in
        let? r := required read_responses "responses" l in
        let? a := default [] (sequence read_parameter) "parameters" l in
        let? c := default [] (dictionary read_callback) "callbacks" l in
        Some (Build_operation_of t s i d p k b r a c)
    | _ => None
    end.
  (** the operations of the listed methods *)
  Fixpoint read_methods (ms : list (string * http_method)) (l : entries) : option (list (http_method * operation)) :=
    match ms with
    | [] => Some []
    | (k, m) :: ms' =>
        let? rest := read_methods ms' l in
        match find read_operation_with k l with
        | None => Some rest
        | Some o => let? x := o in Some ((m, x) :: rest)
        end
    end.
  Definition read_path_item_with (v : value) : option path_value :=
    match v with
    | VMap l =>
        let? s := optional text "summary" l in let? d := optional text "description" l in
        let? o := read_methods method_keys l in
        let? a := default [] (sequence read_parameter) "parameters" l in
        Some (Build_path_value_of s d o a)
    | _ => None
    end.
  Definition read_paths_with (v : value) : option (list (path * path_value)) :=
    let? l := dictionary read_path_item_with v in Some (map (fun e => (parse_path (fst e), snd e)) l).
End Nested.
Fixpoint read_callback (v : value) : option callback :=
  let? l := read_paths_with read_callback v in Some (Callback l).
Definition read_operation : value -> option operation := read_operation_with read_callback.
Definition read_path_item : value -> option path_value := read_path_item_with read_callback.
Definition read_paths : value -> option (list (path * path_value)) := read_paths_with read_callback.

(** ** OpenAPI Object *)
Definition read_info (v : value) : option info :=
  match v with
  | VMap l =>
      let? t := required text "title" l in let? d := optional text "description" l in let? n := required text "version" l in
      Some {| in_title := t; in_description := d; in_version := n |}
  | _ => None
  end.
Definition read_tag (v : value) : option (str * tag) :=
  match v with
  | VMap l => let? n := required text "name" l in let? d := optional text "description" l in Some (n, {| tg_description := d |})
  | _ => None
  end.
Definition read_server (v : value) : option server :=
  match v with
  | VMap l => let? n := required text "url" l in let? d := optional text "description" l in Some {| sv_url := n; sv_description := d |}
  | _ => None
  end.
Definition read_document (v : value) : option opg :=
  match v with
  | VMap l =>
      let? n := required text "openapi" l in
      if str_eqb n (u "3.0.3") then
        let? i := required read_info "info" l in
        let? t := default [] (sequence read_tag) "tags" l in
        let? s := default [] (sequence read_server) "servers" l in
        let? p := default [] read_paths "paths" l in
        let? c := required read_components "components" l in
        Some {| og_info := i; og_tags := t; og_servers := s; og_paths := p; og_components := c |}
      else None
  | _ => None
  end.

(** a segment of a url template without slashes and braces in it *)
Definition plain_segment (s : segment) : Prop := match s with SegLit t | SegNamed t _ | SegType t _ => plain t end.
