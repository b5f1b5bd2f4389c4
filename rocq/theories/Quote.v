(** The Rust code that the derive quotes (opg_derive/src/opg.rs, function by function), and the code of the impls of
    opg/src/lib.rs as [impl_opg_model!] expands them, in the fragment of Rust.v.

    A [quote!] is the expression it stands for; [_opg::], [$crate::] and [std::..::] are dropped from paths.  [None] is a
    panic of the derive. *)
From Verif Require Export Derive Rust.

(** ** Small pieces *)
Definition owned (s : str) : expr := EMeth (EStr s) M_to_owned [].
(** opg.rs:756-763 [option_string] *)
Definition option_string (o : option str) : expr := match o with Some s => ECtor C_Some [owned s] | None => ECtor C_None [] end.
(** opg.rs:765-772 [option_bool] *)
Definition option_bool (o : option bool) : expr := match o with Some b => ECtor C_Some [EBool b] | None => ECtor C_None [] end.
(** opg.rs:747-754 [option_to_string_expr]: [Some((#data).to_string())]; attr.rs:559-564, 566-575 for the expressions *)
Definition option_to_string_expr (o : option example) : expr :=
  match o with
  | Some (ExLit s) => ECtor C_Some [EMeth (EParen (EStr s)) M_to_string []]
  | Some (ExCode e) => ECtor C_Some [EMeth (EParen (EUser e)) M_to_string []]
  | None => ECtor C_None []
  end.

(** opg.rs:809-815 [ContextParams] of the derive *)
Record cparams := { cp_description : option str; cp_nullable : option bool; cp_format : option str; cp_example : option example }.
(** opg.rs:817-825, 827-834, 836-844, with 846-869 *)
Definition cp_container (a : container_attrs) : cparams :=
  {| cp_description := ca_description a; cp_nullable := if ca_nullable a then Some true else None; cp_format := ca_format a; cp_example := ca_example a |}.
Definition cp_variant (a : variant_attrs) : cparams :=
  {| cp_description := va_description a; cp_nullable := None; cp_format := va_format a; cp_example := va_example a |}.
Definition cp_field (a : field_attrs) : cparams :=
  {| cp_description := fa_description a; cp_nullable := if fa_nullable a then Some true else None; cp_format := fa_format a; cp_example := fa_example a |}.
(** opg.rs:871-880 [ContextParams::or] *)
Definition or_else {A} (a b : option A) : option A := match a with Some _ => a | None => b end.
Definition cp_or (p q : cparams) : cparams :=
  {| cp_description := or_else (cp_description p) (cp_description q); cp_nullable := cp_nullable p;
     cp_format := or_else (cp_format p) (cp_format q); cp_example := or_else (cp_example p) (cp_example q) |}.
(** opg.rs:896-911 [ContextParams::tokenize] *)
Definition tokenize (p : cparams) : expr :=
  EStruct S_ContextParams
    [(Fd_description, option_string (cp_description p));
     (Fd_nullable, option_bool (cp_nullable p));
     (Fd_variants, ECtor C_None []);
     (Fd_format, option_string (cp_format p));
     (Fd_example, option_to_string_expr (cp_example p))] false.

(** [_opg::Model { description: .., data: .. }] *)
Definition q_model (description data : expr) : expr := EStruct S_Model [(Fd_description, description); (Fd_data, data)] false.
(** [_opg::ModelData::Single(_opg::ModelType { nullable: .., type_description: .. })] *)
Definition q_single (nullable type_description : expr) : expr :=
  ECtor C_Single [EStruct S_ModelType [(Fd_nullable, nullable); (Fd_type_description, type_description)] false].
(** [_opg::ModelData::OneOf(_opg::ModelOneOf { one_of: vec![..] })] *)
Definition q_one_of (l : list expr) : expr := ECtor C_OneOf [EStruct S_ModelOneOf [(Fd_one_of, EVec l)] false].
(** [_opg::ModelSimple { format: .., example: .. }] *)
Definition q_simple (format example : expr) : expr := EStruct S_ModelSimple [(Fd_format, format); (Fd_example, example)] false.
(** [_opg::ModelTypeDescription::String(_opg::ModelString { variants: .., data: .. })] *)
Definition q_string (variants data : expr) : expr :=
  ECtor C_String [EStruct S_ModelString [(Fd_variants, variants); (Fd_data, data)] false].
(** [vec![#(#names.to_owned()),*]] *)
Definition q_names (names : list str) : expr := EVec (map owned names).

(** opg.rs:585-589 *)
Definition inline_reference (m : expr) : expr := ECtor C_Inline [m].

(** opg.rs:701-745 [newtype_model], with 882-894 [split] *)
Definition newtype_model (nullable : bool) (p : cparams) (t : explicit_type) : option expr :=
  let simple := q_simple (option_string (cp_format p)) (option_to_string_expr (cp_example p)) in
  let data :=
    match t with
    | ETString => Some (q_string (ECtor C_None []) simple)
    | ETInteger => Some (ECtor C_Integer [simple])
    | ETNumber => Some (ECtor C_Number [simple])
    | ETBoolean => Some (ECtor C_Boolean [])
    | ETAny => None
    end in
  option_map (fun d => q_model (option_string (cp_description p)) (q_single (EBool nullable) d)) data.

(** opg.rs:671-699 [field_model_reference] *)
Definition field_model_reference (p : cparams) (f : field ty) (inline : bool) : option expr :=
  match fa_explicit (f_attrs f) with
  | Some ETAny => Some (ECtor C_Any [])
  | Some t => option_map (fun m => ECtor C_Inline [m]) (newtype_model (fa_nullable (f_attrs f)) p t)
  | None => Some (EMention (EVar V_cx) (f_ty f) [EBool inline; ERef (tokenize p)])
  end.

(** opg.rs:591-622 [tuple_type_description] *)
Definition tuple_type_description (fs : list (field ty)) (inl : field ty -> bool) : option expr :=
  option_map
    (fun data =>
       let one_of := q_model (ECtor C_None []) (q_one_of data) in
       ECtor C_Array [EStruct S_ModelArray [(Fd_items, EFun F_box_new [ECtor C_Inline [one_of]])] false])
    (try_map (fun f => field_model_reference (cp_field (f_attrs f)) f (inl f)) fs).

(** opg.rs:633-650: [properties.insert(#name.to_owned(), #reference); #push_required;] *)
Definition property_stmts (f : field ty) (inline : bool) : option (list stmt) :=
  option_map
    (fun r =>
       let name := n_serialized (fa_name (f_attrs f)) in
       [SExpr (EMeth (EVar V_properties) M_insert [owned name; r]);
        if negb (fa_optional (f_attrs f)) then SExpr (EMeth (EVar V_required) M_push [owned name]) else SEmpty])
    (field_model_reference (cp_field (f_attrs f)) f inline).

(** opg.rs:660-665, 262-267: [_opg::ModelTypeDescription::Object(_opg::ModelObject { properties, required, .. })] *)
Definition object_desc : expr :=
  ECtor C_Object [EStruct S_ModelObject [(Fd_properties, EVar V_properties); (Fd_required, EVar V_required)] true].
Definition new_object : list stmt := [SLet V_properties (EFun F_map_new []); SLet V_required (EFun F_vec_new [])].

(** opg.rs:624-669 [object_type_description] *)
Definition object_type_description (fs : list (field ty)) (inl : field ty -> bool) : option expr :=
  option_map (fun data => EBlock (new_object ++ concat data) object_desc)
    (try_map (fun f => property_stmts f (inl f)) (filter (fun f => negb (fa_skip (f_attrs f))) fs)).

(** opg.rs:539-560 [tuple_model], 562-583 [object_model] *)
Definition tuple_model (nullable : bool) (d : option str) (fs : list (field ty)) (inl : field ty -> bool) : option expr :=
  option_map (fun t => q_model (option_string d) (q_single (EBool nullable) t)) (tuple_type_description fs inl).
Definition object_model (nullable : bool) (d : option str) (fs : list (field ty)) (inl : field ty -> bool) : option expr :=
  option_map (fun t => q_model (option_string d) (q_single (EBool nullable) t)) (object_type_description fs inl).

(** opg.rs:77-146 [serialize_newtype_enum] *)
Definition serialize_newtype_enum (c : container ty) (vs : list (variant ty)) : expr :=
  let description := option_string (ca_description (c_attrs c)) in
  if ca_has_repr (c_attrs c) then
    q_model description
      (q_one_of
        (map (fun nd => inline_reference
                (q_model (ECtor C_Some [owned (fst nd ++ u " variant")])
                  (q_single (EBool false)
                    (ECtor C_Integer [q_simple (ECtor C_None []) (ECtor C_Some [owned (snd nd)])]))))
           (flat_map (fun v => match v_discriminant v with
                               | Some d => [(n_serialized (va_name (v_attrs v)), d)]
                               | None => []
                               end)
              (filter (fun v => negb (va_skip (v_attrs v))) vs))))
  else
    let variants := map (fun v => n_serialized (va_name (v_attrs v))) (filter (fun v => negb (va_skip (v_attrs v))) vs) in
    let example := option_string (hd_error variants) in
    q_model description
      (q_single (EBool false)
        (q_string (ECtor C_Some [q_names variants]) (q_simple (ECtor C_None []) example))).

(** the arm for newtype variants: opg.rs:158-163, 204-209, 326-335 *)
Definition newtype_variant (v : variant ty) : option expr :=
  match v_fields v with
  | f :: _ => field_model_reference (cp_or (cp_field (f_attrs f)) (cp_variant (v_attrs v))) f (va_inline (v_attrs v))
  | [] => None
  end.

(** opg.rs:157-171 *)
Definition untagged_variant (v : variant ty) : option expr :=
  match v_style v with
  | StNewType => newtype_variant v
  | StStruct =>
      option_map inline_reference
        (object_model false (va_description (v_attrs v)) (v_fields v) (fun f => va_inline (v_attrs v) || fa_inline (f_attrs f)))
  | _ => None
  end.
(** opg.rs:148-184 [serialize_untagged_enum] *)
Definition serialize_untagged_enum (c : container ty) (vs : list (variant ty)) : option expr :=
  option_map (fun one_of => q_model (option_string (ca_description (c_attrs c))) (q_one_of one_of))
    (try_map untagged_variant (filter (fun v => negb (va_skip (v_attrs v))) vs)).

(** opg.rs:203-223 *)
Definition adjacent_variant (v : variant ty) : option expr :=
  match v_style v with
  | StNewType => newtype_variant v
  | StTuple =>
      option_map inline_reference
        (tuple_model false (va_description (v_attrs v)) (v_fields v) (fun f => va_inline (v_attrs v) || fa_inline (f_attrs f)))
  | StStruct =>
      option_map inline_reference
        (tuple_model false (va_description (v_attrs v)) (v_fields v) (fun f => fa_inline (f_attrs f) || va_inline (v_attrs v)))
  | StUnit => None
  end.
(** opg.rs:186-287 [serialize_adjacent_tagged_enum] *)
Definition serialize_adjacent_tagged_enum (c : container ty) (vs : list (variant ty)) (tag content : str) : option expr :=
  let description := option_string (ca_description (c_attrs c)) in
  let shown := filter (fun v => negb (va_skip (v_attrs v))) vs in
  let variants := map (fun v => n_serialized (va_name (v_attrs v))) shown in
  option_map
    (fun one_of =>
       let type_example := option_string (hd_error variants) in
       let struct_type_description :=
         EBlock (new_object ++ [
           SExpr (EMeth (EVar V_properties) M_insert [owned tag; ECtor C_Inline [
             q_model (ECtor C_Some [EFormat (u "{} type variant") [EStr (c_ident c)]])
               (q_single (EBool false)
                 (q_string (ECtor C_Some [q_names variants]) (q_simple (ECtor C_None []) type_example)))]]);
           SExpr (EMeth (EVar V_required) M_push [owned tag]);
           SExpr (EMeth (EVar V_properties) M_insert [owned content; ECtor C_Inline [q_model description (q_one_of one_of)]]);
           SExpr (EMeth (EVar V_required) M_push [owned content])])
         object_desc in
       q_model description (q_single (EBool (ca_nullable (c_attrs c))) struct_type_description))
    (try_map adjacent_variant shown).

(** opg.rs:304-349 *)
Definition external_variant (v : variant ty) : option expr :=
  let variant_name := n_serialized (va_name (v_attrs v)) in
  match v_style v with
  | StUnit =>
      Some (ECtor C_Inline [
        q_model (option_string (va_description (v_attrs v)))
          (q_single (EBool false)
            (q_string (ECtor C_Some [EVec [owned variant_name]]) (q_simple (ECtor C_None []) (ECtor C_Some [owned variant_name]))))])
  | StNewType => newtype_variant v
  | StTuple =>
      option_map inline_reference
        (tuple_model false (va_description (v_attrs v)) (v_fields v) (fun f => va_inline (v_attrs v) || fa_inline (f_attrs f)))
  | StStruct =>
      option_map inline_reference
        (object_model false (va_description (v_attrs v)) (v_fields v) (fun f => va_inline (v_attrs v) || fa_inline (f_attrs f)))
  end.
(** opg.rs:289-380 [serialize_external_tagged_enum] *)
Definition serialize_external_tagged_enum (c : container ty) (vs : list (variant ty)) : option expr :=
  let description := option_string (ca_description (c_attrs c)) in
  option_map
    (fun one_of =>
       q_model description
         (q_single (EBool (ca_nullable (c_attrs c)))
           (ECtor C_Object [EStruct S_ModelObject
             [(Fd_additional_properties, ECtor C_Some [EFun F_box_new [ECtor C_Inline [q_model description (q_one_of one_of)]]])]
             true])))
    (try_map external_variant (filter (fun v => negb (va_skip (v_attrs v))) vs)).

(** opg.rs:398-417 *)
Definition internal_model (v : variant ty) : option expr :=
  match v_style v with
  | StUnit => object_model false (va_description (v_attrs v)) [] (fun _ => false)
  | StNewType =>
      match v_fields v with
      | f :: _ =>
          Some (ETrait (f_ty f) T_get_schema_with_params
                  [EVar V_cx; ERef (tokenize (cp_or (cp_field (f_attrs f)) (cp_variant (v_attrs v))))])
      | [] => None
      end
  | StStruct => object_model false (va_description (v_attrs v)) (v_fields v) (fun f => va_inline (v_attrs v) || fa_inline (f_attrs f))
  | StTuple => None
  end.
(** opg.rs:419-460 *)
Definition merge_tag (model : expr) (tag variant_name ident : str) (nullable : bool) : expr :=
  EBlock [
    SLet V_model model;
    SLet V_additional_object
      (EBlock [
         SLet V_properties (EFun F_map_new []);
         SExpr (EMeth (EVar V_properties) M_insert [owned tag; ECtor C_Inline [
           q_model (ECtor C_Some [EFormat (u "{} type variant") [EStr ident]])
             (q_single (EBool false)
               (q_string (ECtor C_Some [EVec [owned variant_name]])
                 (q_simple (ECtor C_None []) (ECtor C_Some [owned variant_name]))))]])]
       (ECtor C_Object [EStruct S_ModelObject [(Fd_properties, EVar V_properties); (Fd_required, EVec [owned tag])] true]));
    SLetUnder (EMeth (EVar V_model) M_try_merge
      [q_model (ECtor C_None []) (q_single (EBool nullable) (EVar V_additional_object))])]
  (ECtor C_Inline [EVar V_model]).
(** opg.rs:382-473 [serialize_internal_tagged_enum] *)
Definition serialize_internal_tagged_enum (c : container ty) (vs : list (variant ty)) (tag : str) : option expr :=
  option_map (fun one_of => q_model (option_string (ca_description (c_attrs c))) (q_one_of one_of))
    (try_map
       (fun v => option_map (fun m => merge_tag m tag (n_serialized (va_name (v_attrs v))) (c_ident c) (ca_nullable (c_attrs c)))
                   (internal_model v))
       (filter (fun v => negb (va_skip (v_attrs v))) vs)).

(** opg.rs:62-75 [serialize_enum] *)
Definition serialize_enum (c : container ty) (vs : list (variant ty)) : option expr :=
  match ca_model_kind (c_attrs c), ca_tag_type (c_attrs c) with
  | MkNewType, _ => Some (serialize_newtype_enum c vs)
  | MkObject, TagAdjacent tag content => serialize_adjacent_tagged_enum c vs tag content
  | MkDictionary, _ => serialize_external_tagged_enum c vs
  | MkOneOf, TagNone => serialize_untagged_enum c vs
  | MkOneOf, TagInternal tag => serialize_internal_tagged_enum c vs tag
  | _, _ => None
  end.
(** opg.rs:475-492 [serialize_struct], 494-511 [serialize_tuple_struct] *)
Definition serialize_struct (c : container ty) (fs : list (field ty)) : option expr :=
  option_map (fun t => q_model (option_string (ca_description (c_attrs c))) (q_single (EBool (ca_nullable (c_attrs c))) t))
    (object_type_description fs (fun f => fa_inline (f_attrs f))).
Definition serialize_tuple_struct (c : container ty) (fs : list (field ty)) : option expr :=
  option_map (fun t => q_model (option_string (ca_description (c_attrs c))) (q_single (EBool (ca_nullable (c_attrs c))) t))
    (tuple_type_description fs (fun f => fa_inline (f_attrs f))).
(** opg.rs:513-537 [serialize_newtype_struct] *)
Definition serialize_newtype_struct (c : container ty) (f : field ty) : option expr :=
  let p := cp_or (cp_field (f_attrs f)) (cp_container (c_attrs c)) in
  match ca_explicit (c_attrs c) with
  | Some ETAny => None
  | Some t => newtype_model (ca_nullable (c_attrs c)) p t
  | None => Some (ETrait (f_ty f) T_get_schema_with_params [EVar V_cx; ERef (tokenize p)])
  end.
(** opg.rs:50-60 [serialize_body] *)
Definition serialize_body (c : container ty) : option expr :=
  match c_data c with
  | Enum vs => serialize_enum c vs
  | Struct StStruct fs => serialize_struct c fs
  | Struct StTuple fs => serialize_tuple_struct c fs
  | Struct StNewType fs => match fs with f :: _ => serialize_newtype_struct c f | [] => None end
  | Struct StUnit _ => None
  end.

(** [Self::get_schema(cx).apply_params(params)], inlined: opg.rs:786-789, macros.rs:227-230, 257-260, 288-291, 323-326 *)
Definition inline_fn (self : ty) : fn_code :=
  {| fn_params := [Some V_cx; None; Some V_params];
     fn_body := ECtor C_Inline [EMeth (ETrait self T_get_schema [EVar V_cx]) M_apply_params [EVar V_params]] |}.
Definition no_name_fn : fn_code := {| fn_params := []; fn_body := ECtor C_None [] |}.

(** opg.rs:774-807 [implement_type] *)
Definition implement_type (self : ty) (type_name : str) (body : expr) (inline : bool) : impl_code :=
  {| ic_get_schema := {| fn_params := [Some V_cx]; fn_body := body |};
     ic_type_name :=
       if inline then no_name_fn
       else {| fn_params := []; fn_body := ECtor C_Some [EMeth (EStringify type_name) M_into []] |};
     ic_select := if inline then Some (inline_fn self) else None |}.

(** dummy.rs:1-25 [wrap_in_const]: the name of the [const _: ()] around the impl; [underscore_consts] is never set (the
    crates have no build script); opg.rs:34 *)
Definition const_name (ident : str) : str := u "_IMPL_" ++ u "OPG_MODEL" ++ u "_FOR_" ++ unraw ident.

Section Derive.
  Variable parses_expr parses_path : str -> bool.
  Variable uni_upper : N -> bool.

  Inductive code_result := CodeOk (c : impl_code) | CodeErr (es : list err) | CodePanic.
  (** opg.rs:10-35 [impl_derive_opg_model]; parsing_context.rs:32-39 [check] *)
  Definition derive_code (self : ty) (i : derive_input ty) : code_result :=
    match container_from_ast parses_expr parses_path uni_upper i with
    | (FaPanic, _) => CodePanic
    | (FaNone, es) => match es with [] => CodePanic (* unwrap_err *) | _ => CodeErr es end
    | (FaSome c, es) =>
        match es with
        | _ :: _ => CodeErr es
        | [] =>
            match serialize_body c with
            | None => CodePanic
            | Some b => CodeOk (implement_type self (c_ident c) b (ca_inline (c_attrs c)))
            end
        end
    end.
End Derive.

(** ** The impls of opg/src/lib.rs *)
(** [$crate::macros::FromStrangeTuple::extract(($(..,)?))] *)
Definition extracted (o : option str) : expr :=
  EFun F_extract [ETuple (match o with Some s => [EMeth (EStr s) M_to_string []] | None => [] end)].
(** macros.rs:35-54, 56-71, 73-88, 90-100: [describe_type!(string => { format: .. })] and so on *)
Definition describe_string_code (format : option str) : expr :=
  q_model (extracted None)
    (q_single (EBool false) (q_string (EFun F_extract [ETuple []]) (q_simple (extracted format) (extracted None)))).
Definition describe_number_code (format : option str) : expr :=
  q_model (extracted None) (q_single (EBool false) (ECtor C_Number [q_simple (extracted format) (extracted None)])).
Definition describe_integer_code (format : option str) : expr :=
  q_model (extracted None) (q_single (EBool false) (ECtor C_Integer [q_simple (extracted format) (extracted None)])).
Definition describe_boolean_code : expr := q_model (extracted None) (q_single (EBool false) (ECtor C_Boolean [])).
(** lib.rs:120-262, the impls written by hand *)
Definition by_hand_code (description : str) (nullable : bool) (format : str) (example : option str) : expr :=
  q_model (ECtor C_Some [owned description])
    (q_single (EBool nullable)
      (q_string (ECtor C_None []) (q_simple (ECtor C_Some [owned format]) (option_string example)))).
(** lib.rs:13-44, 120-262 *)
Definition prim_code (p : prim) : expr :=
  match p with
  | PChar => describe_string_code (Some (u "char"))
  | PStr | PString => describe_string_code None
  | PI8 | PAtomicI8 => describe_integer_code (Some (u "int8"))
  | PU8 | PAtomicU8 => describe_integer_code (Some (u "uint8"))
  | PI16 | PAtomicI16 => describe_integer_code (Some (u "int16"))
  | PU16 | PAtomicU16 => describe_integer_code (Some (u "uint16"))
  | PI32 | PAtomicI32 => describe_integer_code (Some (u "int32"))
  | PU32 | PAtomicU32 => describe_integer_code (Some (u "uint32"))
  | PI64 | PAtomicI64 => describe_integer_code (Some (u "int64"))
  | PU64 | PAtomicU64 => describe_integer_code (Some (u "uint64"))
  | PIsize | PUsize | PAtomicIsize | PAtomicUsize => describe_integer_code None
  | PF32 => describe_number_code (Some (u "float"))
  | PF64 => describe_number_code (Some (u "double"))
  | PBool | PAtomicBool => describe_boolean_code
  | PUnit => by_hand_code (u "Always `null`") true (u "null") None
  | PUuid => by_hand_code (u "UUID ver. 4 [rfc](https://tools.ietf.org/html/rfc4122)") false (u "uuid") (Some (u "00000000-0000-0000-0000-000000000000"))
  | PNaiveDateTime => by_hand_code (u "Datetime without timezone") false (u "date") (Some (u "2020-06-26T14:04:20.730045106"))
  | PDateTime => by_hand_code (u "Datetime with timezone") false (u "date") (Some (u "2020-06-26T14:04:20.730045106Z"))
  | PNaiveDate => by_hand_code (u "Date without timezone") false (u "date") (Some (u "2020-06-26"))
  end.

Definition mention_arg (t : ty) : expr := EMention (EVar V_cx) t [EBool false; ERef (EFun F_default [])].
Section Library.
  (** the impls of the crates' own types *)
  Variable P : tid -> impl_code.
  Definition always_inline (self : ty) (ps : list (option var)) (body : expr) : impl_code :=
    {| ic_get_schema := {| fn_params := ps; fn_body := body |}; ic_type_name := no_name_fn; ic_select := Some (inline_fn self) |}.
  Definition name_of_fn (t : ty) : fn_code := {| fn_params := []; fn_body := ETrait t T_type_name [] |}.
  Definition impl_of (t : ty) : impl_code :=
    match t with
    | TPrim p => always_inline t [None] (prim_code p)                    (* macros.rs:310-329, lib.rs:120-262 *)
    | TWrap _ t' =>                                                      (* macros.rs:186-200 *)
        {| ic_get_schema := {| fn_params := [Some V_cx]; fn_body := ETrait t' T_get_schema [EVar V_cx] |};
           ic_type_name := name_of_fn t'; ic_select := None |}
    | TOption t' =>                                                      (* macros.rs:167-184 *)
        {| ic_get_schema :=
             {| fn_params := [Some V_cx];
                fn_body := ETrait t' T_get_schema_with_params
                  [EVar V_cx; ERef (EStruct S_ContextParams [(Fd_nullable, ECtor C_Some [EBool true])] true)] |};
           ic_type_name := name_of_fn t'; ic_select := None |}
    | TTuple ts =>                                                       (* macros.rs:202-232, with 102-115, 153-162, 21-23 *)
        always_inline t [Some V_cx]
          (EBlock [SLet V_item_model (q_model (ECtor C_None []) (q_one_of (map mention_arg ts)))]
             (q_model (extracted None)
               (q_single (EBool false)
                 (ECtor C_Array [EStruct S_ModelArray [(Fd_items, EFun F_box_new [ECtor C_Inline [EVar V_item_model]])] false]))))
    | TSeq _ t' =>                                                       (* macros.rs:234-262, lib.rs:90-115 *)
        always_inline t [Some V_cx]
          (q_model (ECtor C_None [])
            (q_single (EBool false) (ECtor C_Array [EStruct S_ModelArray [(Fd_items, EFun F_box_new [mention_arg t'])] false])))
    | TDict _ t' =>                                                      (* macros.rs:264-293 *)
        always_inline t [Some V_cx]
          (q_model (ECtor C_None [])
            (q_single (EBool false)
              (ECtor C_Object [EStruct S_ModelObject [(Fd_additional_properties, ECtor C_Some [EFun F_box_new [mention_arg t']])] true])))
    | TNamed id => P id
    end.
End Library.
