(** Model of opg_derive/src/opg.rs: from the container to the generated impl. *)
From Verif Require Export Ast Gen.

Section Derive.
  Variable parses_expr parses_path : str -> bool.
  Variable uni_upper : N -> bool.
  (** the run-time value of [(expr).to_string()] for the expression with the given source text;
      the expression is assumed to have no effects *)
  Variable eval_expr : str -> str.

  (** opg.rs:747-754 [option_to_string_expr], evaluated *)
  Definition example_value (e : option example) : option str :=
    match e with
    | Some (ExLit s) => Some s
    | Some (ExCode s) => Some (eval_expr s)
    | None => None
    end.

  (** opg.rs:817-825, 827-834, 836-844 [ContextParams::from] *)
  Definition flag (b : bool) : option bool := if b then Some true else None.
  Definition params_of_container (a : container_attrs) : params :=
    Build_params (ca_description a) (flag (ca_nullable a)) None (ca_format a) (example_value (ca_example a)).
  Definition params_of_variant (a : variant_attrs) : params :=
    Build_params (va_description a) None None (va_format a) (example_value (va_example a)).
  Definition params_of_field (a : field_attrs) : params :=
    Build_params (fa_description a) (flag (fa_nullable a)) None (fa_format a) (example_value (fa_example a)).

  (** opg.rs:871-880 [ContextParams::or]: [nullable] of the other is not taken *)
  Definition params_or (p q : params) : params :=
    Build_params (override (p_description p) (p_description q)) (p_nullable p) (p_variants p)
      (override (p_format p) (p_format q)) (override (p_example p) (p_example q)).

  (** opg.rs:701-745 [newtype_model]; [None] is the [unreachable!()] of line 733 *)
  Definition newtype_model (nullable : bool) (p : params) (t : explicit_type) : option mcode :=
    let s := {| ms_format := p_format p; ms_example := p_example p |} in
    let data :=
      match t with
      | ETString => Some (CdString {| mst_variants := None; mst_data := s |})
      | ETInteger => Some (CdInteger s)
      | ETNumber => Some (CdNumber s)
      | ETBoolean => Some CdBoolean
      | ETAny => None
      end in
    match data with
    | Some d => Some (McModel (p_description p) (DcSingle nullable (TcConst d)))
    | None => None
    end.

  (** opg.rs:671-699 [field_model_reference] *)
  Definition field_model_reference (p : params) (f : field ty) (inline : bool) : option rcode :=
    match fa_explicit (f_attrs f) with
    | Some ETAny => Some RcAny
    | Some t => match newtype_model (fa_nullable (f_attrs f)) p t with
                | Some m => Some (RcInline m)
                | None => None
                end
    | None => Some (RcMention (f_ty f) inline p)
    end.

  (** opg.rs:591-622 [tuple_type_description]: skipped fields are not filtered out *)
  Definition tuple_type_description (fs : list (field ty)) (inl : field ty -> bool) : option tcode :=
    match try_map (fun f => field_model_reference (params_of_field (f_attrs f)) f (inl f)) fs with
    | Some l => Some (TcArray (RcInline (McModel None (DcOneOf l))))
    | None => None
    end.

  (** opg.rs:624-669 [object_type_description] *)
  Definition object_type_description (fs : list (field ty)) (inl : field ty -> bool) : option tcode :=
    match try_map
            (fun f => match field_model_reference (params_of_field (f_attrs f)) f (inl f) with
                      | Some r => Some (n_serialized (fa_name (f_attrs f)), r, negb (fa_optional (f_attrs f)))
                      | None => None
                      end)
            (filter (fun f => negb (fa_skip (f_attrs f))) fs) with
    | Some l => Some (TcObject l)
    | None => None
    end.

  (** opg.rs:539-560 [tuple_model], 562-583 [object_model] *)
  Definition tuple_model (nullable : bool) (d : option str) (fs : list (field ty)) (inl : field ty -> bool) : option mcode :=
    match tuple_type_description fs inl with
    | Some t => Some (McModel d (DcSingle nullable t))
    | None => None
    end.
  Definition object_model (nullable : bool) (d : option str) (fs : list (field ty)) (inl : field ty -> bool) : option mcode :=
    match object_type_description fs inl with
    | Some t => Some (McModel d (DcSingle nullable t))
    | None => None
    end.

  (** opg.rs:585-589 [inline_reference] *)
  Definition inline_reference (m : option mcode) : option rcode :=
    match m with Some m => Some (RcInline m) | None => None end.

  Definition serialised (vs : list (variant ty)) : list (variant ty) := filter (fun v => negb (va_skip (v_attrs v))) vs.
  Definition variant_name (v : variant ty) : str := n_serialized (va_name (v_attrs v)).

  (** a string schema listing [names], with the first as example: opg.rs:128-142, 239-253, 309-323 *)
  Definition names_model (d : option str) (names : list str) : mcode :=
    McModel d (DcSingle false (TcConst (CdString
      {| mst_variants := Some names; mst_data := {| ms_format := None; ms_example := hd_error names |} |}))).

  (** opg.rs:77-146 [serialize_newtype_enum] *)
  Definition serialize_newtype_enum (c : container ty) (vs : list (variant ty)) : mcode :=
    let d := ca_description (c_attrs c) in
    if ca_has_repr (c_attrs c) then
      McModel d (DcOneOf
        (flat_map (fun v =>
           match v_discriminant v with
           | Some disc =>
               [RcInline (McModel (Some (variant_name v ++ u " variant"))
                  (DcSingle false (TcConst (CdInteger {| ms_format := None; ms_example := Some disc |}))))]
           | None => []
           end) (serialised vs)))
    else names_model d (map variant_name (serialised vs)).

  (** the arm for newtype variants: opg.rs:158-163, 204-209, 326-335; [variant.fields[0]] would panic
      without a field *)
  Definition newtype_variant (v : variant ty) : option rcode :=
    match v_fields v with
    | f :: _ =>
        field_model_reference (params_or (params_of_field (f_attrs f)) (params_of_variant (v_attrs v))) f
          (va_inline (v_attrs v))
    | [] => None
    end.

  (** the predicates [|field| variant.attrs.inline || field.attrs.inline] *)
  Definition inline_in (v : variant ty) (f : field ty) : bool := va_inline (v_attrs v) || fa_inline (f_attrs f).

  (** opg.rs:157-171; [None] is [unreachable!()] *)
  Definition untagged_variant (v : variant ty) : option rcode :=
    match v_style v with
    | StNewType => newtype_variant v
    | StStruct => inline_reference (object_model false (va_description (v_attrs v)) (v_fields v) (inline_in v))
    | _ => None
    end.

  (** opg.rs:148-184 [serialize_untagged_enum] *)
  Definition serialize_untagged_enum (c : container ty) (vs : list (variant ty)) : option mcode :=
    match try_map untagged_variant (serialised vs) with
    | Some l => Some (McModel (ca_description (c_attrs c)) (DcOneOf l))
    | None => None
    end.

  (** opg.rs:203-223; struct variants are described as tuples (line 216) *)
  Definition adjacent_variant (v : variant ty) : option rcode :=
    match v_style v with
    | StNewType => newtype_variant v
    | StTuple => inline_reference (tuple_model false (va_description (v_attrs v)) (v_fields v) (inline_in v))
    | StStruct => inline_reference (tuple_model false (va_description (v_attrs v)) (v_fields v) (inline_in v))
    | StUnit => None
    end.

  (** opg.rs:186-287 [serialize_adjacent_tagged_enum] *)
  Definition serialize_adjacent_tagged_enum (c : container ty) (vs : list (variant ty)) (tag content : str) : option mcode :=
    match try_map adjacent_variant (serialised vs) with
    | None => None
    | Some one_of =>
        let d := ca_description (c_attrs c) in
        Some (McModel d (DcSingle (ca_nullable (c_attrs c))
          (TcObject
            [(tag, RcInline (names_model (Some (c_ident c ++ u " type variant")) (map variant_name (serialised vs))), true);
             (content, RcInline (McModel d (DcOneOf one_of)), true)])))
    end.

  (** opg.rs:304-349 *)
  Definition external_variant (v : variant ty) : option rcode :=
    match v_style v with
    | StUnit => Some (RcInline (names_model (va_description (v_attrs v)) [variant_name v]))
    | StNewType => newtype_variant v
    | StTuple => inline_reference (tuple_model false (va_description (v_attrs v)) (v_fields v) (inline_in v))
    | StStruct => inline_reference (object_model false (va_description (v_attrs v)) (v_fields v) (inline_in v))
    end.

  (** opg.rs:289-380 [serialize_external_tagged_enum] *)
  Definition serialize_external_tagged_enum (c : container ty) (vs : list (variant ty)) : option mcode :=
    match try_map external_variant (serialised vs) with
    | None => None
    | Some one_of =>
        let d := ca_description (c_attrs c) in
        Some (McModel d (DcSingle (ca_nullable (c_attrs c))
          (TcDict (RcInline (McModel d (DcOneOf one_of))))))
    end.

  (** opg.rs:398-417; the newtype arm ignores the field's explicit type *)
  Definition internal_model (v : variant ty) : option mcode :=
    match v_style v with
    | StUnit => object_model false (va_description (v_attrs v)) [] (fun _ => false)
    | StNewType =>
        match v_fields v with
        | f :: _ => Some (McSchemaWith (f_ty f) (params_or (params_of_field (f_attrs f)) (params_of_variant (v_attrs v))))
        | [] => None
        end
    | StStruct => object_model false (va_description (v_attrs v)) (v_fields v) (inline_in v)
    | StTuple => None
    end.

  (** opg.rs:395-460 *)
  Definition internal_variant (c : container ty) (tag : str) (v : variant ty) : option rcode :=
    match internal_model v with
    | Some m => Some (RcTagged m tag (variant_name v) (c_ident c) (ca_nullable (c_attrs c)))
    | None => None
    end.

  (** opg.rs:382-473 [serialize_internal_tagged_enum] *)
  Definition serialize_internal_tagged_enum (c : container ty) (vs : list (variant ty)) (tag : str) : option mcode :=
    match try_map (internal_variant c tag) (serialised vs) with
    | Some l => Some (McModel (ca_description (c_attrs c)) (DcOneOf l))
    | None => None
    end.

  (** opg.rs:62-75 [serialize_enum]; the last arm is [unreachable!()] *)
  Definition serialize_enum (c : container ty) (vs : list (variant ty)) : option mcode :=
    match ca_model_kind (c_attrs c), ca_tag_type (c_attrs c) with
    | MkNewType, _ => Some (serialize_newtype_enum c vs)
    | MkObject, TagAdjacent tag content => serialize_adjacent_tagged_enum c vs tag content
    | MkDictionary, _ => serialize_external_tagged_enum c vs
    | MkOneOf, TagNone => serialize_untagged_enum c vs
    | MkOneOf, TagInternal tag => serialize_internal_tagged_enum c vs tag
    | _, _ => None
    end.

  (** opg.rs:475-492 [serialize_struct], 494-511 [serialize_tuple_struct] *)
  Definition serialize_struct (c : container ty) (fs : list (field ty)) : option mcode :=
    match object_type_description fs (fun f => fa_inline (f_attrs f)) with
    | Some t => Some (McModel (ca_description (c_attrs c)) (DcSingle (ca_nullable (c_attrs c)) t))
    | None => None
    end.
  Definition serialize_tuple_struct (c : container ty) (fs : list (field ty)) : option mcode :=
    match tuple_type_description fs (fun f => fa_inline (f_attrs f)) with
    | Some t => Some (McModel (ca_description (c_attrs c)) (DcSingle (ca_nullable (c_attrs c)) t))
    | None => None
    end.

  (** opg.rs:513-537 [serialize_newtype_struct]; line 526 is [unreachable!()] *)
  Definition serialize_newtype_struct (c : container ty) (f : field ty) : option mcode :=
    let p := params_or (params_of_field (f_attrs f)) (params_of_container (c_attrs c)) in
    match ca_explicit (c_attrs c) with
    | Some ETAny => None
    | Some t => newtype_model (ca_nullable (c_attrs c)) p t
    | None => Some (McSchemaWith (f_ty f) p)
    end.

  (** opg.rs:50-60 [serialize_body]; the last arm is [unimplemented!()] *)
  Definition serialize_body (c : container ty) : option mcode :=
    match c_data c with
    | Enum vs => serialize_enum c vs
    | Struct StStruct fs => serialize_struct c fs
    | Struct StTuple fs => serialize_tuple_struct c fs
    | Struct StNewType fs => match fs with f :: _ => serialize_newtype_struct c f | [] => None end
    | Struct StUnit _ => None
    end.

  (** The outcome of the derive macro: an impl, compile errors, or a panic of the macro. *)
  Inductive derive_result := DOk (td : typedef) | DErr (es : list err) | DPanic.

  (** opg.rs:10-35 [impl_derive_opg_model] with 774-807 [implement_type]; lib.rs:20-25 *)
  Definition derive (i : derive_input ty) : derive_result :=
    match container_from_ast parses_expr parses_path uni_upper i with
    | (FaPanic, _) => DPanic
    | (FaNone, es) => match es with [] => DPanic (* unwrap_err *) | _ => DErr es end
    | (FaSome c, es) =>
        match es with
        | _ :: _ => DErr es
        | [] =>
            match serialize_body c with
            | None => DPanic
            | Some b => DOk {| td_ident := c_ident c; td_inline := ca_inline (c_attrs c); td_body := b |}
            end
        end
    end.
End Derive.
