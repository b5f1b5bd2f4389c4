(** Specification of what a derive input says, in terms of its attributes, and of the schemas it stands
    for.  Uses the meaning of attributes (AttrSpec.v), the naming rules (Case.v, specified in
    CaseSpec.v) and the results of generation for the types of the fields (GenSpec.v); none of the
    functions of Ast.v and Derive.v except the syntax trees. *)
From Verif Require Import Attr AttrSpec Ast Derive Schema SchemaSpec Gen GenSpec.

Section Spec.
  Variable pe pp : str -> bool.
  Variable uni : N -> bool.
  Variable ev : str -> str.
  Notation said := (said pe pp).
  Notation takes := (takes pe pp).
  Notation flag_takes := (flag_takes pe pp).

  (** ** Names *)

  (** the renaming rule given, or none *)
  Definition has_rule (pos : position) (l : list attribute) (r : rename_rule) : Prop :=
    said pos l (SRenameAll r) \/ r = RNone /\ forall r', ~ said pos l (SRenameAll r').

  (** an identifier written as a raw identifier *)
  Definition raw (i : str) : str := u "r#" ++ i.
  (** the name a member has in the source: its identifier (without the mark of raw identifiers, see C06_raw_identifiers), or its index *)
  Definition source_name {A} (index : nat) (f : field_syn A) : str :=
    match fs_ident f with Some i => unraw i | None => nat_to_string index end.

  (** the serialised name: the explicit one if there is one, else by the rule *)
  Inductive field_named {A} (r : rename_rule) (index : nat) (f : field_syn A) (n : str) : Prop :=
  | fn_explicit : said PField (fs_attrs f) (SRename n) -> field_named r index f n
  | fn_rule : (forall m, ~ said PField (fs_attrs f) (SRename m)) ->
      apply_to_field r (source_name index f) = Some n -> field_named r index f n.
  Inductive variant_named {A} (r : rename_rule) (v : variant_syn A) (n : str) : Prop :=
  | vn_explicit : said PVariant (vs_attrs v) (SRename n) -> variant_named r v n
  | vn_rule : (forall m, ~ said PVariant (vs_attrs v) (SRename m)) ->
      apply_to_variant uni r (unraw (vs_ident v)) = Some n -> variant_named r v n.

  (** ** The members that are serialised, with their names, in order *)

  Definition field_skipped {A} (f : field_syn A) : Prop := said PField (fs_attrs f) SSkip.
  Definition variant_skipped {A} (v : variant_syn A) : Prop := said PVariant (vs_attrs v) SSkip.

  Inductive serialised_fields {A} (r : rename_rule) : nat -> list (field_syn A) -> list (str * field_syn A) -> Prop :=
  | sf_nil i : serialised_fields r i [] []
  | sf_skip i f fs l : field_skipped f -> serialised_fields r (S i) fs l -> serialised_fields r i (f :: fs) l
  | sf_keep i f n fs l : ~ field_skipped f -> field_named r i f n -> serialised_fields r (S i) fs l ->
      serialised_fields r i (f :: fs) ((n, f) :: l).

  Inductive serialised_variants {A} (r : rename_rule) : list (variant_syn A) -> list (str * variant_syn A) -> Prop :=
  | sv_nil : serialised_variants r [] []
  | sv_skip v vs l : variant_skipped v -> serialised_variants r vs l -> serialised_variants r (v :: vs) l
  | sv_keep v n vs l : ~ variant_skipped v -> variant_named r v n -> serialised_variants r vs l ->
      serialised_variants r (v :: vs) ((n, v) :: l).

  (** a property that may be absent *)
  Definition field_optional {A} (f : field_syn A) : Prop :=
    said PField (fs_attrs f) SSkipIf \/ said PField (fs_attrs f) SOptional.

  (** the names of the members that must be present, in order *)
  Inductive required_names {A} : list (str * field_syn A) -> list str -> Prop :=
  | rn_nil : required_names [] []
  | rn_optional n f l req : field_optional f -> required_names l req -> required_names ((n, f) :: l) req
  | rn_required n f l req : ~ field_optional f -> required_names l req -> required_names ((n, f) :: l) (n :: req).

  (** ** Parameters written at a place *)

  Definition example_is (pos : position) (l : list attribute) (o : option str) : Prop :=
    forall s, o = Some s <->
      said pos l (SExample (ExLit s)) \/ exists code, said pos l (SExample (ExCode code)) /\ s = ev code.

  (** description, nullability, format and example said at a place *)
  Definition params_said (pos : position) (l : list attribute) (p : params) : Prop :=
    takes pos l SDescription (p_description p) /\
    p_nullable p <> Some false /\ (p_nullable p = Some true <-> said pos l SNullable) /\
    p_variants p = None /\
    takes pos l SFormat (p_format p) /\
    example_is pos l (p_example p).

  (** what is said of a field, completed by what is said of the variant or newtype around it: nullability
      only counts on the field *)
  Definition completed_by (p q : params) : params :=
    Build_params (given (p_description p) (p_description q)) (p_nullable p) None
      (given (p_format p) (p_format q)) (given (p_example p) (p_example q)).

  (** ** Fields *)

  (** a schema of an explicitly given primitive type *)
  Definition explicit_model (t : explicit_type) (nullable : bool) (p : params) (m : model) : Prop :=
    m_description m = p_description p /\ nullable_of m = Some nullable /\ enum_of m = None /\
    match t with
    | ETString => kind_of m = KString /\ format_of m = p_format p /\ example_of m = p_example p
    | ETInteger => kind_of m = KInteger /\ format_of m = p_format p /\ example_of m = p_example p
    | ETNumber => kind_of m = KNumber /\ format_of m = p_format p /\ example_of m = p_example p
    | ETBoolean => kind_of m = KBoolean
    | ETAny => False
    end.

  (** the reference describing a field, with the components before and after *)
  Inductive field_ref (E : env) (f : field_syn ty) (inline : bool) (p : params) (cx : components)
    : model_ref -> components -> Prop :=
  | fr_any : said PField (fs_attrs f) (SType ETAny) -> field_ref E f inline p cx Any cx
  | fr_explicit t b m : said PField (fs_attrs f) (SType t) -> flag_takes PField (fs_attrs f) SNullable b ->
      explicit_model t b p m -> field_ref E f inline p cx (Inline m) cx
  | fr_type r cx' : (forall t, ~ said PField (fs_attrs f) (SType t)) ->
      mention_returns E (fs_ty f) inline p cx r cx' -> field_ref E f inline p cx r cx'.

  (** the references of a list of fields, in order; [outer] requests inlining of all of them *)
  Inductive field_refs (E : env) (outer : bool) : list (field_syn ty) -> components -> list model_ref -> components -> Prop :=
  | frs_nil cx : field_refs E outer [] cx [] cx
  | frs_cons f fs cx b p r cx1 rs cx2 :
      flag_takes PField (fs_attrs f) SInline b -> params_said PField (fs_attrs f) p ->
      field_ref E f (outer || b) p cx r cx1 -> field_refs E outer fs cx1 rs cx2 ->
      field_refs E outer (f :: fs) cx (r :: rs) cx2.

  (** the last value given for a key *)
  Fixpoint last_value {V} (k : str) (l : list (str * V)) : option V :=
    match l with
    | [] => None
    | (k', v) :: l' => match last_value k l' with
                       | Some w => Some w
                       | None => if str_eq_dec k' k then Some v else None
                       end
    end.

  (** [m] is an object with exactly the serialised ones of the named fields [fs] as properties *)
  Definition object_schema (E : env) (outer : bool) (rule : rename_rule) (fs : list (field_syn ty))
    (cx : components) (m : model) (cx' : components) : Prop :=
    exists l rs o,
      serialised_fields rule 0 fs l /\
      field_refs E outer (map snd l) cx rs cx' /\
      object_of m = Some o /\
      bm_sorted (mo_properties o) /\
      (forall k, bm_get k (mo_properties o) = last_value k (combine (map fst l) rs)) /\
      required_names l (mo_required o) /\
      mo_additional o = None.

  (** [m] is an array whose items are one of the given references *)
  Definition tuple_schema (m : model) (rs : list model_ref) : Prop :=
    exists d, items_of m = Some (Inline (Model d (OneOf rs))) /\ d = None.

  (** [m] is a string schema with the given values, the first as example *)
  Definition names_schema (names : list str) (m : model) : Prop :=
    kind_of m = KString /\ enum_of m = Some names /\ example_of m = hd_error names /\ format_of m = None /\
    nullable_of m = Some false.

  (** ** Enum representations *)

  Definition unit_variant {A} (v : variant_syn A) : Prop := vs_fields v = FUnit.

  Inductive representation := RepExternal | RepUntagged | RepInternal (tag : str) | RepAdjacent (tag content : str).

  (** how serde's attributes select the representation; contradictory combinations count as external *)
  Inductive represents (l : list attribute) : representation -> Prop :=
  | rep_external : (forall t, ~ said (PContainer DkEnum) l (STag t)) -> (forall c, ~ said (PContainer DkEnum) l (SContent c)) ->
      ~ said (PContainer DkEnum) l SUntagged -> represents l RepExternal
  | rep_untagged : (forall t, ~ said (PContainer DkEnum) l (STag t)) -> (forall c, ~ said (PContainer DkEnum) l (SContent c)) ->
      said (PContainer DkEnum) l SUntagged -> represents l RepUntagged
  | rep_internal t : said (PContainer DkEnum) l (STag t) -> (forall c, ~ said (PContainer DkEnum) l (SContent c)) ->
      ~ said (PContainer DkEnum) l SUntagged -> represents l (RepInternal t)
  | rep_adjacent t c : said (PContainer DkEnum) l (STag t) -> said (PContainer DkEnum) l (SContent c) ->
      ~ said (PContainer DkEnum) l SUntagged -> represents l (RepAdjacent t c)
  | rep_tag_untagged t : said (PContainer DkEnum) l (STag t) -> said (PContainer DkEnum) l SUntagged -> represents l RepExternal
  | rep_content_untagged c : said (PContainer DkEnum) l (SContent c) -> said (PContainer DkEnum) l SUntagged ->
      represents l RepExternal
  | rep_content_only c : said (PContainer DkEnum) l (SContent c) -> (forall t, ~ said (PContainer DkEnum) l (STag t)) ->
      represents l RepExternal.

  (** ** Variants *)

  (** the payload of a newtype variant: its field, with the variant's parameters as fallback; inlined if
      the variant says so *)
  Definition newtype_payload (E : env) (v : variant_syn ty) (f : field_syn ty) (cx : components)
    (r : model_ref) (cx' : components) : Prop :=
    exists b p q, flag_takes PVariant (vs_attrs v) SInline b /\
      params_said PField (fs_attrs f) p /\ params_said PVariant (vs_attrs v) q /\
      field_ref E f b (completed_by p q) cx r cx'.

  (** an object schema for a variant with named fields *)
  Definition struct_payload (E : env) (v : variant_syn ty) (fs : list (field_syn ty)) (cx : components)
    (m : model) (cx' : components) : Prop :=
    exists b rule, flag_takes PVariant (vs_attrs v) SInline b /\ has_rule PVariant (vs_attrs v) rule /\
      takes PVariant (vs_attrs v) SDescription (m_description m) /\ nullable_of m = Some false /\
      object_schema E b rule fs cx m cx'.

  (** an array schema for a variant's fields, all of them, skipped or not *)
  Definition tuple_payload (E : env) (v : variant_syn ty) (fs : list (field_syn ty)) (cx : components)
    (m : model) (cx' : components) : Prop :=
    exists b rs, flag_takes PVariant (vs_attrs v) SInline b /\
      takes PVariant (vs_attrs v) SDescription (m_description m) /\ nullable_of m = Some false /\
      field_refs E b fs cx rs cx' /\ tuple_schema m rs.

  (** what an alternative of an enum looks like, by representation *)
  Inductive alternative (E : env) : representation -> str -> variant_syn ty -> components -> model_ref -> components -> Prop :=
  | alt_unit n v cx m : vs_fields v = FUnit -> names_schema [n] m ->
      takes PVariant (vs_attrs v) SDescription (m_description m) ->
      alternative E RepExternal n v cx (Inline m) cx
  | alt_newtype rep n v f cx r cx' : (forall t, rep <> RepInternal t) -> vs_fields v = FUnnamed [f] ->
      newtype_payload E v f cx r cx' -> alternative E rep n v cx r cx'
  | alt_tuple rep n v fs cx m cx' : rep = RepExternal \/ (exists t c, rep = RepAdjacent t c) ->
      vs_fields v = FUnnamed fs -> length fs <> 1 ->
      tuple_payload E v fs cx m cx' -> alternative E rep n v cx (Inline m) cx'
  | alt_struct rep n v fs cx m cx' : rep = RepExternal \/ rep = RepUntagged -> vs_fields v = FNamed fs ->
      struct_payload E v fs cx m cx' -> alternative E rep n v cx (Inline m) cx'
  | alt_struct_adjacent tag content n v fs cx m cx' : vs_fields v = FNamed fs ->
      tuple_payload E v fs cx m cx' -> alternative E (RepAdjacent tag content) n v cx (Inline m) cx'.

  (** the payload of an internally tagged variant, before the tag is added *)
  Inductive internal_payload (E : env) (v : variant_syn ty) (cx : components) : model -> components -> Prop :=
  | ip_unit m o : vs_fields v = FUnit -> takes PVariant (vs_attrs v) SDescription (m_description m) ->
      nullable_of m = Some false -> object_of m = Some o -> o = MObject [] None [] -> internal_payload E v cx m cx
  | ip_newtype f p q m0 cx' : vs_fields v = FUnnamed [f] ->
      params_said PField (fs_attrs f) p -> params_said PVariant (vs_attrs v) q ->
      schema_returns E (fs_ty f) cx m0 cx' ->
      internal_payload E v cx (apply_params (completed_by p q) m0) cx'
  | ip_struct fs m cx' : vs_fields v = FNamed fs -> struct_payload E v fs cx m cx' -> internal_payload E v cx m cx'.

  (** a list of alternatives, in order *)
  Inductive in_order {X R} (rel : X -> components -> R -> components -> Prop) : list X -> components -> list R -> components -> Prop :=
  | io_nil cx : in_order rel [] cx [] cx
  | io_cons x l cx r cx1 rs cx2 : rel x cx r cx1 -> in_order rel l cx1 rs cx2 -> in_order rel (x :: l) cx (r :: rs) cx2.

  (** one integer alternative per variant with a discriminant *)
  Inductive repr_alternatives {A} : list (str * variant_syn A) -> list model_ref -> Prop :=
  | ra_nil : repr_alternatives [] []
  | ra_explicit n v d m l rs : vs_discriminant v = Some d ->
      kind_of m = KInteger -> m_description m = Some (n ++ u " variant") -> example_of m = Some d ->
      format_of m = None -> nullable_of m = Some false ->
      repr_alternatives l rs -> repr_alternatives ((n, v) :: l) (Inline m :: rs)
  | ra_implicit n v l rs : vs_discriminant v = None -> repr_alternatives l rs -> repr_alternatives ((n, v) :: l) rs.

  (** [m'] is [m] with the tag added, or [m] itself if there is no place for a tag *)
  Inductive tagged (tag n : str) (m m' : model) : Prop :=
  | tg_added o o' t :
      object_of m = Some o -> bm_get tag (mo_properties o) = None ->
      object_of m' = Some o' ->
      bm_get tag (mo_properties o') = Some (Inline t) -> names_schema [n] t ->
      (forall k, k <> tag -> bm_get k (mo_properties o') = bm_get k (mo_properties o)) ->
      mo_required o' = mo_required o ++ [tag] -> mo_additional o' = mo_additional o ->
      m_description m' = m_description m -> nullable_of m' = nullable_of m -> tagged tag n m m'
  | tg_dropped : (forall o, object_of m = Some o -> bm_get tag (mo_properties o) <> None) -> m' = m -> tagged tag n m m'.

  (** the serialised variants of an enum, with their names *)
  Definition enum_variants (i : derive_input ty) (vs : list (variant_syn ty)) (l : list (str * variant_syn ty)) : Prop :=
    exists r, has_rule (PContainer DkEnum) (di_attrs i) r /\ serialised_variants r vs l.

  Definition alternative_of (E : env) (rep : representation) (nv : str * variant_syn ty) :=
    alternative E rep (fst nv) (snd nv).
  Definition internal_alternative (E : env) (tag : str) (nv : str * variant_syn ty) (cx : components) (r : model_ref)
    (cx' : components) : Prop :=
    exists m m', internal_payload E (snd nv) cx m cx' /\ r = Inline m' /\ tagged tag (fst nv) m m'.

  (** [n] is the name of one of the serialised fields *)
  Definition named_by (r : rename_rule) (fs : list (field_syn ty)) (n : str) : Prop :=
    exists k f, nth_error fs k = Some f /\ ~ field_skipped f /\ field_named r k f n.

  (** if the variant has named fields, [ref] is an inline object with exactly the serialised fields, named by
      the variant's own rule, and the [extra] names as properties *)
  Definition struct_alternative (nv : str * variant_syn ty) (extra : str -> Prop) (ref : model_ref) : Prop :=
    forall fs r, vs_fields (snd nv) = FNamed fs -> has_rule PVariant (vs_attrs (snd nv)) r ->
      exists am o, ref = Inline am /\ object_of am = Some o /\
        forall n, bm_get n (mo_properties o) <> None <-> named_by r fs n \/ extra n.

  (** [ref] is an inline object with the required property [tag] that can only have the value [n] *)
  Definition carries_tag (tag n : str) (ref : model_ref) : Prop :=
    exists am o t, ref = Inline am /\ object_of am = Some o /\ bm_get tag (mo_properties o) = Some (Inline t) /\
      names_schema [n] t /\ In tag (mo_required o).

  (** ** Acceptability of a whole input *)

  Definition fields_list {A} (f : fields_syn A) : list (field_syn A) :=
    match f with FNamed l | FUnnamed l => l | FUnit => [] end.

  Definition fields_acceptable {A} (f : fields_syn A) : Prop :=
    forall x, In x (fields_list f) -> acceptable pe pp PField (fs_attrs x).
  Definition variant_acceptable {A} (v : variant_syn A) : Prop :=
    acceptable pe pp PVariant (vs_attrs v) /\ fields_acceptable (vs_fields v).

  (** what shape an item has, for the attributes whose meaning depends on it *)
  Definition shape {A} (d : data_syn A) : data_kind :=
    match d with DaEnum _ => DkEnum | DaStruct (FNamed _) => DkNamed | _ => DkOther end.

  (** the attribute lists of an input, with their positions *)
  Inductive attrs_at {A} (i : derive_input A) : position -> list attribute -> Prop :=
  | aa_container : attrs_at i (PContainer (shape (di_data i))) (di_attrs i)
  | aa_variant vs v : di_data i = DaEnum vs -> In v vs -> attrs_at i PVariant (vs_attrs v)
  | aa_variant_field vs v f : di_data i = DaEnum vs -> In v vs -> In f (fields_list (vs_fields v)) ->
      attrs_at i PField (fs_attrs f)
  | aa_field fs f : di_data i = DaStruct fs -> In f (fields_list fs) -> attrs_at i PField (fs_attrs f).

  Definition attributes_acceptable {A} (i : derive_input A) : Prop :=
    forall pos l, attrs_at i pos l -> acceptable pe pp pos l.

  (** mixed explicit and implicit discriminants *)
  Definition mixed_discriminants {A} (vs : list (variant_syn A)) : Prop :=
    exists v w d, In v vs /\ In w vs /\ vs_discriminant v = Some d /\ vs_discriminant w = None.

  (** shapes that are not supported *)
  Inductive unsupported {A} (i : derive_input A) : Prop :=
  | un_union : di_data i = DaUnion -> unsupported i
  | un_unit_struct : di_data i = DaStruct FUnit -> unsupported i
  | un_untagged_units vs : di_data i = DaEnum vs -> (forall v, In v vs -> unit_variant v) ->
      represents (di_attrs i) RepUntagged -> unsupported i
  | un_discriminants vs : di_data i = DaEnum vs -> mixed_discriminants vs -> unsupported i.

  (** a name that camelCase cannot lower-case: no first character of one byte, after leading underscores
      have been dropped for fields *)
  Definition no_camel_variant (s : str) : Prop := ~ exists c rest, s = c :: rest /\ (c < 128)%N.
  Definition no_camel_field (s : str) : Prop :=
    ~ exists us c rest, s = us ++ c :: rest /\ Forall (fun x => x = c_underscore) us /\ c <> c_underscore /\ (c < 128)%N.

  Definition field_unnameable {A} (rule : rename_rule) (index : nat) (f : field_syn A) : Prop :=
    rule = RCamelCase /\ (forall m, ~ said PField (fs_attrs f) (SRename m)) /\ no_camel_field (source_name index f).
  Definition variant_unnameable {A} (rule : rename_rule) (v : variant_syn A) : Prop :=
    rule = RCamelCase /\ (forall m, ~ said PVariant (vs_attrs v) (SRename m)) /\ no_camel_variant (unraw (vs_ident v)).

  (** some member, skipped or not, cannot be renamed as requested *)
  Inductive unnameable {A} (i : derive_input A) : Prop :=
  | unn_variant vs v r : di_data i = DaEnum vs -> In v vs -> has_rule (PContainer DkEnum) (di_attrs i) r ->
      variant_unnameable r v -> unnameable i
  | unn_variant_field vs v k f r : di_data i = DaEnum vs -> In v vs -> has_rule PVariant (vs_attrs v) r ->
      nth_error (fields_list (vs_fields v)) k = Some f -> field_unnameable r k f -> unnameable i
  | unn_field fs k f r : di_data i = DaStruct fs -> has_rule (PContainer (shape (di_data i))) (di_attrs i) r ->
      nth_error (fields_list fs) k = Some f -> field_unnameable r k f -> unnameable i.

  (** some identifier of the input is out of the ordinary: a variant not starting with an ASCII character, or
      a field without an ASCII character after the leading underscores *)
  Definition odd_field {A} (index : nat) (f : field_syn A) : Prop := no_camel_field (source_name index f).
  Inductive odd_name {A} (i : derive_input A) : Prop :=
  | odd_variant vs v : di_data i = DaEnum vs -> In v vs -> no_camel_variant (unraw (vs_ident v)) -> odd_name i
  | odd_variant_field vs v k f : di_data i = DaEnum vs -> In v vs -> nth_error (fields_list (vs_fields v)) k = Some f ->
      odd_field k f -> odd_name i
  | odd_struct_field fs k f : di_data i = DaStruct fs -> nth_error (fields_list fs) k = Some f -> odd_field k f -> odd_name i.

  (** combinations for which the derive has no description *)
  Inductive undescribed (i : derive_input ty) : Prop :=
  | ud_untagged vs v : di_data i = DaEnum vs -> represents (di_attrs i) RepUntagged -> In v vs -> ~ variant_skipped v ->
      (vs_fields v = FUnit \/ exists fs, vs_fields v = FUnnamed fs /\ length fs <> 1) -> undescribed i
  | ud_adjacent vs v w t c : di_data i = DaEnum vs -> represents (di_attrs i) (RepAdjacent t c) ->
      In w vs -> ~ unit_variant w -> In v vs -> ~ variant_skipped v -> unit_variant v -> undescribed i
  | ud_internal vs v t fs : di_data i = DaEnum vs -> represents (di_attrs i) (RepInternal t) ->
      In v vs -> ~ variant_skipped v -> vs_fields v = FUnnamed fs -> length fs <> 1 -> undescribed i
  | ud_newtype_any f : di_data i = DaStruct (FUnnamed [f]) -> said (PContainer DkOther) (di_attrs i) (SType ETAny) ->
      undescribed i.
  (** ** Inputs that differ only in parts that should not matter

      With [drop], members marked to be skipped may be missing from the second input; with [retype], fields
      with an explicit type flag may have another Rust type. *)
  Section Differ.
    Variable drop retype : Prop.

    Inductive fields_differ (droppable : Prop) : list (field_syn ty) -> list (field_syn ty) -> Prop :=
    | fd_nil : fields_differ droppable [] []
    | fd_keep f fs1 fs2 : fields_differ droppable fs1 fs2 -> fields_differ droppable (f :: fs1) (f :: fs2)
    | fd_drop f fs1 fs2 : drop -> droppable -> field_skipped f -> fields_differ droppable fs1 fs2 ->
        fields_differ droppable (f :: fs1) fs2
    | fd_retype l i t1 t2 x fs1 fs2 : retype -> said PField l (SType x) -> fields_differ droppable fs1 fs2 ->
        fields_differ droppable (Build_field_syn l i t1 :: fs1) (Build_field_syn l i t2 :: fs2).

    (** the fields of a struct or variant; [droppable]: skipped named fields may be dropped; [direct]: the
        type of a single unnamed field counts even if it is flagged *)
    Inductive payload_differs (droppable direct : Prop) : fields_syn ty -> fields_syn ty -> Prop :=
    | pd_named fs1 fs2 : Forall (fun f => fs_ident f <> None) fs1 -> fields_differ droppable fs1 fs2 ->
        payload_differs droppable direct (FNamed fs1) (FNamed fs2)
    | pd_unnamed fs1 fs2 : length fs1 <> 1 \/ ~ direct -> fields_differ False fs1 fs2 ->
        payload_differs droppable direct (FUnnamed fs1) (FUnnamed fs2)
    | pd_same f : payload_differs droppable direct f f.

    Inductive variants_differ (droppable direct : Prop) : list (variant_syn ty) -> list (variant_syn ty) -> Prop :=
    | vd_nil : variants_differ droppable direct [] []
    | vd_keep l i f1 f2 d vs1 vs2 : payload_differs droppable direct f1 f2 -> variants_differ droppable direct vs1 vs2 ->
        variants_differ droppable direct (Build_variant_syn l i f1 d :: vs1) (Build_variant_syn l i f2 d :: vs2)
    | vd_drop v vs1 vs2 : drop -> variant_skipped v -> variants_differ droppable direct vs1 vs2 ->
        variants_differ droppable direct (v :: vs1) vs2.

    Inductive inputs_differ : derive_input ty -> derive_input ty -> Prop :=
    | id_struct l i f1 f2 : payload_differs True True f1 f2 ->
        inputs_differ (Build_derive_input l i (DaStruct f1)) (Build_derive_input l i (DaStruct f2))
    (** a newtype struct that is flagged itself *)
    | id_newtype l i lf n t1 t2 x : retype -> said (PContainer DkOther) l (SType x) ->
        inputs_differ (Build_derive_input l i (DaStruct (FUnnamed [Build_field_syn lf n t1])))
                      (Build_derive_input l i (DaStruct (FUnnamed [Build_field_syn lf n t2])))
    (** an enum; fields of adjacently tagged variants may not be dropped, types of single fields of internally
        tagged variants not changed; what is dropped must not change whether all variants are unit *)
    | id_enum l i vs1 vs2 rep : represents l rep ->
        variants_differ (forall t c, rep <> RepAdjacent t c) (exists t, rep = RepInternal t) vs1 vs2 ->
        (forall v, In v vs1 -> unit_variant v) \/ (exists v, In v vs2 /\ ~ unit_variant v) ->
        inputs_differ (Build_derive_input l i (DaEnum vs1)) (Build_derive_input l i (DaEnum vs2)).
  End Differ.
End Spec.

(** ** Inputs that differ in some of their attribute lists *)
Section Rel.
  Context {A : Type}.
  Variable R : position -> list attribute -> list attribute -> Prop.

  Inductive field_rel : field_syn A -> field_syn A -> Prop :=
  | field_rel_intro l1 l2 i t : R PField l1 l2 -> field_rel (Build_field_syn l1 i t) (Build_field_syn l2 i t).
  Inductive fields_rel : fields_syn A -> fields_syn A -> Prop :=
  | fields_rel_named fs1 fs2 : Forall2 field_rel fs1 fs2 -> fields_rel (FNamed fs1) (FNamed fs2)
  | fields_rel_unnamed fs1 fs2 : Forall2 field_rel fs1 fs2 -> fields_rel (FUnnamed fs1) (FUnnamed fs2)
  | fields_rel_unit : fields_rel FUnit FUnit.
  Inductive variant_rel : variant_syn A -> variant_syn A -> Prop :=
  | variant_rel_intro l1 l2 i f1 f2 d : R PVariant l1 l2 -> fields_rel f1 f2 ->
      variant_rel (Build_variant_syn l1 i f1 d) (Build_variant_syn l2 i f2 d).
  Inductive data_rel : data_syn A -> data_syn A -> Prop :=
  | data_rel_enum vs1 vs2 : Forall2 variant_rel vs1 vs2 -> data_rel (DaEnum vs1) (DaEnum vs2)
  | data_rel_struct f1 f2 : fields_rel f1 f2 -> data_rel (DaStruct f1) (DaStruct f2)
  | data_rel_union : data_rel DaUnion DaUnion.
  (** the attribute lists of the two inputs are related by [R] everywhere; all else is equal *)
  Inductive input_rel : derive_input A -> derive_input A -> Prop :=
  | input_rel_intro l1 l2 i d1 d2 : R (PContainer (shape d1)) l1 l2 -> data_rel d1 d2 ->
      input_rel (Build_derive_input l1 i d1) (Build_derive_input l2 i d2).
End Rel.
