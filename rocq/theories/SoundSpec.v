(** What serde writes for a value of a type, and which JSON a schema accepts.

    Neither relation uses the functions of Gen.v, Ast.v or Derive.v: [emits] follows the documentation of
    serde's derive in terms of what an input's attributes say (AttrSpec.v, DeriveSpec.v), [valid] follows the
    OpenAPI 3.0 schema object. *)
From Verif Require Import Attr AttrSpec Ast Derive DeriveSpec Schema SchemaSpec Gen GenSpec.
From Coq Require Import ZArith.

(** ** JSON *)

(** Numbers are integers or texts with a fraction or exponent.  Members of objects are in textual order;
    names may repeat. *)
Inductive json :=
| JNull
| JBool (b : bool)
| JInt (z : Z)
| JFloat (text : str)
| JStr (s : str)
| JArr (l : list json)
| JObj (l : list (str * json)).

Definition keys (l : list (str * json)) : list str := map fst l.

(** ** Validation *)

(** [r] accepts [j], with links resolved in [S].  [format], [example] and [description] do not restrict;
    [nullable] admits null; members not listed are only restricted by [additionalProperties]; a [oneOf] is
    read as "at least one" (see [exactly_one] for the strict reading). *)
Inductive valid (S : bmap str model) : model_ref -> json -> Prop :=
| va_any j : valid S Any j
| va_link n m j : bm_get n S = Some m -> valid_model S m j -> valid S (Link n) j
| va_inline m j : valid_model S m j -> valid S (Inline m) j
with valid_model (S : bmap str model) : model -> json -> Prop :=
| vm_null d td : valid_model S (Model d (Single (MType true td))) JNull
| vm_string d n s x : (forall vs, mst_variants s = Some vs -> In x vs) ->
    valid_model S (Model d (Single (MType n (TdString s)))) (JStr x)
| vm_integer d n s z : valid_model S (Model d (Single (MType n (TdInteger s)))) (JInt z)
| vm_number_int d n s z : valid_model S (Model d (Single (MType n (TdNumber s)))) (JInt z)
| vm_number d n s x : valid_model S (Model d (Single (MType n (TdNumber s)))) (JFloat x)
| vm_boolean d n b : valid_model S (Model d (Single (MType n TdBoolean))) (JBool b)
| vm_array d n items l : (forall j, In j l -> valid S items j) ->
    valid_model S (Model d (Single (MType n (TdArray items)))) (JArr l)
| vm_object d n props add req l :
    (forall k, In k req -> In k (keys l)) ->
    (forall k j r, In (k, j) l -> bm_get k props = Some r -> valid S r j) ->
    (forall k j r, In (k, j) l -> bm_get k props = None -> add = Some r -> valid S r j) ->
    valid_model S (Model d (Single (MType n (TdObject (MObject props add req))))) (JObj l)
| vm_oneof d l r j : In r l -> valid S r j -> valid_model S (Model d (OneOf l)) j
| vm_anyof d l r j : In r l -> valid S r j -> valid_model S (Model d (AnyOf l)) j
| vm_allof d l j : (forall r, In r l -> valid S r j) -> valid_model S (Model d (AllOf l)) j.

(** the strict reading of a [oneOf]: one alternative accepts, and no other does *)
Definition exactly_one (S : bmap str model) (l : list model_ref) (j : json) : Prop :=
  exists l1 r l2, l = l1 ++ r :: l2 /\ valid S r j /\ forall r', In r' (l1 ++ l2) -> ~ valid S r' j.

(** ** Built-in types *)

(** signedness and width of the integer types; [isize] and [usize] are taken to have 64 bits *)
Definition int_type (p : prim) : option (bool * Z) :=
  match p with
  | PI8 | PAtomicI8 => Some (true, 8)
  | PU8 | PAtomicU8 => Some (false, 8)
  | PI16 | PAtomicI16 => Some (true, 16)
  | PU16 | PAtomicU16 => Some (false, 16)
  | PI32 | PAtomicI32 => Some (true, 32)
  | PU32 | PAtomicU32 => Some (false, 32)
  | PI64 | PAtomicI64 | PIsize | PAtomicIsize => Some (true, 64)
  | PU64 | PAtomicU64 | PUsize | PAtomicUsize => Some (false, 64)
  | _ => None
  end%Z.
Definition in_range (signed : bool) (bits z : Z) : Prop :=
  if signed then (- 2 ^ (bits - 1) <= z < 2 ^ (bits - 1))%Z else (0 <= z < 2 ^ bits)%Z.

(** what serde_json writes for a value of a built-in type; floats are finite (others are written as null) *)
Inductive prim_emits : prim -> json -> Prop :=
| pm_char c : prim_emits PChar (JStr [c])
| pm_text p s : In p [PStr; PString; PUuid; PNaiveDateTime; PDateTime; PNaiveDate] -> prim_emits p (JStr s)
| pm_int p signed bits z : int_type p = Some (signed, bits) -> in_range signed bits z -> prim_emits p (JInt z)
| pm_float p x : p = PF32 \/ p = PF64 -> prim_emits p (JFloat x)
| pm_bool p b : p = PBool \/ p = PAtomicBool -> prim_emits p (JBool b)
| pm_unit : prim_emits PUnit JNull.

(** the JSON values a type flag ([string], [integer], ...) stands for *)
Definition of_kind (t : explicit_type) (j : json) : Prop :=
  match t, j with
  | ETString, JStr _ | ETInteger, JInt _ | ETNumber, JInt _ | ETNumber, JFloat _ | ETBoolean, JBool _ => True
  | ETAny, _ => True
  | _, _ => False
  end.

(** ** Derived types *)

Section Serde.
  Variable pe pp : str -> bool.
  Variable uni : N -> bool.
  (** the value of a discriminant expression *)
  Variable disc : str -> Z.
  (** the source of each nominal type *)
  Variable D : tid -> derive_input ty.
  Notation said := (said pe pp).

  (** an enum written as an integer (serde_repr): [#[repr(..)]] with unit variants only *)
  Definition written_as_int (i : derive_input ty) (vs : list (variant_syn ty)) : Prop :=
    said (PContainer DkEnum) (di_attrs i) SRepr /\ forall v, In v vs -> unit_variant v.

  (** the discriminants of the variants: as given, or one more than that of the variant before *)
  Fixpoint discriminants (next : Z) (vs : list (variant_syn ty)) : list (variant_syn ty * Z) :=
    match vs with
    | [] => []
    | v :: vs' =>
        let z := match vs_discriminant v with Some d => disc d | None => next end in
        (v, z) :: discriminants (z + 1) vs'
    end.

  (** the enum [i] is represented by [rep], and [v], named [n], is one of its serialised variants *)
  Definition enum_variant (i : derive_input ty) (rep : representation) (n : str) (v : variant_syn ty) : Prop :=
    exists vs l, di_data i = DaEnum vs /\ ~ written_as_int i vs /\ represents pe pp (di_attrs i) rep /\
      enum_variants pe pp uni i vs l /\ In (n, v) l.

  (** the struct [i] is [transparent], and [f] is its one serialised field *)
  Definition transparent_field (i : derive_input ty) (f : field_syn ty) : Prop :=
    exists fs kind, di_data i = DaStruct fs /\ kind = match fs with FNamed _ => DkNamed | _ => DkOther end /\
      said (PContainer kind) (di_attrs i) STransparent /\ In f (fields_list fs) /\ ~ field_skipped pe pp f /\
      forall f', In f' (fields_list fs) -> ~ field_skipped pe pp f' -> f' = f.

  (** the name of the struct [i], as serde writes it *)
  Definition struct_named (i : derive_input ty) (n : str) : Prop :=
    said (PContainer DkNamed) (di_attrs i) (SRename n) \/
    (forall m, ~ said (PContainer DkNamed) (di_attrs i) (SRename m)) /\ n = unraw (di_ident i).

  (** the members that a flattened field written as [j] adds: those of the object, none for [None] *)
  Definition flattened (j : json) (ms : list (str * json)) : Prop := j = JObj ms \/ j = JNull /\ ms = [].

  (** [emits t j]: serde_json writes [j] for some value of type [t].
      Of serde's attributes, those have their meaning that opg reads: [rename], [rename_all], [skip],
      [skip_serializing], [skip_serializing_if], [tag], [content], [untagged], [transparent] and [flatten]. *)
  Inductive emits : ty -> json -> Prop :=
  | em_prim p j : prim_emits p j -> emits (TPrim p) j
  | em_wrap w t j : w <> WTuple1 -> emits t j -> emits (TWrap w t) j
  | em_tuple1 t j : emits t j -> emits (TWrap WTuple1 t) (JArr [j])
  | em_none t : emits (TOption t) JNull
  | em_some t j : emits t j -> emits (TOption t) j
  | em_tuple ts l : emits_each ts l -> emits (TTuple ts) (JArr l)
  | em_seq k t l : emits_list t l -> (forall n, k = KArray n -> N.of_nat (length l) = n) -> emits (TSeq k t) (JArr l)
  | em_dict k t l : emits_values t l -> NoDup (keys l) -> emits (TDict k t) (JObj l)
  | em_struct id fs rule l ms : di_data (D id) = DaStruct (FNamed fs) ->
      ~ said (PContainer DkNamed) (di_attrs (D id)) STransparent ->
      (forall t, ~ said (PContainer DkNamed) (di_attrs (D id)) (STag t)) ->
      has_rule pe pp (PContainer DkNamed) (di_attrs (D id)) rule -> serialised_fields pe pp rule 0 fs l ->
      emits_fields l ms -> emits (TNamed id) (JObj ms)
  | em_struct_tagged id fs rule l ms tag n : di_data (D id) = DaStruct (FNamed fs) ->
      ~ said (PContainer DkNamed) (di_attrs (D id)) STransparent ->
      said (PContainer DkNamed) (di_attrs (D id)) (STag tag) -> struct_named (D id) n ->
      has_rule pe pp (PContainer DkNamed) (di_attrs (D id)) rule -> serialised_fields pe pp rule 0 fs l ->
      emits_fields l ms -> emits (TNamed id) (JObj ((tag, JStr n) :: ms))
  | em_tuple_struct id fs l : di_data (D id) = DaStruct (FUnnamed fs) -> length fs <> 1 ->
      ~ said (PContainer DkOther) (di_attrs (D id)) STransparent ->
      emits_unnamed fs l -> emits (TNamed id) (JArr l)
  | em_transparent id f j : transparent_field (D id) f -> emits (fs_ty f) j -> emits (TNamed id) j
  | em_newtype id f j : di_data (D id) = DaStruct (FUnnamed [f]) -> emits (fs_ty f) j -> emits (TNamed id) j
  | em_repr id vs l n v z : di_data (D id) = DaEnum vs -> written_as_int (D id) vs ->
      enum_variants pe pp uni (D id) vs l -> In (n, v) l -> In (v, z) (discriminants 0 vs) -> emits (TNamed id) (JInt z)
  | em_external_unit id n v : enum_variant (D id) RepExternal n v -> unit_variant v -> emits (TNamed id) (JStr n)
  | em_external id n v j : enum_variant (D id) RepExternal n v -> emits_payload v j -> emits (TNamed id) (JObj [(n, j)])
  | em_untagged_unit id n v : enum_variant (D id) RepUntagged n v -> unit_variant v -> emits (TNamed id) JNull
  | em_untagged id n v j : enum_variant (D id) RepUntagged n v -> emits_payload v j -> emits (TNamed id) j
  | em_internal_unit id tag n v : enum_variant (D id) (RepInternal tag) n v -> unit_variant v ->
      emits (TNamed id) (JObj [(tag, JStr n)])
  | em_internal id tag n v ms : enum_variant (D id) (RepInternal tag) n v -> emits_payload v (JObj ms) ->
      ~ In tag (keys ms) -> emits (TNamed id) (JObj ((tag, JStr n) :: ms))
  | em_adjacent_unit id tag content n v : enum_variant (D id) (RepAdjacent tag content) n v -> unit_variant v ->
      emits (TNamed id) (JObj [(tag, JStr n)])
  | em_adjacent id tag content n v j : enum_variant (D id) (RepAdjacent tag content) n v -> emits_payload v j ->
      emits (TNamed id) (JObj [(tag, JStr n); (content, j)])
  (** what a variant carries *)
  with emits_payload : variant_syn ty -> json -> Prop :=
  | ep_newtype v f j : vs_fields v = FUnnamed [f] -> emits (fs_ty f) j -> emits_payload v j
  | ep_tuple v fs l : vs_fields v = FUnnamed fs -> length fs <> 1 -> emits_unnamed fs l -> emits_payload v (JArr l)
  | ep_struct v fs rule l ms : vs_fields v = FNamed fs -> has_rule pe pp PVariant (vs_attrs v) rule ->
      serialised_fields pe pp rule 0 fs l -> emits_fields l ms -> emits_payload v (JObj ms)
  (** named fields, in order; those with [skip_serializing_if] may be left out; the members of those with [flatten]
      are put in their place *)
  with emits_fields : list (str * field_syn ty) -> list (str * json) -> Prop :=
  | ef_nil : emits_fields [] []
  | ef_omit n f l ms : said PField (fs_attrs f) SSkipIf -> emits_fields l ms -> emits_fields ((n, f) :: l) ms
  | ef_emit n f l j ms : ~ said PField (fs_attrs f) SFlatten -> emits (fs_ty f) j -> emits_fields l ms ->
      emits_fields ((n, f) :: l) ((n, j) :: ms)
  | ef_flatten n f l j ms' ms : said PField (fs_attrs f) SFlatten -> emits (fs_ty f) j -> flattened j ms' -> emits_fields l ms ->
      emits_fields ((n, f) :: l) (ms' ++ ms)
  (** unnamed fields *)
  with emits_unnamed : list (field_syn ty) -> list json -> Prop :=
  | eu_nil : emits_unnamed [] []
  | eu_omit f fs l : field_skipped pe pp f \/ said PField (fs_attrs f) SSkipIf -> emits_unnamed fs l -> emits_unnamed (f :: fs) l
  | eu_emit f fs j l : ~ field_skipped pe pp f -> emits (fs_ty f) j -> emits_unnamed fs l -> emits_unnamed (f :: fs) (j :: l)
  with emits_each : list ty -> list json -> Prop :=
  | ee_nil : emits_each [] []
  | ee_cons t ts j l : emits t j -> emits_each ts l -> emits_each (t :: ts) (j :: l)
  with emits_list : ty -> list json -> Prop :=
  | el_nil t : emits_list t []
  | el_cons t j l : emits t j -> emits_list t l -> emits_list t (j :: l)
  with emits_values : ty -> list (str * json) -> Prop :=
  | ev_nil t : emits_values t []
  | ev_cons t k j l : emits t j -> emits_values t l -> emits_values t ((k, j) :: l).

End Serde.

(** ** The types a type's JSON is made of *)

Section Supported.
  Variable pe pp : str -> bool.
  Variable uni : N -> bool.
  Variable D : tid -> derive_input ty.
  Notation said := (said pe pp).
  Notation written_as_int := (written_as_int pe pp).

  Definition member_field (i : derive_input ty) (f : field_syn ty) : Prop :=
    ~ field_skipped pe pp f /\
    match di_data i with
    | DaStruct fs => In f (fields_list fs)
    | DaEnum vs => exists v, In v vs /\ ~ variant_skipped pe pp v /\ In f (fields_list (vs_fields v))
    | DaUnion => False
    end.

  Inductive directly_inside : ty -> ty -> Prop :=
  | di_wrap w t : directly_inside (TWrap w t) t
  | di_option t : directly_inside (TOption t) t
  | di_tuple ts t : In t ts -> directly_inside (TTuple ts) t
  | di_seq k t : directly_inside (TSeq k t) t
  | di_dict k t : directly_inside (TDict k t) t
  | di_field id f : member_field (D id) f -> directly_inside (TNamed id) (fs_ty f).
  Inductive inside (t : ty) : ty -> Prop :=
  | in_self : inside t t
  | in_step t1 t2 : inside t t1 -> directly_inside t1 t2 -> inside t t2.

  (** ** The inputs that are described as serde writes them *)

  (** types whose values are all written as JSON of the kind [k], or as null if [null] *)
  Inductive always (null : Prop) (k : explicit_type) : ty -> Prop :=
  | al_prim p : (forall j, prim_emits p j -> of_kind k j) -> always null k (TPrim p)
  | al_wrap w t : w <> WTuple1 -> always null k t -> always null k (TWrap w t)
  | al_option t : null -> always null k t -> always null k (TOption t)
  | al_newtype id f : di_data (D id) = DaStruct (FUnnamed [f]) -> always null k (fs_ty f) -> always null k (TNamed id)
  | al_units id vs : k = ETString -> di_data (D id) = DaEnum vs -> (forall v, In v vs -> unit_variant v) ->
      ~ said (PContainer DkEnum) (di_attrs (D id)) SRepr -> represents pe pp (di_attrs (D id)) RepExternal ->
      always null k (TNamed id)
  | al_ints id vs : k = ETInteger \/ k = ETNumber -> di_data (D id) = DaEnum vs -> written_as_int (D id) vs ->
      always null k (TNamed id).

  (** no flattening, and no type flag other than [any] and those that suit the type *)
  Definition field_plain (f : field_syn ty) : Prop :=
    ~ said PField (fs_attrs f) SFlatten /\
    forall t, said PField (fs_attrs f) (SType t) -> t = ETAny \/ always (said PField (fs_attrs f) SNullable) t (fs_ty f).

  (** the serialised ones of named fields are plain and have different names, [avoid] not among them *)
  Definition members_plain (pos : position) (attrs : list attribute) (fs : list (field_syn ty)) (avoid : str -> Prop) : Prop :=
    forall rule l, has_rule pe pp pos attrs rule -> serialised_fields pe pp rule 0 fs l ->
      NoDup (map fst l) /\ (forall n f, In (n, f) l -> field_plain f /\ ~ avoid n).

  (** what is flattened for a value of type [t] has no other members than [P] *)
  Definition members_among (P : str -> Prop) (t : ty) : Prop :=
    forall uni disc j ms k, emits pe pp uni disc D t j -> flattened j ms -> In k (keys ms) -> P k.

  (** types written as objects that never have a member [tag] described: dictionaries, and structs without a
      field of that name *)
  Inductive taggable (tag : str) : ty -> Prop :=
  | tb_wrap w t : taggable tag t -> taggable tag (TWrap w t)
  | tb_dict k t : taggable tag (TDict k t)
  | tb_struct id fs : di_data (D id) = DaStruct (FNamed fs) ->
      (forall rule l, has_rule pe pp (PContainer DkNamed) (di_attrs (D id)) rule -> serialised_fields pe pp rule 0 fs l ->
         ~ In tag (map fst l)) -> taggable tag (TNamed id).

  (** whether members may be written that are not described (C79): the tags of structs, and what flattened fields add *)
  Variable tags : Prop.

  (** the flattened field [f] beside the fields [l]: not required, and written with members that have none of
      the names of the others *)
  Definition flattened_apart (l : list (str * field_syn ty)) (f : field_syn ty) : Prop :=
    tags /\ said PField (fs_attrs f) SFlatten /\ (said PField (fs_attrs f) SSkipIf \/ said PField (fs_attrs f) SOptional) /\
    members_among (fun k => ~ In k (map fst l)) (fs_ty f).
  (** as [members_plain], with flattened fields *)
  Definition members_described (pos : position) (attrs : list attribute) (fs : list (field_syn ty)) (avoid : str -> Prop) : Prop :=
    forall rule l, has_rule pe pp pos attrs rule -> serialised_fields pe pp rule 0 fs l ->
      NoDup (map fst l) /\ (forall n f, In (n, f) l -> (field_plain f \/ flattened_apart l f) /\ ~ avoid n).

  Definition variant_supported (rep : representation) (v : variant_syn ty) : Prop :=
    match vs_fields v with
    | FUnit => exists tag, rep = RepInternal tag
    | FUnnamed [f] => ~ field_skipped pe pp f /\ field_plain f /\ (forall tag, rep = RepInternal tag -> taggable tag (fs_ty f))
    | FUnnamed fs => forall f, In f fs -> ~ field_skipped pe pp f -> field_plain f
    | FNamed fs => (forall t c, rep <> RepAdjacent t c) /\
        members_described PVariant (vs_attrs v) fs (fun n => rep = RepInternal n)
    end.

  Inductive input_supported (i : derive_input ty) : Prop :=
  | is_struct fs : di_data i = DaStruct (FNamed fs) ->
      ~ said (PContainer DkNamed) (di_attrs i) STransparent -> (forall t, said (PContainer DkNamed) (di_attrs i) (STag t) -> tags) ->
      members_described (PContainer DkNamed) (di_attrs i) fs (fun n => said (PContainer DkNamed) (di_attrs i) (STag n)) -> input_supported i
  | is_tuple fs : di_data i = DaStruct (FUnnamed fs) -> length fs <> 1 ->
      ~ said (PContainer DkOther) (di_attrs i) STransparent ->
      (forall f, In f fs -> ~ field_skipped pe pp f -> field_plain f) -> input_supported i
  | is_newtype f : di_data i = DaStruct (FUnnamed [f]) -> ~ field_skipped pe pp f -> field_plain f ->
      (forall t, said (PContainer DkOther) (di_attrs i) (SType t) ->
         always (said (PContainer DkOther) (di_attrs i) SNullable) t (fs_ty f)) -> input_supported i
  | is_units vs : di_data i = DaEnum vs -> (forall v, In v vs -> unit_variant v) ->
      ~ said (PContainer DkEnum) (di_attrs i) SRepr -> represents pe pp (di_attrs i) RepExternal -> input_supported i
  | is_ints vs : di_data i = DaEnum vs -> written_as_int i vs ->
      (forall v, In v vs -> vs_discriminant v <> None) -> input_supported i
  | is_enum vs w rep : di_data i = DaEnum vs -> In w vs -> ~ unit_variant w ->
      represents pe pp (di_attrs i) rep -> (forall t c, rep = RepAdjacent t c -> t <> c) ->
      (forall v, In v vs -> ~ variant_skipped pe pp v -> variant_supported rep v) -> input_supported i.

  (** types whose schema can be marked nullable: all but those described by alternatives *)
  Inductive single : ty -> Prop :=
  | si_prim p : single (TPrim p)
  | si_tuple ts : single (TTuple ts)
  | si_seq k t : single (TSeq k t)
  | si_dict k t : single (TDict k t)
  | si_wrap w t : single t -> single (TWrap w t)
  | si_option t : single t -> single (TOption t)
  | si_struct id fs : di_data (D id) = DaStruct (FNamed fs) -> single (TNamed id)
  | si_tuple_struct id fs : di_data (D id) = DaStruct (FUnnamed fs) -> length fs <> 1 -> single (TNamed id)
  | si_newtype id f : di_data (D id) = DaStruct (FUnnamed [f]) -> single (fs_ty f) -> single (TNamed id)
  | si_units id vs : di_data (D id) = DaEnum vs -> (forall v, In v vs -> unit_variant v) ->
      ~ said (PContainer DkEnum) (di_attrs (D id)) SRepr -> single (TNamed id)
  | si_external id vs w : di_data (D id) = DaEnum vs -> In w vs -> ~ unit_variant w ->
      represents pe pp (di_attrs (D id)) RepExternal -> single (TNamed id)
  | si_adjacent id vs w t c : di_data (D id) = DaEnum vs -> In w vs -> ~ unit_variant w ->
      represents pe pp (di_attrs (D id)) (RepAdjacent t c) -> single (TNamed id).

  Definition supported (t : ty) : Prop :=
    match t with
    | TWrap WTuple1 _ => False
    | TOption t' => single t'
    | TNamed id => input_supported (D id)
    | _ => True
    end.

  (** everything [t]'s JSON is made of is supported *)
  Definition supported_inside (t : ty) : Prop := forall t', inside t t' -> supported t'.

  (** the impls of the nominal types in [t] are those the derive gives for their sources *)
  Definition derived_inside (ev : str -> str) (E : env) (t : ty) : Prop :=
    forall id, inside t (TNamed id) -> derive pe pp uni ev (D id) = DOk (E id).
End Supported.

(** parameters that do not restrict: no list of values, not explicitly not nullable *)
Definition harmless (p : params) : Prop := p_variants p = None /\ p_nullable p <> Some false.

(** serde writes [j] for a value of [t], whose parts are all derived, and the schema of [t] does not accept it *)
Definition misdescribed pe pp uni ev disc (D : tid -> derive_input ty) (E : env) (t : ty) (j : json) : Prop :=
  derived_inside pe pp uni D ev E t /\ emits pe pp uni disc D t j /\
  exists m cx, schema_returns E t cx_new m cx /\ ~ valid_model (cx_schemas cx) m j.
