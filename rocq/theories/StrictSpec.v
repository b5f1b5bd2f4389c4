(** The strict reading of [oneOf], as OpenAPI 3.0 has it: exactly one alternative accepts. *)
From Verif Require Import Attr AttrSpec Ast Derive DeriveSpec Schema SchemaSpec Gen GenSpec SoundSpec.

(** ** Accepting and rejecting *)

(** the JSON values a type description is about, null aside *)
Definition kind_matches (td : type_desc) (j : json) : Prop :=
  match td, j with
  | TdString _, JStr _ | TdNumber _, JInt _ | TdNumber _, JFloat _ | TdInteger _, JInt _ | TdBoolean, JBool _
  | TdArray _, JArr _ | TdObject _, JObj _ => True
  | _, _ => False
  end.

(** A [oneOf] accepts if one alternative does and all others reject; it rejects if all do, or if two accept. *)
Inductive accepts (S : bmap str model) : model_ref -> json -> Prop :=
| ac_any j : accepts S Any j
| ac_link n m j : bm_get n S = Some m -> accepts_model S m j -> accepts S (Link n) j
| ac_inline m j : accepts_model S m j -> accepts S (Inline m) j
with accepts_model (S : bmap str model) : model -> json -> Prop :=
| am_null d td : accepts_model S (Model d (Single (MType true td))) JNull
| am_string d n s x : (forall vs, mst_variants s = Some vs -> In x vs) ->
    accepts_model S (Model d (Single (MType n (TdString s)))) (JStr x)
| am_integer d n s z : accepts_model S (Model d (Single (MType n (TdInteger s)))) (JInt z)
| am_number_int d n s z : accepts_model S (Model d (Single (MType n (TdNumber s)))) (JInt z)
| am_number d n s x : accepts_model S (Model d (Single (MType n (TdNumber s)))) (JFloat x)
| am_boolean d n b : accepts_model S (Model d (Single (MType n TdBoolean))) (JBool b)
| am_array d n items l : (forall j, In j l -> accepts S items j) ->
    accepts_model S (Model d (Single (MType n (TdArray items)))) (JArr l)
| am_object d n props add req l :
    (forall k, In k req -> In k (keys l)) ->
    (forall k j r, In (k, j) l -> bm_get k props = Some r -> accepts S r j) ->
    (forall k j r, In (k, j) l -> bm_get k props = None -> add = Some r -> accepts S r j) ->
    accepts_model S (Model d (Single (MType n (TdObject (MObject props add req))))) (JObj l)
| am_oneof d l1 r l2 j : accepts S r j -> (forall r', In r' (l1 ++ l2) -> rejects S r' j) ->
    accepts_model S (Model d (OneOf (l1 ++ r :: l2))) j
| am_anyof d l r j : In r l -> accepts S r j -> accepts_model S (Model d (AnyOf l)) j
| am_allof d l j : (forall r, In r l -> accepts S r j) -> accepts_model S (Model d (AllOf l)) j
with rejects (S : bmap str model) : model_ref -> json -> Prop :=
| rj_unresolved n j : bm_get n S = None -> rejects S (Link n) j
| rj_link n m j : bm_get n S = Some m -> rejects_model S m j -> rejects S (Link n) j
| rj_inline m j : rejects_model S m j -> rejects S (Inline m) j
with rejects_model (S : bmap str model) : model -> json -> Prop :=
| rm_null d td : rejects_model S (Model d (Single (MType false td))) JNull
| rm_kind d n td j : j <> JNull -> ~ kind_matches td j -> rejects_model S (Model d (Single (MType n td))) j
| rm_value d n s vs x : mst_variants s = Some vs -> ~ In x vs ->
    rejects_model S (Model d (Single (MType n (TdString s)))) (JStr x)
| rm_item d n items l j : In j l -> rejects S items j -> rejects_model S (Model d (Single (MType n (TdArray items)))) (JArr l)
| rm_missing d n props add req l k : In k req -> ~ In k (keys l) ->
    rejects_model S (Model d (Single (MType n (TdObject (MObject props add req))))) (JObj l)
| rm_property d n props add req l k j r : In (k, j) l -> bm_get k props = Some r -> rejects S r j ->
    rejects_model S (Model d (Single (MType n (TdObject (MObject props add req))))) (JObj l)
| rm_additional d n props req l k j r : In (k, j) l -> bm_get k props = None -> rejects S r j ->
    rejects_model S (Model d (Single (MType n (TdObject (MObject props (Some r) req))))) (JObj l)
| rm_oneof_none d l j : (forall r, In r l -> rejects S r j) -> rejects_model S (Model d (OneOf l)) j
| rm_oneof_two d l1 r1 l2 r2 l3 j : accepts S r1 j -> accepts S r2 j ->
    rejects_model S (Model d (OneOf (l1 ++ r1 :: l2 ++ r2 :: l3))) j
| rm_anyof d l j : (forall r, In r l -> rejects S r j) -> rejects_model S (Model d (AnyOf l)) j
| rm_allof d l r j : In r l -> rejects S r j -> rejects_model S (Model d (AllOf l)) j.

(** ** Types that are told apart by their JSON *)

Definition simple_kind (k : kind) : Prop := k <> KOneOf /\ k <> KAllOf /\ k <> KAnyOf.
Definition numeric (k : kind) : Prop := k = KNumber \/ k = KInteger.
Definition kinds_apart (k1 k2 : kind) : Prop :=
  simple_kind k1 /\ simple_kind k2 /\ k1 <> k2 /\ ~ (numeric k1 /\ numeric k2).

Definition prim_kind (p : prim) : kind :=
  match int_type p, p with
  | Some _, _ => KInteger
  | None, PF32 | None, PF64 => KNumber
  | None, PBool | None, PAtomicBool => KBoolean
  | None, _ => KString
  end.

Section Sources.
  Variable pe pp : str -> bool.
  Variable uni : N -> bool.
  Variable D : tid -> derive_input ty.
  (** whether objects may be told apart by their members, which takes it that there are none but those described (C79) *)
  Variable by_members : Prop.
  Notation said := (said pe pp).

  Definition typed_by_flag (f : field_syn ty) : Prop := exists t, said PField (fs_attrs f) (SType t).
  Definition has_payload (vs : list (variant_syn ty)) : Prop := exists w, In w vs /\ ~ unit_variant w.

  (** the one kind of JSON value, null aside, a type is described by *)
  Inductive has_kind : ty -> kind -> Prop :=
  | hk_prim p : has_kind (TPrim p) (prim_kind p)
  | hk_wrap w t k : has_kind t k -> has_kind (TWrap w t) k
  | hk_option t k : has_kind t k -> has_kind (TOption t) k
  | hk_tuple ts : has_kind (TTuple ts) KArray_
  | hk_seq k t : has_kind (TSeq k t) KArray_
  | hk_dict k t : has_kind (TDict k t) KObject
  | hk_struct id fs : di_data (D id) = DaStruct (FNamed fs) -> has_kind (TNamed id) KObject
  | hk_tuple_struct id fs : di_data (D id) = DaStruct (FUnnamed fs) -> length fs <> 1 -> has_kind (TNamed id) KArray_
  | hk_newtype id f k : di_data (D id) = DaStruct (FUnnamed [f]) -> (forall t, ~ said (PContainer DkOther) (di_attrs (D id)) (SType t)) ->
      has_kind (fs_ty f) k -> has_kind (TNamed id) k
  | hk_units id vs : di_data (D id) = DaEnum vs -> ~ has_payload vs -> ~ said (PContainer DkEnum) (di_attrs (D id)) SRepr ->
      has_kind (TNamed id) KString
  | hk_external id vs : di_data (D id) = DaEnum vs -> has_payload vs -> represents pe pp (di_attrs (D id)) RepExternal ->
      has_kind (TNamed id) KObject
  | hk_adjacent id vs t c : di_data (D id) = DaEnum vs -> has_payload vs -> represents pe pp (di_attrs (D id)) (RepAdjacent t c) ->
      has_kind (TNamed id) KObject.

  (** types that may be described as nullable *)
  Inductive may_be_null : ty -> Prop :=
  | mn_unit : may_be_null (TPrim PUnit)
  | mn_option t : may_be_null (TOption t)
  | mn_wrap w t : may_be_null t -> may_be_null (TWrap w t)
  | mn_container id : said (PContainer (shape (di_data (D id)))) (di_attrs (D id)) SNullable -> may_be_null (TNamed id)
  | mn_field id f : di_data (D id) = DaStruct (FUnnamed [f]) -> said PField (fs_attrs f) SNullable -> may_be_null (TNamed id)
  | mn_newtype id f : di_data (D id) = DaStruct (FUnnamed [f]) -> may_be_null (fs_ty f) -> may_be_null (TNamed id).

  (** the named fields, with the names they are written by, of which values of a type are written as an object *)
  Inductive written_fields : ty -> list (str * field_syn ty) -> Prop :=
  | wf_wrap w t l : written_fields t l -> written_fields (TWrap w t) l
  | wf_option t l : written_fields t l -> written_fields (TOption t) l
  | wf_struct id fs rule l : di_data (D id) = DaStruct (FNamed fs) -> has_rule pe pp (PContainer DkNamed) (di_attrs (D id)) rule ->
      serialised_fields pe pp rule 0 fs l -> written_fields (TNamed id) l
  | wf_newtype id f l : di_data (D id) = DaStruct (FUnnamed [f]) -> (forall t, ~ said (PContainer DkOther) (di_attrs (D id)) (SType t)) ->
      written_fields (fs_ty f) l -> written_fields (TNamed id) l.
  (** each has a field that is always written, and the other has none of its name *)
  Definition has_more (l1 l2 : list (str * field_syn ty)) : Prop :=
    exists n f, In (n, f) l1 /\ ~ field_optional pe pp f /\ ~ In n (map fst l2).
  Definition members_apart (l1 l2 : list (str * field_syn ty)) : Prop := has_more l1 l2 /\ has_more l2 l1.

  (** no JSON value is described by both *)
  Definition types_apart (t1 t2 : ty) : Prop :=
    ((exists k1 k2, has_kind t1 k1 /\ has_kind t2 k2 /\ kinds_apart k1 k2) \/
     (by_members /\ exists l1 l2, written_fields t1 l1 /\ written_fields t2 l2 /\ members_apart l1 l2)) /\
    ~ (may_be_null t1 /\ may_be_null t2).

  Definition field_kind (f : field_syn ty) (k : kind) : Prop := ~ typed_by_flag f /\ has_kind (fs_ty f) k.
  Definition field_null (f : field_syn ty) : Prop := may_be_null (fs_ty f) \/ said PField (fs_attrs f) SNullable.
  Definition field_members (f : field_syn ty) (l : list (str * field_syn ty)) : Prop := ~ typed_by_flag f /\ written_fields (fs_ty f) l.
  Definition fields_apart (f1 f2 : field_syn ty) : Prop :=
    ((exists k1 k2, field_kind f1 k1 /\ field_kind f2 k2 /\ kinds_apart k1 k2) \/
     (by_members /\ exists l1 l2, field_members f1 l1 /\ field_members f2 l2 /\ members_apart l1 l2)) /\
    ~ (field_null f1 /\ field_null f2).

  (** what the content of a variant is described by *)
  Definition content_kind (rep : representation) (v : variant_syn ty) (k : kind) : Prop :=
    match vs_fields v with
    | FUnit => k = KString
    | FUnnamed [f] => field_kind f k
    | FUnnamed _ => k = KArray_
    | FNamed _ => k = match rep with RepAdjacent _ _ => KArray_ | _ => KObject end
    end.
  Definition content_members (rep : representation) (v : variant_syn ty) (l : list (str * field_syn ty)) : Prop :=
    match vs_fields v with
    | FUnnamed [f] => field_members f l
    | FNamed fs => (forall t c, rep <> RepAdjacent t c) /\
        exists rule, has_rule pe pp PVariant (vs_attrs v) rule /\ serialised_fields pe pp rule 0 fs l
    | _ => False
    end.
  Definition content_null (v : variant_syn ty) : Prop := exists f, vs_fields v = FUnnamed [f] /\ field_null f.
  Definition contents_apart (rep : representation) (v1 v2 : variant_syn ty) : Prop :=
    ((exists k1 k2, content_kind rep v1 k1 /\ content_kind rep v2 k2 /\ kinds_apart k1 k2) \/
     (by_members /\ exists l1 l2, content_members rep v1 l1 /\ content_members rep v2 l2 /\ members_apart l1 l2)) /\
    ~ (content_null v1 /\ content_null v2).

  (** objects without a property [tag] *)
  Definition no_field_named (tag : str) (pos : position) (attrs : list attribute) (fs : list (field_syn ty)) : Prop :=
    forall rule l, has_rule pe pp pos attrs rule -> serialised_fields pe pp rule 0 fs l -> ~ In tag (map fst l).
  Inductive object_without (tag : str) : ty -> Prop :=
  | ow_wrap w t : object_without tag t -> object_without tag (TWrap w t)
  | ow_dict k t : object_without tag (TDict k t)
  | ow_struct id fs : di_data (D id) = DaStruct (FNamed fs) -> no_field_named tag (PContainer DkNamed) (di_attrs (D id)) fs ->
      object_without tag (TNamed id).
  Definition content_without (tag : str) (v : variant_syn ty) : Prop :=
    match vs_fields v with
    | FUnit => True
    | FUnnamed [f] => object_without tag (fs_ty f) /\ ~ field_null f
    | FUnnamed _ => False
    | FNamed fs => no_field_named tag PVariant (vs_attrs v) fs
    end.

  (** the parts of a tuple are told apart *)
  Definition tuple_apart (fs : list (field_syn ty)) : Prop := length fs = 1 \/ ForallOrdPairs fields_apart fs.
  Definition variant_apart (rep : representation) (v : variant_syn ty) : Prop :=
    match vs_fields v, rep with
    | FUnnamed fs, _ => tuple_apart fs
    | FNamed fs, RepAdjacent _ _ => ForallOrdPairs fields_apart fs
    | _, _ => True
    end.
  (** wherever the description of [i] offers alternatives, they are told apart *)
  Definition input_apart (i : derive_input ty) : Prop :=
    match di_data i with
    | DaStruct (FUnnamed fs) => tuple_apart fs
    | DaStruct _ | DaUnion => True
    | DaEnum vs =>
        (written_as_int pe pp i vs -> length vs <= 1) /\
        (has_payload vs -> forall rep l, represents pe pp (di_attrs i) rep -> enum_variants pe pp uni i vs l ->
           (forall n v, In (n, v) l -> variant_apart rep v) /\
           match rep with
           | RepInternal tag => NoDup (map fst l) /\ forall n v, In (n, v) l -> content_without tag v
           | _ => ForallOrdPairs (contents_apart rep) (map snd l)
           end)
    end.
  (** everywhere in the description of [t]; and the nominal types in it are derived from their sources *)
  Definition told_apart (ev : str -> str) (E : env) (t : ty) : Prop :=
    (forall id, t = TNamed id \/ contains E t (TNamed id) -> derive pe pp uni ev (D id) = DOk (E id) /\ input_apart (D id)) /\
    (forall ts, t = TTuple ts \/ contains E t (TTuple ts) -> ForallOrdPairs types_apart ts).
End Sources.

(** serde writes [j] for a value of type [t], and the schema accepts it only if alternatives may overlap *)
Definition overlapping pe pp uni ev disc (D : tid -> derive_input ty) (E : env) (t : ty) (j : json) : Prop :=
  derived_inside pe pp uni D ev E t /\ emits pe pp uni disc D t j /\
  exists m cx, schema_returns E t cx_new m cx /\ valid_model (cx_schemas cx) m j /\ rejects_model (cx_schemas cx) m j.
