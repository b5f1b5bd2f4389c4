(** From which JSON serde reads a value of a type, and for which types the schemas accept nothing else.

    [reads] follows the documentation of serde's derive in terms of what an input's attributes say
    (AttrSpec.v, DeriveSpec.v); it uses none of the functions of Gen.v, Ast.v and Derive.v. *)
From Verif Require Import Attr AttrSpec Ast Derive DeriveSpec Schema SchemaSpec Gen GenSpec SoundSpec.
From Coq Require Import ZArith.

(** no object in [j] has two members of one name *)
Inductive distinct_names : json -> Prop :=
| dn_null : distinct_names JNull
| dn_bool b : distinct_names (JBool b)
| dn_int z : distinct_names (JInt z)
| dn_float x : distinct_names (JFloat x)
| dn_str s : distinct_names (JStr s)
| dn_arr l : (forall j, In j l -> distinct_names j) -> distinct_names (JArr l)
| dn_obj l : NoDup (keys l) -> (forall k j, In (k, j) l -> distinct_names j) -> distinct_names (JObj l).

(** the members other than [tag] *)
Definition without (tag : str) (l : list (str * json)) : list (str * json) :=
  filter (fun m => if str_eq_dec (fst m) tag then false else true) l.

(** a built-in type is read from JSON of its kind; the range of an integer type and the format of a text are
    left open *)
Inductive prim_reads : prim -> json -> Prop :=
| pr_text p s : In p [PChar; PStr; PString; PUuid; PNaiveDateTime; PDateTime; PNaiveDate] -> prim_reads p (JStr s)
| pr_int p signed bits z : int_type p = Some (signed, bits) -> prim_reads p (JInt z)
| pr_float p x : p = PF32 \/ p = PF64 -> prim_reads p (JFloat x)
| pr_float_int p z : p = PF32 \/ p = PF64 -> prim_reads p (JInt z)
| pr_bool p b : p = PBool \/ p = PAtomicBool -> prim_reads p (JBool b)
| pr_unit : prim_reads PUnit JNull.

(** types of fields that may be missing: an [Option], possibly behind pointers and cells *)
Fixpoint may_be_missing (t : ty) : Prop :=
  match t with
  | TOption _ => True
  | TWrap WTuple1 _ => False
  | TWrap _ t' => may_be_missing t'
  | _ => False
  end.

(** [#[serde(default)]] or [#[serde(default = "path")]] *)
Definition defaulted (f : field_syn ty) : Prop :=
  exists its n, written (fs_attrs f) its /\ In (FromSerde, n) its /\
    (n = word_item "default" \/ exists l, n = name_value "default" (LStr l)).

Section Serde.
  Variable pe pp : str -> bool.
  Variable uni : N -> bool.
  (** the value of a discriminant expression *)
  Variable disc : str -> Z.
  (** the source of each nominal type *)
  Variable D : tid -> derive_input ty.
  Notation said := (said pe pp).

  (** the unnamed fields that are not skipped *)
  Inductive kept_fields : list (field_syn ty) -> list (field_syn ty) -> Prop :=
  | kf_nil : kept_fields [] []
  | kf_skip f fs l : field_skipped pe pp f -> kept_fields fs l -> kept_fields (f :: fs) l
  | kf_keep f fs l : ~ field_skipped pe pp f -> kept_fields fs l -> kept_fields (f :: fs) (f :: l).

  (** [reads t j]: serde_json reads some value of type [t] from [j], up to the ranges of integers and the formats
      of texts.  Members that are skipped are taken to be skipped in both directions; members that are not
      known are ignored; [#[serde(default)]] on a container, aliases and names given for deserialisation only
      are not modelled. *)
  Inductive reads : ty -> json -> Prop :=
  | rd_prim p j : prim_reads p j -> reads (TPrim p) j
  | rd_wrap w t j : w <> WTuple1 -> reads t j -> reads (TWrap w t) j
  | rd_tuple1 t j : reads t j -> reads (TWrap WTuple1 t) (JArr [j])
  | rd_none t : reads (TOption t) JNull
  | rd_some t j : reads t j -> reads (TOption t) j
  | rd_tuple ts l : length l = length ts -> (forall t j, In (t, j) (combine ts l) -> reads t j) -> reads (TTuple ts) (JArr l)
  | rd_seq k t l : (forall j, In j l -> reads t j) -> (forall n, k = KArray n -> N.of_nat (length l) = n) ->
      reads (TSeq k t) (JArr l)
  | rd_dict k t l : (forall n j, In (n, j) l -> reads t j) -> reads (TDict k t) (JObj l)
  | rd_struct id fs rule l ms : di_data (D id) = DaStruct (FNamed fs) ->
      has_rule pe pp (PContainer DkNamed) (di_attrs (D id)) rule -> serialised_fields pe pp rule 0 fs l ->
      reads_fields l ms -> reads (TNamed id) (JObj ms)
  | rd_tuple_struct id fs kept l : di_data (D id) = DaStruct (FUnnamed fs) -> length fs <> 1 ->
      kept_fields fs kept -> length l = length kept -> (forall f j, In (f, j) (combine kept l) -> reads (fs_ty f) j) ->
      reads (TNamed id) (JArr l)
  | rd_newtype id f j : di_data (D id) = DaStruct (FUnnamed [f]) -> reads (fs_ty f) j -> reads (TNamed id) j
  | rd_repr id vs l n v z : di_data (D id) = DaEnum vs -> written_as_int pe pp (D id) vs ->
      enum_variants pe pp uni (D id) vs l -> In (n, v) l -> In (v, z) (discriminants disc 0 vs) -> reads (TNamed id) (JInt z)
  | rd_external_unit id n v : enum_variant pe pp uni (D id) RepExternal n v -> unit_variant v -> reads (TNamed id) (JStr n)
  | rd_external id n v j : enum_variant pe pp uni (D id) RepExternal n v -> reads_payload v j -> reads (TNamed id) (JObj [(n, j)])
  | rd_untagged_unit id n v : enum_variant pe pp uni (D id) RepUntagged n v -> unit_variant v -> reads (TNamed id) JNull
  | rd_untagged id n v j : enum_variant pe pp uni (D id) RepUntagged n v -> reads_payload v j -> reads (TNamed id) j
  | rd_internal_unit id tag n v ms : enum_variant pe pp uni (D id) (RepInternal tag) n v -> unit_variant v ->
      NoDup (keys ms) -> In (tag, JStr n) ms -> reads (TNamed id) (JObj ms)
  | rd_internal id tag n v ms : enum_variant pe pp uni (D id) (RepInternal tag) n v ->
      NoDup (keys ms) -> In (tag, JStr n) ms -> reads_payload v (JObj (without tag ms)) -> reads (TNamed id) (JObj ms)
  | rd_adjacent_unit id tag content n v ms : enum_variant pe pp uni (D id) (RepAdjacent tag content) n v -> unit_variant v ->
      NoDup (keys ms) -> In (tag, JStr n) ms -> (forall j, In (content, j) ms -> j = JNull) -> reads (TNamed id) (JObj ms)
  | rd_adjacent id tag content n v ms j : enum_variant pe pp uni (D id) (RepAdjacent tag content) n v ->
      NoDup (keys ms) -> In (tag, JStr n) ms -> In (content, j) ms -> reads_payload v j -> reads (TNamed id) (JObj ms)
  (** what a variant carries *)
  with reads_payload : variant_syn ty -> json -> Prop :=
  | rp_newtype v f j : vs_fields v = FUnnamed [f] -> reads (fs_ty f) j -> reads_payload v j
  | rp_tuple v fs kept l : vs_fields v = FUnnamed fs -> length fs <> 1 -> kept_fields fs kept -> length l = length kept ->
      (forall f j, In (f, j) (combine kept l) -> reads (fs_ty f) j) -> reads_payload v (JArr l)
  | rp_struct v fs rule l ms : vs_fields v = FNamed fs -> has_rule pe pp PVariant (vs_attrs v) rule ->
      serialised_fields pe pp rule 0 fs l -> reads_fields l ms -> reads_payload v (JObj ms)
  (** named fields: each is present or may be missing, and what is present is read; no name is repeated *)
  with reads_fields : list (str * field_syn ty) -> list (str * json) -> Prop :=
  | rf_all l ms : NoDup (keys ms) ->
      (forall n f, In (n, f) l -> In n (keys ms) \/ may_be_missing (fs_ty f) \/ defaulted f) ->
      (forall n f j, In (n, f) l -> In (n, j) ms -> reads (fs_ty f) j) -> reads_fields l ms.

  (** ** The types whose schemas accept nothing that cannot be read *)

  (** types read from null *)
  Inductive nullish : ty -> Prop :=
  | nu_option t : nullish (TOption t)
  | nu_wrap w t : w <> WTuple1 -> nullish t -> nullish (TWrap w t)
  | nu_newtype id f : di_data (D id) = DaStruct (FUnnamed [f]) -> nullish (fs_ty f) -> nullish (TNamed id).

  (** no type flag; marked optional or nullable only if the type allows it *)
  Definition field_exact (f : field_syn ty) : Prop :=
    (forall t, ~ said PField (fs_attrs f) (SType t)) /\
    (field_optional pe pp f -> may_be_missing (fs_ty f) \/ defaulted f) /\
    (said PField (fs_attrs f) SNullable -> nullish (fs_ty f)).

  Definition fields_exact (fs : list (field_syn ty)) : Prop := forall f, In f fs -> ~ field_skipped pe pp f -> field_exact f.

  Definition variant_exact (v : variant_syn ty) : Prop :=
    match vs_fields v with
    | FUnit => True
    | FUnnamed [f] => field_exact f
    | FUnnamed _ => False
    | FNamed fs => fields_exact fs
    end.

  Definition input_exact (i : derive_input ty) : Prop :=
    match di_data i with
    | DaStruct (FNamed fs) => ~ said (PContainer DkNamed) (di_attrs i) SNullable /\ fields_exact fs
    | DaStruct (FUnnamed [f]) => (forall t, ~ said (PContainer DkOther) (di_attrs i) (SType t)) /\ field_exact f
    | DaEnum vs => ~ written_as_int pe pp i vs /\
        ((forall v, In v vs -> unit_variant v) \/
         (represents pe pp (di_attrs i) RepUntagged \/ exists tag, represents pe pp (di_attrs i) (RepInternal tag)) /\
         forall v, In v vs -> ~ variant_skipped pe pp v -> variant_exact v)
    | _ => False
    end.

  (** [()], arrays of fixed length, tuples and one-element tuples are not exact; of derived types, structs with named
      fields, newtypes, enums of unit variants, untagged and internally tagged enums can be *)
  Definition exact (t : ty) : Prop :=
    match t with
    | TPrim PUnit | TTuple _ | TSeq (KArray _) _ | TWrap WTuple1 _ => False
    | TNamed id => input_exact (D id)
    | _ => True
    end.

  Definition exact_inside (t : ty) : Prop := forall t', inside pe pp D t t' -> exact t'.
End Serde.

(** [j], in which no name is repeated, is accepted by the schema of [t], whose parts are all derived, but serde reads
    no value of [t] from it *)
Definition overaccepted pe pp uni ev disc (D : tid -> derive_input ty) (E : env) (t : ty) (j : json) : Prop :=
  derived_inside pe pp uni D ev E t /\ distinct_names j /\ ~ reads pe pp uni disc D t j /\
  exists m cx, schema_returns E t cx_new m cx /\ valid_model (cx_schemas cx) m j.
