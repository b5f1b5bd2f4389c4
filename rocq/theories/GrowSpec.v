(** Changes of types that keep everything that was written before: fields that may be left out and variants are added,
    the types of fields are widened, and documentation changes.

    In terms of what the attributes say (AttrSpec.v, DeriveSpec.v); [emits] and [valid] are those of SoundSpec.v. *)
From Verif Require Import Attr AttrSpec Ast Derive DeriveSpec Schema Gen SoundSpec.
From Coq Require Import ZArith.

(** [wider t t']: a value of [t] is written as some value of [t'] is, as long as types with a name keep their values *)
Inductive wider : ty -> ty -> Prop :=
| wd_same t : wider t t
| wd_option t t' : wider t t' -> wider t (TOption t')
| wd_inside_option t t' : wider t t' -> wider (TOption t) (TOption t')
| wd_wrap w t t' : w <> WTuple1 -> wider t t' -> wider t (TWrap w t')
| wd_unwrap w t t' : w <> WTuple1 -> wider t t' -> wider (TWrap w t) t'
| wd_tuple ts ts' : Forall2 wider ts ts' -> wider (TTuple ts) (TTuple ts')
| wd_seq k k' t t' : (forall n, k' = KArray n -> k = KArray n) -> wider t t' -> wider (TSeq k t) (TSeq k' t')
| wd_dict k k' t t' : wider t t' -> wider (TDict k t) (TDict k' t')
| wd_int p p' s b s' b' : int_type p = Some (s, b) -> int_type p' = Some (s', b') ->
    (s = s' /\ (b <= b')%Z \/ s = false /\ s' = true /\ (b < b')%Z) -> wider (TPrim p) (TPrim p')
| wd_text p p' : p = PChar \/ p = PStr \/ p = PUuid -> p' = PStr \/ p' = PString -> wider (TPrim p) (TPrim p').

Section Grow.
  Variable pe pp : str -> bool.
  Notation said := (said pe pp).

  (** the attributes that decide how serde writes *)
  Definition decides (x : Attr.setting) : Prop :=
    match x with
    | SRename _ | SRenameAll _ | SSkip | SFlatten | STransparent | SUntagged | STag _ | SContent _ | SRepr => True
    | _ => False
    end.
  Definition agree (pos : position) (l l' : list attribute) : Prop := forall x, decides x -> (said pos l x <-> said pos l' x).

  (** a field that is kept: it may be documented in other ways, and it may become one that may be left out *)
  Definition field_kept (f f' : field_syn ty) : Prop :=
    agree PField (fs_attrs f) (fs_attrs f') /\ (said PField (fs_attrs f) SSkipIf -> said PField (fs_attrs f') SSkipIf) /\
    fs_ident f = fs_ident f' /\ wider (fs_ty f) (fs_ty f').

  (** named fields: others may be added that are not written, or not always *)
  Inductive fields_grow : list (field_syn ty) -> list (field_syn ty) -> Prop :=
  | fg_nil : fields_grow [] []
  | fg_keep f f' fs fs' : field_kept f f' -> fs_ident f <> None -> fields_grow fs fs' -> fields_grow (f :: fs) (f' :: fs')
  | fg_new f' fs fs' : field_skipped pe pp f' \/ said PField (fs_attrs f') SSkipIf -> fields_grow fs fs' -> fields_grow fs (f' :: fs').

  Definition variant_kept (v v' : variant_syn ty) : Prop :=
    agree PVariant (vs_attrs v) (vs_attrs v') /\ vs_ident v = vs_ident v' /\ vs_discriminant v = vs_discriminant v' /\
    match vs_fields v, vs_fields v' with
    | FUnit, FUnit => True
    | FUnnamed fs, FUnnamed fs' => Forall2 field_kept fs fs'
    | FNamed fs, FNamed fs' => fields_grow fs fs'
    | _, _ => False
    end.
  (** others may be added anywhere *)
  Inductive variants_grow : list (variant_syn ty) -> list (variant_syn ty) -> Prop :=
  | vg_nil : variants_grow [] []
  | vg_keep v v' vs vs' : variant_kept v v' -> variants_grow vs vs' -> variants_grow (v :: vs) (v' :: vs')
  | vg_new v' vs vs' : variants_grow vs vs' -> variants_grow vs (v' :: vs').

  Inductive data_grows (i i' : derive_input ty) : Prop :=
  | dg_named fs fs' : di_data i = DaStruct (FNamed fs) -> di_data i' = DaStruct (FNamed fs') ->
      ~ said (PContainer DkNamed) (di_attrs i) STransparent -> agree (PContainer DkNamed) (di_attrs i) (di_attrs i') ->
      fields_grow fs fs' -> data_grows i i'
  | dg_unnamed fs fs' : di_data i = DaStruct (FUnnamed fs) -> di_data i' = DaStruct (FUnnamed fs') ->
      ~ said (PContainer DkOther) (di_attrs i) STransparent -> agree (PContainer DkOther) (di_attrs i) (di_attrs i') ->
      Forall2 field_kept fs fs' -> data_grows i i'
  | dg_transparent f f' : transparent_field pe pp i f -> transparent_field pe pp i' f' -> wider (fs_ty f) (fs_ty f') ->
      data_grows i i'
  (** an enum written as integers stays one, and its integers are in the source *)
  | dg_enum vs vs' : di_data i = DaEnum vs -> di_data i' = DaEnum vs' -> agree (PContainer DkEnum) (di_attrs i) (di_attrs i') ->
      variants_grow vs vs' ->
      (written_as_int pe pp i vs -> written_as_int pe pp i' vs' /\ forall v, In v vs -> vs_discriminant v <> None) ->
      data_grows i i'
  (** nothing is written for these *)
  | dg_other : di_data i = DaUnion \/ di_data i = DaStruct FUnit -> data_grows i i'.

  (** every type has grown, or is as it was; names can be made for all members (C03) *)
  Definition grows (D D' : tid -> derive_input ty) : Prop :=
    forall id, di_ident (D id) = di_ident (D' id) /\ data_grows (D id) (D' id) /\ ~ unnameable pe pp (D' id).
End Grow.
