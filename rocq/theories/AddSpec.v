(** Changes of types that only add fields, for clients that still hold the document published before.

    In terms of what the attributes say (AttrSpec.v, DeriveSpec.v). *)
From Verif Require Import Attr AttrSpec Ast Derive DeriveSpec Gen SoundSpec.

Section Added.
  Variable pe pp : str -> bool.
  (** the sources afterwards *)
  Variable D' : tid -> derive_input ty.

  (** the flattened field [f] is written with members that have none of the names in [l] *)
  Definition keeps_clear (l : list (str * field_syn ty)) (f : field_syn ty) : Prop :=
    members_among pe pp D' (fun k => ~ In k (map fst l)) (fs_ty f).

  (** the named fields [fs] have become [fs']: what is serialised for [fs] still is, in any order, with other members
      whose names are not taken by those of [fs], also in what is flattened *)
  Definition members_added (pos : position) (attrs : list attribute) (fs fs' : list (field_syn ty)) : Prop :=
    forall rule l', has_rule pe pp pos attrs rule -> serialised_fields pe pp rule 0 fs' l' ->
    exists l, serialised_fields pe pp rule 0 fs l /\ incl l l' /\
      forall n f, In (n, f) l' -> In (n, f) l \/ ~ In n (map fst l) /\ (said pe pp PField (fs_attrs f) SFlatten -> keeps_clear l f).

  Definition variant_added (v v' : variant_syn ty) : Prop :=
    vs_ident v = vs_ident v' /\ vs_attrs v = vs_attrs v' /\ vs_discriminant v = vs_discriminant v' /\
    match vs_fields v, vs_fields v' with
    | FNamed fs, FNamed fs' => members_added PVariant (vs_attrs v) fs fs'
    | _, _ => vs_fields v = vs_fields v'
    end.

  Definition data_added (i i' : derive_input ty) : Prop :=
    di_ident i = di_ident i' /\ di_attrs i = di_attrs i' /\
    match di_data i, di_data i' with
    | DaStruct (FNamed fs), DaStruct (FNamed fs') => members_added (PContainer DkNamed) (di_attrs i) fs fs'
    | DaEnum vs, DaEnum vs' => Forall2 variant_added vs vs'
    | _, _ => di_data i = di_data i'
    end.

End Added.

(** what is flattened keeps clear of the names of the fields there were *)
Definition kept_clear (pe pp : str -> bool) (D D' : tid -> derive_input ty) (pos : position) (attrs : list attribute) (fs : list (field_syn ty)) : Prop :=
  forall rule l n f, has_rule pe pp pos attrs rule -> serialised_fields pe pp rule 0 fs l -> In (n, f) l ->
  said pe pp PField (fs_attrs f) SFlatten -> keeps_clear pe pp D l f -> keeps_clear pe pp D' l f.
Definition flattened_kept (pe pp : str -> bool) (D D' : tid -> derive_input ty) : Prop := forall id,
  match di_data (D id) with
  | DaStruct (FNamed fs) => kept_clear pe pp D D' (PContainer DkNamed) (di_attrs (D id)) fs
  | DaEnum vs => forall v fs, In v vs -> vs_fields v = FNamed fs -> kept_clear pe pp D D' PVariant (vs_attrs v) fs
  | _ => True
  end.

(** the types with sources [D'] are those with sources [D], with more fields *)
Definition adds_fields (pe pp : str -> bool) (D D' : tid -> derive_input ty) : Prop :=
  (forall id, data_added pe pp D' (D id) (D' id)) /\ flattened_kept pe pp D D'.
