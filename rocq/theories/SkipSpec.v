(** Inputs of the derive that differ only in which fields are marked to be skipped, where the marks should be in vain: on
    unnamed fields, and on the fields of adjacently tagged variants (C14).  Uses only the syntax trees of Ast.v and the
    meanings of attributes in AttrSpec.v and DeriveSpec.v. *)
From Coq Require Import List NArith.
From Verif Require Import Str Case Attr Ast Schema Gen Derive AttrSpec DeriveSpec.
Import ListNotations.

Section Spec.
  Variable pe pp : str -> bool.
  Notation said := (said pe pp).
  Notation acceptable := (acceptable pe pp).
  Notation represents := (represents pe pp).

  (** the same field, except for what its attributes say about skipping *)
  Inductive field_marked : field_syn ty -> field_syn ty -> Prop :=
  | fm_intro l1 l2 i t : acceptable PField l1 -> acceptable PField l2 ->
      (forall x, x <> SSkip -> (said PField l1 x <-> said PField l2 x)) ->
      field_marked (Build_field_syn l1 i t) (Build_field_syn l2 i t).

  (** [named]: the marks on named fields may differ, too *)
  Inductive payload_marked (named : Prop) : fields_syn ty -> fields_syn ty -> Prop :=
  | pm_unnamed fs1 fs2 : Forall2 field_marked fs1 fs2 -> payload_marked named (FUnnamed fs1) (FUnnamed fs2)
  | pm_named fs1 fs2 : named -> Forall2 field_marked fs1 fs2 -> payload_marked named (FNamed fs1) (FNamed fs2)
  | pm_same f : payload_marked named f f.

  Inductive variant_marked (named : Prop) : variant_syn ty -> variant_syn ty -> Prop :=
  | vm_intro l i f1 f2 d : payload_marked named f1 f2 ->
      variant_marked named (Build_variant_syn l i f1 d) (Build_variant_syn l i f2 d).

  Inductive input_marked : derive_input ty -> derive_input ty -> Prop :=
  | im_struct l i f1 f2 : payload_marked False f1 f2 ->
      input_marked (Build_derive_input l i (DaStruct f1)) (Build_derive_input l i (DaStruct f2))
  | im_enum l i vs1 vs2 rep : represents l rep ->
      Forall2 (variant_marked (exists t c, rep = RepAdjacent t c)) vs1 vs2 ->
      input_marked (Build_derive_input l i (DaEnum vs1)) (Build_derive_input l i (DaEnum vs2)).
End Spec.
