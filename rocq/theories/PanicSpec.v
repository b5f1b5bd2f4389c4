(** What the derive makes of attributes that it also reports errors for: the first value given counts. *)
From Verif Require Import Attr AttrSpec Ast Derive DeriveSpec Schema Gen.

Section Heard.
  Variable pe pp : str -> bool.
  (** the items of the attributes of the form [#[name(..)]], in order; other forms are reported and passed over *)
  Inductive listed : list attribute -> list (attr_from * nested) -> Prop :=
  | ls_nil : listed [] []
  | ls_foreign a l its : foreign a -> listed l its -> listed (a :: l) its
  | ls_items a f items l its : belongs a f -> at_meta a = PmList items -> listed l its ->
      listed (a :: l) (map (fun n => (f, n)) items ++ its)
  | ls_other a f l its : belongs a f -> (forall items, at_meta a <> PmList items) -> listed l its -> listed (a :: l) its.

  (** [x] is said, and it is the first value said for its key *)
  Definition heard (pos : position) (l : list attribute) (x : setting) : Prop :=
    exists l1 f n l2, listed l (l1 ++ (f, n) :: l2) /\ says pe pp pos f n x /\
      forall f' n' y, In (f', n') l1 -> says pe pp pos f' n' y -> key_of y <> key_of x.

  Definition rule_heard (pos : position) (l : list attribute) (r : rename_rule) : Prop :=
    heard pos l (SRenameAll r) \/ r = RNone /\ forall r', ~ heard pos l (SRenameAll r').

  Definition field_misnamed {A} (rule : rename_rule) (index : nat) (f : field_syn A) : Prop :=
    rule = RCamelCase /\ (forall m, ~ heard PField (fs_attrs f) (SRename m)) /\ no_camel_field (source_name index f).
  Definition variant_misnamed {A} (rule : rename_rule) (v : variant_syn A) : Prop :=
    rule = RCamelCase /\ (forall m, ~ heard PVariant (vs_attrs v) (SRename m)) /\ no_camel_variant (unraw (vs_ident v)).

  (** some member, skipped or not, is to be renamed in a way it cannot be; enums with mixed discriminants are given up
      before names are looked at *)
  Inductive misnamed {A} (i : derive_input A) : Prop :=
  | mis_variant vs v r : di_data i = DaEnum vs -> ~ mixed_discriminants vs -> In v vs ->
      rule_heard (PContainer DkEnum) (di_attrs i) r -> variant_misnamed r v -> misnamed i
  | mis_variant_field vs v k f r : di_data i = DaEnum vs -> ~ mixed_discriminants vs -> In v vs ->
      rule_heard PVariant (vs_attrs v) r -> nth_error (fields_list (vs_fields v)) k = Some f -> field_misnamed r k f -> misnamed i
  | mis_field fs k f r : di_data i = DaStruct fs -> rule_heard (PContainer (shape (di_data i))) (di_attrs i) r ->
      nth_error (fields_list fs) k = Some f -> field_misnamed r k f -> misnamed i.
End Heard.
