(** Specification of the compile errors of the derive: what there is to complain about in a declaration, where the complaint
    points to, what it says, and in which order complaints come.  Uses the vocabulary of AttrSpec.v and DeriveSpec.v and
    the types of places of Diag.v. *)
From Verif Require Import AttrSpec DeriveSpec.
From Verif Require Export Diag.
Local Open Scope string_scope. Local Open Scope list_scope.

(** a path as written *)
Inductive joined : list str -> str -> Prop :=
| jo_nil : joined [] []
| jo_one x : joined [x] x
| jo_more x y l s : joined (y :: l) s -> joined (x :: y :: l) (x ++ u "::" ++ s).
Definition path_written (p : path) (s : str) : Prop :=
  exists segs, joined (pa_segs p) segs /\ s = (if pa_colon p then u "::" else []) ++ segs.
(** the [j]-th item gives a string for serialisation *)
Definition serialize_string_at (items : list nested) (j : nat) : Prop :=
  exists s, nth_error items j = Some (name_value "serialize" (LStr s)).
(** the second such item *)
Definition second_string (items : list nested) (j : nat) : Prop :=
  serialize_string_at items j /\ exists j1, j1 < j /\ serialize_string_at items j1 /\
    forall j2, j2 < j -> serialize_string_at items j2 -> j2 = j1.

Definition in_quotes (s : string) (w : str) : str := u s ++ u "`" ++ w ++ u "`".
Definition wants_string (w : string) : str := u ("expected " ++ w ++ " attribute to be a string: `" ++ w ++ " = ""...""`").

(** the name that a repeated attribute is called by *)
Definition key_name (k : key) : string :=
  match k with
  | KRename => "rename" | KRenameAll => "rename_all" | KTransparent => "transparent" | KUntagged => "untagged" | KTag => "tag"
  | KContent => "content" | KRepr => "repr" | KSkip => "skip_serializing" | KSkipIf => "skip_serializing_if"
  | KFlatten => "flatten" | KOptional => "optional" | KDescription => "description" | KFormat => "format"
  | KExample => "example" | KInline => "inline" | KNullable => "nullable" | KType => ""
  end.
Definition source_name_of (f : attr_from) : string := match f with FromSerde => "serde" | FromOpg => "opg" | FromRepr => "repr" end.

Section Complaints.
  Variable is_expr is_path : str -> bool.
  Variable debug : str -> str.

  (** what is wrong with a single item: which part of it, and what is said about it *)
  Inductive wrong (pos : position) : attr_from -> nested -> part -> str -> Prop :=
  | wr_opg_value w : In w opg_keys -> wrong pos FromOpg (name_value w LOther) PaLit (wants_string w)
  | wr_serde_value w : w = "rename" \/ (w = "rename_all" /\ has_children pos) \/ (w = "skip_serializing_if" /\ pos = PField) ->
      wrong pos FromSerde (name_value w LOther) PaLit (wants_string w)
  | wr_expr s : is_expr s = false ->
      wrong pos FromOpg (name_value "example_with" (LStr s)) PaLit (u "failed to parse expr: " ++ debug s)
  | wr_path s : pos = PField -> is_path s = false ->
      wrong pos FromSerde (name_value "skip_serializing_if" (LStr s)) PaLit (u "failed to parse path expr: " ++ debug s)
  | wr_renames w items ss j : w = "rename" \/ (w = "rename_all" /\ has_children pos) -> serialize_strings items ss -> second_string items j ->
      wrong pos FromSerde (list_item w items) (PaNested j) (u "duplicate opg attribute `rename`")
  | wr_word p : unknown_opg pos (NMeta (MPath p)) -> wrong pos FromOpg (NMeta (MPath p)) PaPath (u "unknown attribute")
  | wr_key p l s : unknown_opg pos (NMeta (MNameValue p l)) -> path_written p s ->
      wrong pos FromOpg (NMeta (MNameValue p l)) PaPath (in_quotes "unknown opg variant attribute " s)
  | wr_list p items s : path_written p s ->
      wrong pos FromOpg (NMeta (MList p items)) PaPath (in_quotes "unknown opg variant attribute " s).

  (** the [i]-th item of the [a]-th attribute *)
  Definition item_at (l : list attribute) (a i : nat) (f : attr_from) (n : nested) : Prop :=
    exists x items, nth_error l a = Some x /\ belongs x f /\ at_meta x = PmList items /\ nth_error items i = Some n.
  Definition earlier (a1 i1 a2 i2 : nat) : Prop := a1 < a2 \/ (a1 = a2 /\ i1 < i2).
  (** the item there says something about the attribute with this key *)
  Definition sets_at (pos : position) (l : list attribute) (a i : nat) (k : key) : Prop :=
    exists f n x, item_at l a i f n /\ says is_expr is_path pos f n x /\ key_of x = k.
  (** descriptions and [repr] have no key to point to *)
  Definition pointed (k : key) : part := match k with KDescription | KRepr => PaItem | _ => PaPath end.

  (** what there is to complain about in the attributes of one owner *)
  Inductive complaint (o : owner) (pos : position) (l : list attribute) : diag -> Prop :=
  | co_not_list a x f : nth_error l a = Some x -> belongs x f -> at_meta x = PmOther ->
      complaint o pos l (own (AtMeta o a) (u ("expected #[" ++ source_name_of f ++ "(...)]")))
  | co_syntax a x f : nth_error l a = Some x -> belongs x f -> at_meta x = PmErr ->
      complaint o pos l {| dg_at := AtSyntax o a; dg_text := Syn |}
  | co_item a i f n p s : item_at l a i f n -> wrong pos f n p s -> complaint o pos l (own (AtPart o a i p) s)
  | co_repeated a1 i1 a i k : sets_at pos l a1 i1 k -> sets_at pos l a i k -> earlier a1 i1 a i -> k <> KType ->
      complaint o pos l (own (AtPart o a i (pointed k)) (in_quotes "duplicate opg attribute " (u (key_name k))))
  | co_types a1 i1 a i : sets_at pos l a1 i1 KType -> sets_at pos l a i KType -> earlier a1 i1 a i ->
      (forall a2 i2, sets_at pos l a2 i2 KType -> earlier a2 i2 a i -> a2 = a1 /\ i2 = i1) ->
      complaint o pos l (own (AtPart o a i PaPath) (u "duplicate opg attribute")).

  (** the owners that are looked at, with their attributes: those of members only if the discriminants are consistent *)
  Inductive looked_at (i : derive_input ty) : owner -> position -> list attribute -> Prop :=
  | la_container : looked_at i OContainer (PContainer (shape (di_data i))) (di_attrs i)
  | la_variant vs k v : di_data i = DaEnum vs -> ~ mixed_discriminants vs -> nth_error vs k = Some v ->
      looked_at i (OVariant k) PVariant (vs_attrs v)
  | la_variant_field vs k v j f : di_data i = DaEnum vs -> ~ mixed_discriminants vs -> nth_error vs k = Some v ->
      nth_error (fields_list (vs_fields v)) j = Some f -> looked_at i (OField (Some k) j) PField (fs_attrs f)
  | la_field fs j f : di_data i = DaStruct fs -> nth_error (fields_list fs) j = Some f -> looked_at i (OField None j) PField (fs_attrs f).

  (** [#[serde(untagged)]] without [tag] and [content], judged by the first of each *)
  Definition some_set (pos : position) (l : list attribute) (k : key) : Prop := exists a i, sets_at pos l a i k.
  Definition untagged_only (l : list attribute) : Prop :=
    some_set (PContainer DkEnum) l KUntagged /\ ~ some_set (PContainer DkEnum) l KTag /\ ~ some_set (PContainer DkEnum) l KContent.

  (** all complaints about a declaration *)
  Inductive complains (i : derive_input ty) : diag -> Prop :=
  | cs_attrs o pos l d : looked_at i o pos l -> complaint o pos l d -> complains i d
  | cs_untagged vs : di_data i = DaEnum vs -> (forall v, In v vs -> unit_variant v) -> untagged_only (di_attrs i) ->
      complains i (own AtIdent (u "unit enums are not supported for untagged"))
  | cs_unit : di_data i = DaStruct FUnit -> complains i (own AtIdent (u "unit structs are not supported"))
  | cs_union : di_data i = DaUnion -> complains i (own AtIdent (u "unions are not supported"))
  | cs_union_again : di_data i = DaUnion -> complains i (own AtInput (u "union types are not supported"))
  | cs_discriminants vs : di_data i = DaEnum vs -> mixed_discriminants vs ->
      complains i (own AtVariants (u "varant discriminants are not consistent")).
End Complaints.

(** ** The order: the container first, then each variant followed by its fields, or the fields of the struct; within an owner
    by attribute and item, except that a second type comes after everything else; then what is wrong with the container as
    a whole *)
Definition owner_rank (o : owner) : list nat :=
  match o with
  | OContainer => [0; 0]
  | OVariant v => [S v; 0]
  | OField (Some v) f => [S v; S f]
  | OField None f => [S f; 0]
  end.
Definition is_type_complaint (d : diag) : Prop := dg_text d = Own (u "duplicate opg attribute").
Inductive ranked (d : diag) : list nat -> Prop :=
| rk_part o a i p : dg_at d = AtPart o a i p -> ~ is_type_complaint d -> ranked d (owner_rank o ++ [0; a; i])
| rk_type o a i p : dg_at d = AtPart o a i p -> is_type_complaint d -> ranked d (owner_rank o ++ [1; 0; 0])
| rk_meta o a : dg_at d = AtMeta o a -> ranked d (owner_rank o ++ [0; a; 0])
| rk_syntax o a : dg_at d = AtSyntax o a -> ranked d (owner_rank o ++ [0; a; 0])
| rk_ident : dg_at d = AtIdent -> ranked d [0; 0; 2; 0; 0]
| rk_input : dg_at d = AtInput -> ranked d [0; 0; 3; 0; 0]
| rk_variants : dg_at d = AtVariants -> ranked d [0; 0; 3; 0; 0].
(** the lexicographic order *)
Inductive lex_lt : list nat -> list nat -> Prop :=
| lex_head x y l m : x < y -> lex_lt (x :: l) (y :: m)
| lex_tail x l m : lex_lt l m -> lex_lt (x :: l) (x :: m).
Definition comes_before (d1 d2 : diag) : Prop := exists r1 r2, ranked d1 r1 /\ ranked d2 r2 /\ lex_lt r1 r2.
