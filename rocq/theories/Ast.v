(** Model of opg_derive/src/ast.rs and the rest of attr.rs: from a derive input to a container. *)
From Verif Require Export Attr.

(** ** Derive inputs (syn), over a type [A] of field types *)

Section Syntax.
  Variable A : Type.

  (** [syn::Field] *)
  Record field_syn := { fs_attrs : list attribute; fs_ident : option str; fs_ty : A }.
  (** [syn::Fields] *)
  Inductive fields_syn := FNamed (l : list field_syn) | FUnnamed (l : list field_syn) | FUnit.
  (** [syn::Variant]; the discriminant is kept as its token text *)
  Record variant_syn := {
    vs_attrs : list attribute; vs_ident : str; vs_fields : fields_syn; vs_discriminant : option str }.
  (** [syn::Data] *)
  Inductive data_syn := DaEnum (l : list variant_syn) | DaStruct (f : fields_syn) | DaUnion.
  (** [syn::DeriveInput]; generics are treated in Bound.v *)
  Record derive_input := { di_attrs : list attribute; di_ident : str; di_data : data_syn }.
End Syntax.
Arguments fs_attrs {A}. Arguments fs_ident {A}. Arguments fs_ty {A}. Arguments Build_field_syn {A}.
Arguments FNamed {A}. Arguments FUnnamed {A}. Arguments FUnit {A}.
Arguments vs_attrs {A}. Arguments vs_ident {A}. Arguments vs_fields {A}. Arguments vs_discriminant {A}.
Arguments Build_variant_syn {A}.
Arguments DaEnum {A}. Arguments DaStruct {A}. Arguments DaUnion {A}.
Arguments di_attrs {A}. Arguments di_ident {A}. Arguments di_data {A}. Arguments Build_derive_input {A}.

(** ast.rs:173-178 [StructStyle] *)
Inductive struct_style := StStruct | StTuple | StNewType | StUnit.

(** ** The container: ast.rs:7-33.  [original] is kept only as far as it is used (type, discriminant). *)
Section Container.
  Variable A : Type.
  Record field := { f_attrs : field_attrs; f_ty : A }.
  Record variant := {
    v_ident : str; v_attrs : variant_attrs; v_style : struct_style; v_fields : list field;
    v_discriminant : option str }.
  Inductive data := Enum (l : list variant) | Struct (st : struct_style) (l : list field).
  Record container := { c_ident : str; c_attrs : container_attrs; c_data : data }.
End Container.
Arguments f_attrs {A}. Arguments f_ty {A}. Arguments Build_field {A}.
Arguments v_ident {A}. Arguments v_attrs {A}. Arguments v_style {A}. Arguments v_fields {A}.
Arguments v_discriminant {A}. Arguments Build_variant {A}.
Arguments Enum {A}. Arguments Struct {A}.
Arguments c_ident {A}. Arguments c_attrs {A}. Arguments c_data {A}. Arguments Build_container {A}.

(** decimal rendering of an index ([usize::to_string]) *)
Fixpoint digits (fuel : nat) (n : N) (acc : str) : str :=
  match fuel with
  | O => acc
  | S f => let d := (48 + n mod 10)%N in
           if (n <? 10)%N then d :: acc else digits f (n / 10) (d :: acc)
  end.
Definition nat_to_string (n : nat) : str := digits (S n) (N.of_nat n) [].

Section FromAst.
  Context {A : Type}.
  Variable parses_expr parses_path : str -> bool.
  Variable uni_upper : N -> bool.

  Definition kind_of_data (d : data_syn A) : data_kind :=
    match d with DaEnum _ => DkEnum | DaStruct (FNamed _) => DkNamed | _ => DkOther end.

  Definition is_unit (f : fields_syn A) : bool := match f with FUnit => true | _ => false end.

  (** attr.rs:485-528 [decide_model_type] with the [unwrap_or] of line 159 *)
  Definition decide_model_kind (d : data_syn A) (t : tag_type) : model_kind * list err :=
    match d with
    | DaEnum vs =>
        if forallb (fun v => is_unit (vs_fields v)) vs then
          match t with
          | TagNone => (MkObject, [EUntaggedUnits])
          | _ => (MkNewType, [])
          end
        else match t with
             | TagNone | TagInternal _ => (MkOneOf, [])
             | TagExternal => (MkDictionary, [])
             | TagAdjacent _ _ => (MkObject, [])
             end
    | DaStruct (FNamed _) => (MkObject, [])
    | DaStruct (FUnnamed _) => (MkNewType, [])
    | DaStruct FUnit => (MkObject, [EUnitStruct])
    | DaUnion => (MkObject, [EUnion])
    end.

  (** attr.rs:33-176 [attr::Container::from_ast] *)
  Definition container_attrs_from_ast (i : derive_input A) : container_attrs * list err :=
    let (s, es) := parse_attrs parses_expr parses_path (PContainer (kind_of_data (di_data i))) (di_attrs i) in
    let tag := decide_tag (s_untagged s) (s_tag s) (s_content s) in
    let (t, dup) := at_most_one (s_types s) in
    let (mk, bad) := decide_model_kind (di_data i) tag in
    ({| ca_name := name_from (unraw (di_ident i)) (s_rename s);
        ca_rename_rule := rule_or_none (s_rename_all s);
        ca_transparent := is_some (s_transparent s);
        ca_tag_type := tag;
        ca_has_flatten := false;
        ca_has_repr := is_some (s_repr s);
        ca_description := s_description s;
        ca_format := s_format s;
        ca_example := s_example s;
        ca_inline := is_some (s_inline s);
        ca_nullable := is_some (s_nullable s);
        ca_explicit := t;
        ca_model_kind := mk |}, es ++ dup ++ bad).

  (** ast.rs:153-170 [fields_from_ast] (attr.rs:329-332 for the source name) *)
  Fixpoint fields_from_ast (index : nat) (l : list (field_syn A)) : list (field A) * list err :=
    match l with
    | [] => ([], [])
    | f :: l' =>
        let source := match fs_ident f with Some i => unraw i | None => nat_to_string index end in
        let (a, es) := field_from_ast parses_expr parses_path source (fs_attrs f) in
        let (rest, es') := fields_from_ast (S index) l' in
        ({| f_attrs := a; f_ty := fs_ty f |} :: rest, es ++ es')
    end.

  (** ast.rs:139-151 [struct_from_ast] *)
  Definition struct_from_ast (f : fields_syn A) : struct_style * list (field A) * list err :=
    match f with
    | FNamed l => let (fs, es) := fields_from_ast 0 l in (StStruct, fs, es)
    | FUnnamed l =>
        let (fs, es) := fields_from_ast 0 l in
        (if Nat.eqb (length l) 1 then StNewType else StTuple, fs, es)
    | FUnit => (StUnit, [], [])
    end.

  (** ast.rs:106-114 *)
  Definition consistent_discriminants (vs : list (variant_syn A)) : bool :=
    match vs with
    | [] => true
    | v :: rest => forallb (fun w => Bool.eqb (is_some (vs_discriminant w)) (is_some (vs_discriminant v))) rest
    end.

  (** ast.rs:121-136 *)
  Fixpoint variants_from_ast (vs : list (variant_syn A)) : list (variant A) * list err :=
    match vs with
    | [] => ([], [])
    | v :: rest =>
        let (a, es) := variant_from_ast parses_expr parses_path (vs_ident v) (vs_attrs v) in
        let '(st, fs, es1) := struct_from_ast (vs_fields v) in
        let (l, es2) := variants_from_ast rest in
        ({| v_ident := vs_ident v; v_attrs := a; v_style := st; v_fields := fs;
            v_discriminant := vs_discriminant v |} :: l, es ++ es1 ++ es2)
    end.

  (** a [for] loop whose body may panic *)
  Definition try_map {X Y} (f : X -> option Y) :=
    fix go (l : list X) : option (list Y) :=
      match l with
      | [] => Some []
      | x :: l' =>
          match f x with
          | None => None
          | Some y => match go l' with Some ys => Some (y :: ys) | None => None end
          end
      end.

  (** attr.rs:423-425 [Field::rename_by_rule] *)
  Definition rename_field (r : rename_rule) (f : field A) : option (field A) :=
    let a := f_attrs f in
    match rename_as_field r (fa_name a) with
    | None => None
    | Some n =>
        Some {| f_attrs := {| fa_name := n; fa_skip := fa_skip a; fa_flatten := fa_flatten a;
                              fa_transparent := fa_transparent a; fa_optional := fa_optional a;
                              fa_description := fa_description a; fa_format := fa_format a;
                              fa_example := fa_example a; fa_inline := fa_inline a;
                              fa_nullable := fa_nullable a; fa_explicit := fa_explicit a |};
                f_ty := f_ty f |}
    end.

  (** ast.rs:54-62: a variant is renamed by the container's rule, its fields by its own *)
  Definition rename_variant (r : rename_rule) (v : variant A) : option (variant A) :=
    let a := v_attrs v in
    match rename_as_variant uni_upper r (va_name a) with
    | None => None
    | Some n =>
        match try_map (rename_field (va_rename_rule a)) (v_fields v) with
        | None => None
        | Some fs =>
            Some {| v_ident := v_ident v;
                    v_attrs := {| va_name := n; va_rename_rule := va_rename_rule a; va_skip := va_skip a;
                                  va_description := va_description a; va_format := va_format a;
                                  va_example := va_example a; va_inline := va_inline a;
                                  va_explicit := va_explicit a |};
                    v_style := v_style v; v_fields := fs; v_discriminant := v_discriminant v |}
        end
    end.

  (** ast.rs:51-72 *)
  Definition rename_data (r : rename_rule) (d : data A) : option (data A) :=
    match d with
    | Enum vs => match try_map (rename_variant r) vs with Some vs' => Some (Enum vs') | None => None end
    | Struct st fs => match try_map (rename_field r) fs with Some fs' => Some (Struct st fs') | None => None end
    end.

  (** ast.rs:57-59, 66-68: whether some field is marked [flatten] (computed, never used further) *)
  Definition any_flatten (d : data A) : bool :=
    match d with
    | Enum vs => existsb (fun v => existsb (fun f => fa_flatten (f_attrs f)) (v_fields v)) vs
    | Struct _ fs => existsb (fun f => fa_flatten (f_attrs f)) fs
    end.

  (** [None] returned, a container, or a panic while renaming *)
  Inductive from_ast_result := FaNone | FaSome (c : container A) | FaPanic.

  (** ast.rs:36-87 [Container::from_ast], with the errors reported *)
  Definition container_from_ast (i : derive_input A) : from_ast_result * list err :=
    let (a, es) := container_attrs_from_ast i in
    let parsed :=
      match di_data i with
      | DaEnum vs =>
          if consistent_discriminants vs then
            let (l, es') := variants_from_ast vs in (Some (Enum l), es')
          else (None, [EDiscriminants])
      | DaStruct f => let '(st, fs, es') := struct_from_ast f in (Some (Struct st fs), es')
      | DaUnion => (None, [EUnion])
      end in
    let (od, es') := parsed in
    match od with
    | None => (FaNone, es ++ es')
    | Some d =>
        match rename_data (ca_rename_rule a) d with
        | None => (FaPanic, es ++ es')
        | Some d' =>
            (FaSome {| c_ident := di_ident i;
                       c_attrs := {| ca_name := ca_name a; ca_rename_rule := ca_rename_rule a;
                                     ca_transparent := ca_transparent a; ca_tag_type := ca_tag_type a;
                                     ca_has_flatten := any_flatten d || ca_has_flatten a;
                                     ca_has_repr := ca_has_repr a;
                                     ca_description := ca_description a; ca_format := ca_format a;
                                     ca_example := ca_example a; ca_inline := ca_inline a;
                                     ca_nullable := ca_nullable a; ca_explicit := ca_explicit a;
                                     ca_model_kind := ca_model_kind a |};
                       c_data := d' |}, es ++ es')
        end
    end.
End FromAst.
Arguments FaNone {A}. Arguments FaSome {A}. Arguments FaPanic {A}.
