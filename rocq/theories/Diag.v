(** The derive once more, with the compile errors it shows: their texts and the pieces of the declaration they point to.

    Models opg_derive/src/lib.rs:19-30, parsing_context.rs, and the reporting in attr.rs, ast.rs and opg.rs:10-22.  Attr.v
    and Ast.v keep of an error only its kind.  Pieces of source are named by where they stand.  Not modelled: the text of
    the errors of syn's parser, and the place they point to within the attribute. *)
From Verif Require Export Derive.
Local Open Scope string_scope. Local Open Scope list_scope.

(** ** Places *)

(** the container, its [v]-th variant, the [f]-th field of the struct or of the [v]-th variant *)
Inductive owner := OContainer | OVariant (v : nat) | OField (v : option nat) (f : nat).
(** of an item of an attribute's list: all of it, its path, the literal after [=], the path of the [j]-th item of its own list *)
Inductive part := PaItem | PaPath | PaLit | PaNested (j : nat).
(** the identifier of the declaration; all of it; the variants; what stands in the brackets of the [a]-th attribute of
    [o]; somewhere in there; (a part of) the [i]-th item of its list; no tokens at all *)
Inductive place :=
| AtIdent | AtInput | AtVariants
| AtMeta (o : owner) (a : nat)
| AtSyntax (o : owner) (a : nat)
| AtPart (o : owner) (a i : nat) (p : part)
| AtNothing.
(** a text of the derive, or one of syn's parser *)
Inductive message := Own (s : str) | Syn.
(** [syn::Error] *)
Record diag := { dg_at : place; dg_text : message }.
Definition own (p : place) (s : str) : diag := {| dg_at := p; dg_text := Own s |}.

(** ** [ParsingContext]: parsing_context.rs *)

(** parsing_context.rs:4-7; the [RefCell] is borrowed only within single expressions *)
Definition pcx : Type := option (list diag).
(** a value, or unwinding after a panic *)
Inductive out (A : Type) := Val (a : A) | Unwinds.
Arguments Val {A}. Arguments Unwinds {A}.
(** code that is given the context by reference *)
Definition M (A : Type) : Type := pcx -> out A * pcx.
Definition ret {A} (a : A) : M A := fun c => (Val a, c).
Definition unwind {A} : M A := fun c => (Unwinds, c).
Definition bind_m {A B} (m : M A) (f : A -> M B) : M B :=
  fun c => match m c with (Val a, c') => f a c' | (Unwinds, c') => (Unwinds, c') end.
Notation "'go' p <- x ; f" := (bind_m x (fun p => f)) (at level 200, p pattern, x at level 100, f at level 200).

(** parsing_context.rs:10-14 [new] *)
Definition pcx_new : pcx := Some [].
(** parsing_context.rs:16-26 [error_spanned_by], 28-30 [syn_error]; [unwrap] panics *)
Definition report (d : diag) : M unit :=
  fun c => match c with Some l => (Val tt, Some (l ++ [d])) | None => (Unwinds, c) end.
(** parsing_context.rs:32-39 [check], up to the drop of [self] *)
Definition check (c : pcx) : out (list diag) * pcx := match c with Some l => (Val l, None) | None => (Unwinds, c) end.
(** parsing_context.rs:42-48 [drop]: does it panic? *)
Definition drop_panics (panicking : bool) (c : pcx) : bool := negb panicking && is_some c.

(** ** Texts *)
Definition DESCRIPTION := u "description". (* symbol.rs:18 *)
(** attr.rs:693-701 *)
Definition from_name (f : attr_from) : str := match f with FromSerde => SERDE | FromOpg => OPG | FromRepr => REPR end.
Definition not_list_text (f : attr_from) : str := u "expected #[" ++ from_name f ++ u "(...)]".        (* attr.rs:676 *)
Definition not_string_text (w : str) : str :=                                                          (* attr.rs:646-649 *)
  u "expected " ++ w ++ u " attribute to be a string: `" ++ w ++ u " = ""...""`".
Definition duplicate_text (w : str) : str := u "duplicate opg attribute `" ++ w ++ u "`".               (* attr.rs:725, 842 *)
(** attr.rs:141-149, 268-276, 394-402: the tokens of a path, without spaces *)
Definition path_text (p : path) : str :=
  (if pa_colon p then u "::" else []) ++
  match pa_segs p with [] => [] | s :: l => s ++ flat_map (fun x => u "::" ++ x) l end.
Definition unknown_text (p : path) : str := u "unknown opg variant attribute `" ++ path_text p ++ u "`".

Section Parse.
  Variable parses_expr parses_path : str -> bool.
  Variable uni_upper : N -> bool.
  Variable eval_expr : str -> str.
  (** [format!("{:?}", s)] *)
  Variable debug : str -> str.

  (** ** The items of attributes *)

  (** what an arm of the loops does: nothing, an assignment ([p]: the tokens handed to [set]), an error *)
  Inductive daction := DIgnore | DSet (p : part) (x : setting) | DError (p : part) (s : str).

  (** attr.rs:627-653 *)
  Definition d_lit_str (w : str) (l : lit) (k : str -> daction) : daction :=
    match l with LStr s => k s | LOther => DError PaLit (not_string_text w) end.
  (** attr.rs:619-625 *)
  Definition d_lit_simple (l : lit) (k : str -> daction) : daction := match l with LStr s => k s | LOther => DIgnore end.
  (** attr.rs:537-557, with the index of each item *)
  Fixpoint d_get_ser (j : nat) (items : list nested) : option (list (nat * str)) :=
    match items with
    | [] => Some []
    | NMeta (MNameValue p l) :: rest =>
        if is_ident SERIALIZE p then
          match l with
          | LStr s => match d_get_ser (S j) rest with Some v => Some ((j, s) :: v) | None => None end
          | LOther => d_get_ser (S j) rest
          end
        else if is_ident DESERIALIZE p then d_get_ser (S j) rest
        else None
    | _ :: _ => None
    end.
  (** attr.rs:530-535 (the symbol is always [RENAME]) with 829-848: the second value is pointed to *)
  Definition d_renames (items : list nested) (k : str -> daction) : daction :=
    match d_get_ser 0 items with
    | None | Some [] => DIgnore
    | Some [(_, s)] => k s
    | Some (_ :: (j, _) :: _) => DError (PaNested j) (duplicate_text RENAME)
    end.
  (** attr.rs:66-79 *)
  Definition d_set_rule (s : str) : daction := match rule_from_str s with Some r => DSet PaPath (SRenameAll r) | None => DIgnore end.
  (** attr.rs:566-575 *)
  Definition d_example_with (l : lit) : daction :=
    d_lit_str EXAMPLE_WITH l (fun s =>
      if parses_expr s then DSet PaPath (SExample (ExCode s)) else DError PaLit (u "failed to parse expr: " ++ debug s)).
  (** attr.rs:577-589 *)
  Definition d_skip_if (l : lit) : daction :=
    d_lit_str SKIP_SERIALIZING_IF l (fun s =>
      if parses_path s then DSet PaPath SSkipIf else DError PaLit (u "failed to parse path expr: " ++ debug s)).

  (** attr.rs:110-130, 133-150 = 238-258, 260-277 = 363-382, 386-403 *)
  Definition d_opg_common (n : nested) : daction :=
    match n with
    | NLit l => d_lit_simple l (fun s => DSet PaItem (SDescription s))
    | NMeta (MNameValue p l) =>
        if is_ident FORMAT p then d_lit_str FORMAT l (fun s => DSet PaPath (SFormat s))
        else if is_ident EXAMPLE p then d_lit_str EXAMPLE l (fun s => DSet PaPath (SExample (ExLit s)))
        else if is_ident EXAMPLE_WITH p then d_example_with l
        else DError PaPath (unknown_text p)
    | NMeta (MList p _) => DError PaPath (unknown_text p)
    | NMeta (MPath p) =>
        match explicit_from_path p with
        | Some t => DSet PaPath (SType t)
        | None => DError PaPath (u "unknown attribute")
        end
    end.
  (** attr.rs:56-79 = 210-233, 341-350 *)
  Definition d_serde_rename (n : nested) (k : daction) : daction :=
    match n with
    | NMeta (MNameValue p l) => if is_ident RENAME p then d_lit_str RENAME l (fun s => DSet PaPath (SRename s)) else k
    | NMeta (MList p items) => if is_ident RENAME p then d_renames items (fun s => DSet PaPath (SRename s)) else k
    | _ => k
    end.
  Definition d_serde_rename_all (n : nested) (k : daction) : daction :=
    match n with
    | NMeta (MNameValue p l) => if is_ident RENAME_ALL p then d_lit_str RENAME_ALL l d_set_rule else k
    | NMeta (MList p items) => if is_ident RENAME_ALL p then d_renames items d_set_rule else k
    | _ => k
    end.

  (** attr.rs:55-154 *)
  Definition d_container_item (k : data_kind) (f : attr_from) (n : nested) : daction :=
    match f with
    | FromSerde =>
        d_serde_rename n (d_serde_rename_all n
          match n with
          | NMeta (MPath p) =>
              if is_ident TRANSPARENT p then DSet PaPath STransparent
              else if is_ident UNTAGGED p then match k with DkEnum => DSet PaPath SUntagged | _ => DIgnore end
              else DIgnore
          | NMeta (MNameValue p l) =>
              if is_ident TAG p then
                d_lit_simple l (fun s => match k with DkEnum | DkNamed => DSet PaPath (STag s) | DkOther => DIgnore end)
              else if is_ident CONTENT p then
                d_lit_simple l (fun s => match k with DkEnum => DSet PaPath (SContent s) | _ => DIgnore end)
              else DIgnore
          | _ => DIgnore
          end)
    | FromOpg =>
        match n with
        | NMeta (MPath p) =>
            if is_ident INLINE p then DSet PaPath SInline
            else if is_ident NULLABLE p then DSet PaPath SNullable
            else d_opg_common n
        | _ => d_opg_common n
        end
    | FromRepr => DSet PaItem SRepr
    end.
  (** attr.rs:209-279 *)
  Definition d_variant_item (f : attr_from) (n : nested) : daction :=
    match f with
    | FromSerde =>
        d_serde_rename n (d_serde_rename_all n
          match n with
          | NMeta (MPath p) => if is_ident SKIP p || is_ident SKIP_SERIALIZING p then DSet PaPath SSkip else DIgnore
          | _ => DIgnore
          end)
    | FromOpg =>
        match n with
        | NMeta (MPath p) => if is_ident INLINE p then DSet PaPath SInline else d_opg_common n
        | _ => d_opg_common n
        end
    | FromRepr => DIgnore
    end.
  (** attr.rs:340-405 *)
  Definition d_field_item (f : attr_from) (n : nested) : daction :=
    match f with
    | FromSerde =>
        d_serde_rename n
          match n with
          | NMeta (MPath p) =>
              if is_ident SKIP p || is_ident SKIP_SERIALIZING p then DSet PaPath SSkip
              else if is_ident FLATTEN p then DSet PaPath SFlatten
              else DIgnore
          | NMeta (MNameValue p l) => if is_ident SKIP_SERIALIZING_IF p then d_skip_if l else DIgnore
          | _ => DIgnore
          end
    | FromOpg =>
        match n with
        | NMeta (MPath p) =>
            if is_ident OPTIONAL p then DSet PaPath SOptional
            else if is_ident INLINE p then DSet PaPath SInline
            else if is_ident NULLABLE p then DSet PaPath SNullable
            else d_opg_common n
        | _ => d_opg_common n
        end
    | FromRepr => DIgnore
    end.
  Definition d_item (pos : position) (f : attr_from) (n : nested) : daction :=
    match pos with PContainer k => d_container_item k f n | PVariant => d_variant_item f n | PField => d_field_item f n end.

  (** ** The loops *)

  (** attr.rs:34-47, 193-201, 316-327: the symbol a variable is created with; [OneOfFlagsAttr] has none *)
  Definition symbol_of (x : setting) : str :=
    match x with
    | SRename _ => RENAME | SRenameAll _ => RENAME_ALL | STransparent => TRANSPARENT | SUntagged => UNTAGGED | STag _ => TAG
    | SContent _ => CONTENT | SRepr => REPR | SSkip => SKIP_SERIALIZING | SSkipIf => SKIP_SERIALIZING_IF | SFlatten => FLATTEN
    | SOptional => OPTIONAL | SDescription _ => DESCRIPTION | SFormat _ => FORMAT | SExample _ => EXAMPLE | SInline => INLINE
    | SNullable => NULLABLE | SType _ => []
    end.
  (** the variables, with [OneOfFlagsAttr::first_dup_tokens] *)
  Definition vars : Type := slots * place.
  (** attr.rs:720-730 [Attr::set], 765-767, 790-795 [OneOfFlagsAttr::set] *)
  Definition d_set (here : place) (x : setting) (v : vars) : M vars :=
    let (s, dup_tokens) := v in
    match x with
    | SType _ => ret (fst (assign x s), if Nat.eqb (length (s_types s)) 1 then here else dup_tokens)
    | _ =>
        let (s', dup) := assign x s in
        if dup then go _ <- report (own here (duplicate_text (symbol_of x))); ret (s', dup_tokens) else ret (s', dup_tokens)
    end.
  Fixpoint d_items (o : owner) (pos : position) (a : nat) (f : attr_from) (i : nat) (items : list nested) (v : vars) : M vars :=
    match items with
    | [] => ret v
    | n :: rest =>
        go v' <- match d_item pos f n with
                 | DIgnore => ret v
                 | DSet p x => d_set (AtPart o a i p) x v
                 | DError p s => go _ <- report (own (AtPart o a i p) s); ret v
                 end;
        d_items o pos a f (S i) rest v'
    end.
  (** attr.rs:655-663 *)
  Definition from_of (a : attribute) : option attr_from :=
    if is_ident OPG (at_path a) then Some FromOpg
    else if is_ident SERDE (at_path a) then Some FromSerde
    else if is_ident REPR (at_path a) then Some FromRepr
    else None.
  (** attr.rs:49-155, 203-280, 334-406, with 664-684; the iterator is lazy *)
  Fixpoint d_loop (o : owner) (pos : position) (a : nat) (l : list attribute) (v : vars) : M vars :=
    match l with
    | [] => ret v
    | x :: rest =>
        go v' <- match from_of x with
                 | None => ret v
                 | Some f =>
                     match at_meta x with
                     | PmList items => d_items o pos a f 0 items v
                     | PmOther => go _ <- report (own (AtMeta o a) (not_list_text f)); ret v
                     | PmErr => go _ <- report {| dg_at := AtSyntax o a; dg_text := Syn |}; ret v
                     end
                 end;
        d_loop o pos (S a) rest v'
    end.
  Definition d_parse (o : owner) (pos : position) (l : list attribute) : M vars := d_loop o pos 0 l (no_slots, AtNothing).
  (** attr.rs:797-805 [OneOfFlagsAttr::at_most_one] *)
  Definition d_at_most_one (v : vars) : M (option explicit_type) :=
    let (s, dup_tokens) := v in
    go _ <- (if Nat.ltb 1 (length (s_types s)) then report (own dup_tokens (u "duplicate opg attribute")) else ret tt);
    ret (last_opt (s_types s)).

  (** attr.rs:192-292 *)
  Definition d_variant (o : owner) (ident : str) (l : list attribute) : M variant_attrs :=
    go v <- d_parse o PVariant l;
    go t <- d_at_most_one v;
    let s := fst v in
    ret {| va_name := name_from (unraw ident) (s_rename s); va_rename_rule := rule_or_none (s_rename_all s);
           va_skip := is_some (s_skip s); va_description := s_description s; va_format := s_format s; va_example := s_example s;
           va_inline := is_some (s_inline s); va_explicit := t |}.
  (** attr.rs:315-421 *)
  Definition d_field (o : owner) (source : str) (l : list attribute) : M field_attrs :=
    go v <- d_parse o PField l;
    go t <- d_at_most_one v;
    let s := fst v in
    ret {| fa_name := name_from source (s_rename s); fa_skip := is_some (s_skip s); fa_flatten := is_some (s_flatten s);
           fa_transparent := false; fa_optional := is_some (s_skip_if s) || is_some (s_optional s);
           fa_description := s_description s; fa_format := s_format s; fa_example := s_example s;
           fa_inline := is_some (s_inline s); fa_nullable := is_some (s_nullable s); fa_explicit := t |}.

  (** attr.rs:485-528 [decide_model_type] with the [unwrap_or] of line 159 *)
  Definition d_model_kind (d : data_syn ty) (t : tag_type) : M model_kind :=
    let fail s := go _ <- report (own AtIdent (u s)); ret MkObject in
    match d with
    | DaEnum vs =>
        if forallb (fun v => is_unit (vs_fields v)) vs then
          match t with TagNone => fail "unit enums are not supported for untagged" | _ => ret MkNewType end
        else match t with
             | TagNone | TagInternal _ => ret MkOneOf
             | TagExternal => ret MkDictionary
             | TagAdjacent _ _ => ret MkObject
             end
    | DaStruct (FNamed _) => ret MkObject
    | DaStruct (FUnnamed _) => ret MkNewType
    | DaStruct FUnit => fail "unit structs are not supported"
    | DaUnion => fail "unions are not supported"
    end.
  (** attr.rs:32-176 *)
  Definition d_container_attrs (i : derive_input ty) : M container_attrs :=
    go v <- d_parse OContainer (PContainer (kind_of_data (di_data i))) (di_attrs i);
    let s := fst v in
    let tag := decide_tag (s_untagged s) (s_tag s) (s_content s) in
    go t <- d_at_most_one v;
    go mk <- d_model_kind (di_data i) tag;
    ret {| ca_name := name_from (unraw (di_ident i)) (s_rename s); ca_rename_rule := rule_or_none (s_rename_all s);
           ca_transparent := is_some (s_transparent s); ca_tag_type := tag; ca_has_flatten := false;
           ca_has_repr := is_some (s_repr s); ca_description := s_description s; ca_format := s_format s;
           ca_example := s_example s; ca_inline := is_some (s_inline s); ca_nullable := is_some (s_nullable s);
           ca_explicit := t; ca_model_kind := mk |}.

  (** ast.rs:153-170 *)
  Fixpoint d_fields (v : option nat) (index : nat) (l : list (field_syn ty)) : M (list (field ty)) :=
    match l with
    | [] => ret []
    | f :: l' =>
        let source := match fs_ident f with Some i => unraw i | None => nat_to_string index end in
        go a <- d_field (OField v index) source (fs_attrs f);
        go rest <- d_fields v (S index) l';
        ret ({| f_attrs := a; f_ty := fs_ty f |} :: rest)
    end.
  (** ast.rs:139-151 *)
  Definition d_struct (v : option nat) (f : fields_syn ty) : M (struct_style * list (field ty)) :=
    match f with
    | FNamed l => go fs <- d_fields v 0 l; ret (StStruct, fs)
    | FUnnamed l => go fs <- d_fields v 0 l; ret (if Nat.eqb (length l) 1 then StNewType else StTuple, fs)
    | FUnit => ret (StUnit, [])
    end.
  (** ast.rs:121-136 *)
  Fixpoint d_variants (index : nat) (vs : list (variant_syn ty)) : M (list (variant ty)) :=
    match vs with
    | [] => ret []
    | v :: rest =>
        go a <- d_variant (OVariant index) (vs_ident v) (vs_attrs v);
        go (st, fs) <- d_struct (Some index) (vs_fields v);
        go l <- d_variants (S index) rest;
        ret ({| v_ident := vs_ident v; v_attrs := a; v_style := st; v_fields := fs; v_discriminant := vs_discriminant v |} :: l)
    end.
  (** ast.rs:36-50, 102-119 *)
  Definition d_data (i : derive_input ty) : M (option (data ty)) :=
    match di_data i with
    | DaEnum vs =>
        if consistent_discriminants vs then go l <- d_variants 0 vs; ret (Some (Enum l))
        else go _ <- report (own AtVariants (u "varant discriminants are not consistent")); ret None
    | DaStruct f => go (st, fs) <- d_struct None f; ret (Some (Struct st fs))
    | DaUnion => go _ <- report (own AtInput (u "union types are not supported")); ret None
    end.
  (** ast.rs:36-87 *)
  Definition d_container (i : derive_input ty) : M (option (container ty)) :=
    go a <- d_container_attrs i;
    go od <- d_data i;
    match od with
    | None => ret None
    | Some d =>
        match rename_data uni_upper (ca_rename_rule a) d with
        | None => unwind
        | Some d' =>
            ret (Some {| c_ident := di_ident i;
                         c_attrs := {| ca_name := ca_name a; ca_rename_rule := ca_rename_rule a;
                                       ca_transparent := ca_transparent a; ca_tag_type := ca_tag_type a;
                                       ca_has_flatten := any_flatten d || ca_has_flatten a;
                                       ca_has_repr := ca_has_repr a;
                                       ca_description := ca_description a; ca_format := ca_format a;
                                       ca_example := ca_example a; ca_inline := ca_inline a;
                                       ca_nullable := ca_nullable a; ca_explicit := ca_explicit a;
                                       ca_model_kind := ca_model_kind a |};
                         c_data := d' |})
        end
    end.

  (** ** The entry point *)

  (** what the compiler gets: an impl, [compile_error!]s in this order (lib.rs:27-30), a panic of the macro, or an abort
      of the compiler (a panic while unwinding) *)
  Inductive shown := Written (t : typedef) | Errors (l : list diag) | Panics | Aborts.
  (** the end of the life of a context while nothing unwinds *)
  Definition dropped (c : pcx) (s : shown) : shown := if drop_panics false c then Panics else s.
  (** opg.rs:10-35, lib.rs:19-30 *)
  Definition derive_shows (i : derive_input ty) : shown :=
    match d_container i pcx_new with
    | (Unwinds, c) => if drop_panics true c then Aborts else Panics
    | (Val None, c) =>                               (* return Err(cx.check().unwrap_err()) *)
        match check c with
        | (Val (d :: l), c') => dropped c' (Errors (d :: l))
        | (Val [], c') => dropped c' Panics
        | (Unwinds, c') => if drop_panics true c' then Aborts else Panics
        end
    | (Val (Some k), c) =>                           (* cx.check()? *)
        match check c with
        | (Val (d :: l), c') => dropped c' (Errors (d :: l))
        | (Val [], c') =>
            dropped c' match serialize_body eval_expr k with
                       | None => Panics
                       | Some b => Written {| td_ident := c_ident k; td_inline := ca_inline (c_attrs k); td_body := b |}
                       end
        | (Unwinds, c') => if drop_panics true c' then Aborts else Panics
        end
    end.
End Parse.
