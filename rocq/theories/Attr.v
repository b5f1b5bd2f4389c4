(** Model of opg_derive/src/attr.rs: attribute parsing.

    Input is the syntax tree syn hands to the derive.  Error messages are abstracted to their kind;
    their texts and places are modelled in Diag.v. *)
From Verif Require Export Case.

(** ** Syntax trees (syn) *)

(** [syn::Lit]: a string literal with its value, or any other literal *)
Inductive lit := LStr (s : str) | LOther.

(** [syn::Path] in an attribute: leading [::] and the segments as written ([r#x] keeps its prefix) *)
Record path := { pa_colon : bool; pa_segs : list str }.

(** [syn::NestedMeta], [syn::Meta] *)
Inductive nested :=
| NLit (l : lit)
| NMeta (m : meta)
with meta :=
| MPath (p : path)
| MNameValue (p : path) (l : lit)
| MList (p : path) (items : list nested).

(** [syn::Attribute] with the outcome of [Attribute::parse_meta]: a list, another meta, or a syntax error *)
Inductive parsed_meta := PmList (items : list nested) | PmOther | PmErr.
Record attribute := { at_path : path; at_meta : parsed_meta }.

(** symbol.rs:59-81, [syn::Path::is_ident] *)
Definition is_ident (name : str) (p : path) : bool :=
  match pa_segs p with
  | [s] => negb (pa_colon p) && str_eqb s name
  | _ => false
  end.

(** ** Symbols: symbol.rs:10-48 *)
Definition OPG := u "opg".
Definition EXAMPLE := u "example".
Definition EXAMPLE_WITH := u "example_with".
Definition FORMAT := u "format".
Definition STRING := u "string".
Definition NUMBER := u "number".
Definition INTEGER := u "integer".
Definition BOOLEAN := u "boolean".
Definition ANY := u "any".
Definition INLINE := u "inline".
Definition OPTIONAL := u "optional".
Definition NULLABLE := u "nullable".
Definition SERDE := u "serde".
Definition UNTAGGED := u "untagged".
Definition TRANSPARENT := u "transparent".
Definition FLATTEN := u "flatten".
Definition SKIP := u "skip".
Definition SKIP_SERIALIZING := u "skip_serializing".
Definition SKIP_SERIALIZING_IF := u "skip_serializing_if".
Definition TAG := u "tag".
Definition CONTENT := u "content".
Definition RENAME := u "rename".
Definition RENAME_ALL := u "rename_all".
Definition SERIALIZE := u "serialize".
Definition DESERIALIZE := u "deserialize".
Definition REPR := u "repr".

(** ** Settings *)

(** attr.rs:429-435 [ExplicitModelType] *)
Inductive explicit_type := ETString | ETInteger | ETNumber | ETBoolean | ETAny.

(** The expression kept for [example]/[example_with]: a string literal (attr.rs:559-564) or the
    expression parsed from the given text (attr.rs:566-575). *)
Inductive example := ExLit (s : str) | ExCode (s : str).

(** A value assigned to one of the [Attr]/[BoolAttr]/[OneOfFlagsAttr] variables of the [from_ast]
    functions (attr.rs:34-47, 193-201, 316-327). *)
Inductive setting :=
| SRename (s : str)
| SRenameAll (r : rename_rule)
| STransparent
| SUntagged
| STag (s : str)
| SContent (s : str)
| SRepr
| SSkip
| SSkipIf
| SFlatten
| SOptional
| SDescription (s : str)
| SFormat (s : str)
| SExample (e : example)
| SInline
| SNullable
| SType (t : explicit_type).

(** Kinds of errors reported through [ParsingContext]. *)
Inductive err :=
| ENotList          (* attr.rs:675-678: #[opg] or #[opg = ".."] *)
| ESyntax           (* attr.rs:679-682 *)
| ENotString        (* attr.rs:644-650 *)
| EBadExpr          (* attr.rs:572-574 *)
| EBadPath          (* attr.rs:583-588 *)
| EUnknown          (* attr.rs:137, 146, 264, 273, 390, 399 *)
| EDuplicate        (* attr.rs:724-725, 800-801, 840-843 *)
| EUntaggedUnits    (* attr.rs:499-502 *)
| EUnitStruct       (* attr.rs:519 *)
| EUnion            (* attr.rs:524 and ast.rs:46 *)
| EDiscriminants.   (* ast.rs:117 *)

(** attr.rs:687-691 [AttrFrom] *)
Inductive attr_from := FromSerde | FromOpg | FromRepr.

(** What a [match] arm of the [from_ast] loops does with an item: nothing, one assignment, or one error. *)
Inductive action := Ignore | Set_ (s : setting) | Error (e : err).

(** Where an attribute stands.  For containers the shape of the item matters (attr.rs:84, 90-95, 104):
    an enum, a struct with named fields, or anything else. *)
Inductive data_kind := DkEnum | DkNamed | DkOther.
Inductive position := PContainer (k : data_kind) | PVariant | PField.

Section Parse.
  (** whether a string parses as a Rust expression / expression path (syn) *)
  Variable parses_expr parses_path : str -> bool.

  (** attr.rs:627-653 [get_lit_str] followed by a use of the string *)
  Definition with_lit_str (l : lit) (k : str -> action) : action :=
    match l with LStr s => k s | LOther => Error ENotString end.

  (** attr.rs:619-625 [get_lit_str_simple] followed by a use of the string *)
  Definition with_lit_simple (l : lit) (k : str -> action) : action :=
    match l with LStr s => k s | LOther => Ignore end.

  (** attr.rs:537-557 [get_ser]: the strings given by [serialize = ".."]; [None] is [Err(())] *)
  Fixpoint get_ser (items : list nested) : option (list str) :=
    match items with
    | [] => Some []
    | NMeta (MNameValue p l) :: rest =>
        if is_ident SERIALIZE p then
          match l with
          | LStr s => match get_ser rest with Some v => Some (s :: v) | None => None end
          | LOther => get_ser rest
          end
        else if is_ident DESERIALIZE p then get_ser rest
        else None
    | _ :: _ => None
    end.

  (** attr.rs:530-535 [get_renames] with 837-848 [VecAttr::at_most_one], followed by a use of the string *)
  Definition with_renames (items : list nested) (k : str -> action) : action :=
    match get_ser items with
    | None => Ignore
    | Some [] => Ignore
    | Some [s] => k s
    | Some _ => Error EDuplicate
    end.

  (** attr.rs:66-79: an unknown rule is silently ignored *)
  Definition set_rule (s : str) : action :=
    match rule_from_str s with Some r => Set_ (SRenameAll r) | None => Ignore end.

  (** attr.rs:438-453 [ExplicitModelType::from_path] *)
  Definition explicit_from_path (p : path) : option explicit_type :=
    if is_ident STRING p then Some ETString
    else if is_ident NUMBER p then Some ETNumber
    else if is_ident INTEGER p then Some ETInteger
    else if is_ident BOOLEAN p then Some ETBoolean
    else if is_ident ANY p then Some ETAny
    else None.

  (** attr.rs:126-130, 254-258, 378-382 with 566-575 *)
  Definition set_example_with (l : lit) : action :=
    with_lit_str l (fun s => if parses_expr s then Set_ (SExample (ExCode s)) else Error EBadExpr).

  (** attr.rs:354-358 with 577-589 *)
  Definition set_skip_if (l : lit) : action :=
    with_lit_str l (fun s => if parses_path s then Set_ SSkipIf else Error EBadPath).

  (** attr.rs:110-130, 140-150 = 238-258, 267-277 = 363-382, 393-403: the arms for opg literals,
      name-values and lists, the same in all three functions *)
  Definition opg_common (n : nested) : action :=
    match n with
    | NLit l => with_lit_simple l (fun s => Set_ (SDescription s))
    | NMeta (MNameValue p l) =>
        if is_ident FORMAT p then with_lit_str l (fun s => Set_ (SFormat s))
        else if is_ident EXAMPLE p then with_lit_str l (fun s => Set_ (SExample (ExLit s)))
        else if is_ident EXAMPLE_WITH p then set_example_with l
        else Error EUnknown
    | NMeta (MList _ _) => Error EUnknown
    | NMeta (MPath p) =>                      (* the last arm for paths, attr.rs:133-139, 260-266, 386-392 *)
        match explicit_from_path p with
        | Some t => Set_ (SType t)
        | None => Error EUnknown
        end
    end.

  (** attr.rs:56-79 = 210-233: [rename] and [rename_all]; [k] is what the remaining arms do *)
  Definition serde_rename (n : nested) (k : action) : action :=
    match n with
    | NMeta (MNameValue p l) =>
        if is_ident RENAME p then with_lit_str l (fun s => Set_ (SRename s)) else k
    | NMeta (MList p items) =>
        if is_ident RENAME p then with_renames items (fun s => Set_ (SRename s)) else k
    | _ => k
    end.
  Definition serde_rename_all (n : nested) (k : action) : action :=
    match n with
    | NMeta (MNameValue p l) =>
        if is_ident RENAME_ALL p then with_lit_str l set_rule else k
    | NMeta (MList p items) =>
        if is_ident RENAME_ALL p then with_renames items set_rule else k
    | _ => k
    end.

  (** attr.rs:55-154: the loop body of [Container::from_ast] *)
  Definition container_item (k : data_kind) (f : attr_from) (n : nested) : action :=
    match f with
    | FromSerde =>
        serde_rename n (serde_rename_all n
          match n with
          | NMeta (MPath p) =>
              if is_ident TRANSPARENT p then Set_ STransparent
              else if is_ident UNTAGGED p then
                match k with DkEnum => Set_ SUntagged | _ => Ignore end
              else Ignore
          | NMeta (MNameValue p l) =>
              if is_ident TAG p then
                with_lit_simple l (fun s => match k with DkEnum | DkNamed => Set_ (STag s) | DkOther => Ignore end)
              else if is_ident CONTENT p then
                with_lit_simple l (fun s => match k with DkEnum => Set_ (SContent s) | _ => Ignore end)
              else Ignore
          | _ => Ignore
          end)
    | FromOpg =>
        match n with
        | NMeta (MPath p) =>
            if is_ident INLINE p then Set_ SInline
            else if is_ident NULLABLE p then Set_ SNullable
            else opg_common n
        | _ => opg_common n
        end
    | FromRepr => Set_ SRepr
    end.

  (** attr.rs:209-279: the loop body of [Variant::from_ast] *)
  Definition variant_item (f : attr_from) (n : nested) : action :=
    match f with
    | FromSerde =>
        serde_rename n (serde_rename_all n
          match n with
          | NMeta (MPath p) => if is_ident SKIP p || is_ident SKIP_SERIALIZING p then Set_ SSkip else Ignore
          | _ => Ignore
          end)
    | FromOpg =>
        match n with
        | NMeta (MPath p) => if is_ident INLINE p then Set_ SInline else opg_common n
        | _ => opg_common n
        end
    | FromRepr => Ignore
    end.

  (** attr.rs:340-405: the loop body of [Field::from_ast] *)
  Definition field_item (f : attr_from) (n : nested) : action :=
    match f with
    | FromSerde =>
        serde_rename n
          match n with
          | NMeta (MPath p) =>
              if is_ident SKIP p || is_ident SKIP_SERIALIZING p then Set_ SSkip
              else if is_ident FLATTEN p then Set_ SFlatten
              else Ignore
          | NMeta (MNameValue p l) => if is_ident SKIP_SERIALIZING_IF p then set_skip_if l else Ignore
          | _ => Ignore
          end
    | FromOpg =>
        match n with
        | NMeta (MPath p) =>
            if is_ident OPTIONAL p then Set_ SOptional
            else if is_ident INLINE p then Set_ SInline
            else if is_ident NULLABLE p then Set_ SNullable
            else opg_common n
        | _ => opg_common n
        end
    | FromRepr => Ignore
    end.

  Definition item_action (pos : position) (f : attr_from) (n : nested) : action :=
    match pos with
    | PContainer k => container_item k f n
    | PVariant => variant_item f n
    | PField => field_item f n
    end.

  (** ** The variables assigned in the loops

      One record for the three functions; the variables a function does not declare stay empty. *)
  Record slots := {
    s_rename : option str;
    s_rename_all : option rename_rule;
    s_transparent : option unit;
    s_untagged : option unit;
    s_tag : option str;
    s_content : option str;
    s_repr : option unit;
    s_skip : option unit;
    s_skip_if : option unit;
    s_flatten : option unit;
    s_optional : option unit;
    s_description : option str;
    s_format : option str;
    s_example : option example;
    s_inline : option unit;
    s_nullable : option unit;
    s_types : list explicit_type     (* OneOfFlagsAttr::values *)
  }.
  Definition no_slots : slots :=
    Build_slots None None None None None None None None None None None None None None None None [].

  (** attr.rs:720-730 [Attr::set] (765-767 [BoolAttr::set_true]): the first value stays, a second one is an
      error; the flag says whether an error was reported *)
  Definition attr_set {T} (a : option T) (v : T) : option T * bool :=
    match a with Some _ => (a, true) | None => (Some v, false) end.

  (** the assignments of the loops; [OneOfFlagsAttr::set] (attr.rs:790-795) never fails *)
  Definition assign (x : setting) (s : slots) : slots * bool :=
    let 'Build_slots a1 a2 a3 a4 a5 a6 a7 a8 a9 a10 a11 a12 a13 a14 a15 a16 a17 := s in
    match x with
    | SRename v => let (b, e) := attr_set a1 v in (Build_slots b a2 a3 a4 a5 a6 a7 a8 a9 a10 a11 a12 a13 a14 a15 a16 a17, e)
    | SRenameAll v => let (b, e) := attr_set a2 v in (Build_slots a1 b a3 a4 a5 a6 a7 a8 a9 a10 a11 a12 a13 a14 a15 a16 a17, e)
    | STransparent => let (b, e) := attr_set a3 tt in (Build_slots a1 a2 b a4 a5 a6 a7 a8 a9 a10 a11 a12 a13 a14 a15 a16 a17, e)
    | SUntagged => let (b, e) := attr_set a4 tt in (Build_slots a1 a2 a3 b a5 a6 a7 a8 a9 a10 a11 a12 a13 a14 a15 a16 a17, e)
    | STag v => let (b, e) := attr_set a5 v in (Build_slots a1 a2 a3 a4 b a6 a7 a8 a9 a10 a11 a12 a13 a14 a15 a16 a17, e)
    | SContent v => let (b, e) := attr_set a6 v in (Build_slots a1 a2 a3 a4 a5 b a7 a8 a9 a10 a11 a12 a13 a14 a15 a16 a17, e)
    | SRepr => let (b, e) := attr_set a7 tt in (Build_slots a1 a2 a3 a4 a5 a6 b a8 a9 a10 a11 a12 a13 a14 a15 a16 a17, e)
    | SSkip => let (b, e) := attr_set a8 tt in (Build_slots a1 a2 a3 a4 a5 a6 a7 b a9 a10 a11 a12 a13 a14 a15 a16 a17, e)
    | SSkipIf => let (b, e) := attr_set a9 tt in (Build_slots a1 a2 a3 a4 a5 a6 a7 a8 b a10 a11 a12 a13 a14 a15 a16 a17, e)
    | SFlatten => let (b, e) := attr_set a10 tt in (Build_slots a1 a2 a3 a4 a5 a6 a7 a8 a9 b a11 a12 a13 a14 a15 a16 a17, e)
    | SOptional => let (b, e) := attr_set a11 tt in (Build_slots a1 a2 a3 a4 a5 a6 a7 a8 a9 a10 b a12 a13 a14 a15 a16 a17, e)
    | SDescription v => let (b, e) := attr_set a12 v in (Build_slots a1 a2 a3 a4 a5 a6 a7 a8 a9 a10 a11 b a13 a14 a15 a16 a17, e)
    | SFormat v => let (b, e) := attr_set a13 v in (Build_slots a1 a2 a3 a4 a5 a6 a7 a8 a9 a10 a11 a12 b a14 a15 a16 a17, e)
    | SExample v => let (b, e) := attr_set a14 v in (Build_slots a1 a2 a3 a4 a5 a6 a7 a8 a9 a10 a11 a12 a13 b a15 a16 a17, e)
    | SInline => let (b, e) := attr_set a15 tt in (Build_slots a1 a2 a3 a4 a5 a6 a7 a8 a9 a10 a11 a12 a13 a14 b a16 a17, e)
    | SNullable => let (b, e) := attr_set a16 tt in (Build_slots a1 a2 a3 a4 a5 a6 a7 a8 a9 a10 a11 a12 a13 a14 a15 b a17, e)
    | SType v => (Build_slots a1 a2 a3 a4 a5 a6 a7 a8 a9 a10 a11 a12 a13 a14 a15 a16 (a17 ++ [v]), false)
    end.

  (** attr.rs:655-684 [get_meta_items]: the items of an attribute, or the error it reports *)
  Inductive entry := Item (f : attr_from) (n : nested) | Bad (e : err).
  Definition get_meta_items (a : attribute) : list entry :=
    let from :=
      if is_ident OPG (at_path a) then Some FromOpg
      else if is_ident SERDE (at_path a) then Some FromSerde
      else if is_ident REPR (at_path a) then Some FromRepr
      else None in
    match from with
    | None => []
    | Some f =>
        match at_meta a with
        | PmList items => map (Item f) items
        | PmOther => [Bad ENotList]
        | PmErr => [Bad ESyntax]
        end
    end.

  (** one round of a loop, the errors being collected in order *)
  Definition step (pos : position) (st : slots * list err) (en : entry) : slots * list err :=
    let (s, es) := st in
    match en with
    | Bad e => (s, es ++ [e])
    | Item f n =>
        match item_action pos f n with
        | Ignore => (s, es)
        | Error e => (s, es ++ [e])
        | Set_ x => let (s', dup) := assign x s in (s', if dup then es ++ [EDuplicate] else es)
        end
    end.

  (** attr.rs:49-155, 203-280, 334-406: the loops, with [flat_map(get_meta_items)] *)
  Definition parse_attrs (pos : position) (l : list attribute) : slots * list err :=
    fold_left (step pos) (flat_map get_meta_items l) (no_slots, []).
End Parse.

(** [BoolAttr::get] (attr.rs:769-771) *)
Definition is_some {A} (o : option A) : bool := match o with Some _ => true | None => false end.

(** [Vec::pop] *)
Definition last_opt {A} (l : list A) : option A := match rev l with x :: _ => Some x | [] => None end.

(** attr.rs:797-805 [OneOfFlagsAttr::at_most_one] *)
Definition at_most_one (l : list explicit_type) : option explicit_type * list err :=
  (last_opt l, if Nat.ltb 1 (length l) then [EDuplicate] else []).

(** attr.rs:855-859 [Name] *)
Record name := { n_source : str; n_serialized : str; n_renamed : bool }.

(** dummy.rs:27-29 [unraw]: [trim_start_matches("r#")] *)
Fixpoint unraw (s : str) : str :=
  match s with
  | a :: ((b :: rest) as t) => if N.eqb a 114 && N.eqb b 35 then unraw rest else s
  | _ => s
  end.

(** attr.rs:863-872 [Name::from_attrs] *)
Definition name_from (source : str) (renamed : option str) : name :=
  {| n_source := source;
     n_serialized := match renamed with Some s => s | None => source end;
     n_renamed := is_some renamed |}.

(** attr.rs:464-469 [TagType] *)
Inductive tag_type := TagExternal | TagInternal (tag : str) | TagAdjacent (tag content : str) | TagNone.

(** attr.rs:471-483 [decide_tag] *)
Definition decide_tag (untagged : option unit) (tag content : option str) : tag_type :=
  match untagged, tag, content with
  | None, None, None => TagExternal
  | Some _, None, None => TagNone
  | None, Some t, None => TagInternal t
  | None, Some t, Some c => TagAdjacent t c
  | _, _, _ => TagExternal
  end.

(** attr.rs:457-462 [ModelType] *)
Inductive model_kind := MkNewType | MkObject | MkOneOf | MkDictionary.

(** attr.rs:14-29 [Container] *)
Record container_attrs := {
  ca_name : name;
  ca_rename_rule : rename_rule;
  ca_transparent : bool;
  ca_tag_type : tag_type;
  ca_has_flatten : bool;
  ca_has_repr : bool;
  ca_description : option str;
  ca_format : option str;
  ca_example : option example;
  ca_inline : bool;
  ca_nullable : bool;
  ca_explicit : option explicit_type;
  ca_model_kind : model_kind
}.

(** attr.rs:179-189 [Variant] *)
Record variant_attrs := {
  va_name : name;
  va_rename_rule : rename_rule;
  va_skip : bool;
  va_description : option str;
  va_format : option str;
  va_example : option example;
  va_inline : bool;
  va_explicit : option explicit_type
}.

(** attr.rs:299-312 [Field] *)
Record field_attrs := {
  fa_name : name;
  fa_skip : bool;
  fa_flatten : bool;
  fa_transparent : bool;
  fa_optional : bool;
  fa_description : option str;
  fa_format : option str;
  fa_example : option example;
  fa_inline : bool;
  fa_nullable : bool;
  fa_explicit : option explicit_type
}.

Definition rule_or_none (r : option rename_rule) : rename_rule := match r with Some r => r | None => RNone end.

Section Build.
  Variable parses_expr parses_path : str -> bool.

  (** attr.rs:282-291 *)
  Definition variant_from_ast (ident : str) (l : list attribute) : variant_attrs * list err :=
    let (s, es) := parse_attrs parses_expr parses_path PVariant l in
    let (t, dup) := at_most_one (s_types s) in
    ({| va_name := name_from (unraw ident) (s_rename s);
        va_rename_rule := rule_or_none (s_rename_all s);
        va_skip := is_some (s_skip s);
        va_description := s_description s;
        va_format := s_format s;
        va_example := s_example s;
        va_inline := is_some (s_inline s);
        va_explicit := t |}, es ++ dup).

  (** attr.rs:408-420; [source] is the unraw identifier or the index (attr.rs:329-332) *)
  Definition field_from_ast (source : str) (l : list attribute) : field_attrs * list err :=
    let (s, es) := parse_attrs parses_expr parses_path PField l in
    let (t, dup) := at_most_one (s_types s) in
    ({| fa_name := name_from source (s_rename s);
        fa_skip := is_some (s_skip s);
        fa_flatten := is_some (s_flatten s);
        fa_transparent := false;
        fa_optional := is_some (s_skip_if s) || is_some (s_optional s);
        fa_description := s_description s;
        fa_format := s_format s;
        fa_example := s_example s;
        fa_inline := is_some (s_inline s);
        fa_nullable := is_some (s_nullable s);
        fa_explicit := t |}, es ++ dup).
End Build.

(** attr.rs:874-878, 880-884 [Name::rename_as_variant], [Name::rename_as_field]; [None] is a panic *)
Definition rename_as_variant (uni : N -> bool) (r : rename_rule) (n : name) : option name :=
  if n_renamed n then Some n
  else match apply_to_variant uni r (n_source n) with
       | Some s => Some {| n_source := n_source n; n_serialized := s; n_renamed := n_renamed n |}
       | None => None
       end.
Definition rename_as_field (r : rename_rule) (n : name) : option name :=
  if n_renamed n then Some n
  else match apply_to_field r (n_source n) with
       | Some s => Some {| n_source := n_source n; n_serialized := s; n_renamed := n_renamed n |}
       | None => None
       end.
