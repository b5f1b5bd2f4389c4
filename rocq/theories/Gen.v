(** Schema generation: [Components], the [OpgModel] trait with its default methods, the
    impls of opg/src/lib.rs, and execution of the bodies generated by the derive. *)
From Verif Require Export Schema.

(** A computation that may fail to return.
    [Fuel] stands for "has not returned after this many nested calls"; a computation that is
    [Fuel] for every amount of fuel never returns (in Rust: stack overflow).
    Generation itself contains no panicking expression. *)
Inductive res (A : Type) :=
| Ok (a : A)
| Fuel.
Arguments Ok {A} _.
Arguments Fuel {A}.

Definition bind {A B} (x : res A) (f : A -> res B) : res B :=
  match x with Ok a => f a | Fuel => Fuel end.
Notation "'do' p <- x ; f" := (bind x (fun p => f))
  (at level 200, p pattern, x at level 100, f at level 200).

(** models.rs:502-507 [ParameterIn] *)
Inductive parameter_in := InQuery | InHeader | InPath | InCookie.

(** models.rs:1080-1094 [HttpSecurityScheme], 1110-1121 [ApiKeySecurityScheme], 1071-1075
    [SecurityScheme] *)
Inductive http_security_scheme :=
| Basic (description : option str)
| Bearer (format : option str) (description : option str).
Record api_key_scheme := { ak_in : parameter_in; ak_name : str; ak_description : option str }.
Inductive security_scheme :=
| Http (s : http_security_scheme)
| ApiKey (s : api_key_scheme).

(** models.rs:514-522 [Components] *)
Record components := {
  cx_schemas : bmap str model;
  cx_security : bmap str security_scheme
}.

(** models.rs:525-527 [Components::new] *)
Definition cx_new : components := {| cx_schemas := []; cx_security := [] |}.

(** [self.schemas.insert(k, m)] *)
Definition cx_insert_schema (k : str) (m : model) (cx : components) : components :=
  {| cx_schemas := bm_insert k m (cx_schemas cx); cx_security := cx_security cx |}.

(** models.rs:531-533 [Components::contains_model] *)
Definition contains_model (cx : components) (name : str) : bool := bm_mem name (cx_schemas cx).

(** models.rs:551-561 [Components::mention_security_scheme]; returns the name *)
Definition mention_security_scheme (name : str) (s : security_scheme) (cx : components)
  : str * components :=
  (name,
   if bm_mem name (cx_security cx) then cx
   else {| cx_schemas := cx_schemas cx; cx_security := bm_insert name s (cx_security cx) |}).

(** models.rs:575-584 [Components::add_model] *)
Definition add_model (name : str) (m : model) (cx : components) : components :=
  if bm_mem name (cx_schemas cx) then cx else cx_insert_schema name m cx.

(** ** Types *)

(** lib.rs:13-44, 120-262: types whose impl is a constant, always-inline schema. *)
Inductive prim :=
| PChar | PStr | PString
| PI8 | PU8 | PI16 | PU16 | PI32 | PU32 | PI64 | PU64 | PIsize | PUsize
| PF32 | PF64 | PBool
| PAtomicI8 | PAtomicU8 | PAtomicI16 | PAtomicU16 | PAtomicI32 | PAtomicU32 | PAtomicI64 | PAtomicU64
| PAtomicIsize | PAtomicUsize | PAtomicBool
| PUnit | PUuid | PNaiveDateTime | PDateTime | PNaiveDate.

(** lib.rs:46-52, 56: [generic_simple] wrappers. *)
Inductive wrapper := WRef | WRefMut | WBox | WRc | WArc | WCell | WRefCell | WTuple1.

(** lib.rs:68-73, 78, 90-115: [generic_array] containers ([\[T; N\]] included). *)
Inductive seq_kind := KSlice | KVec | KHashSet | KLinkedList | KVecDeque | KBinaryHeap | KArray (n : N).

(** lib.rs:117-118: [generic_dictionary] containers; the key type plays no role. *)
Inductive dict_kind := KHashMap | KBTreeMap.

(** Identity of a nominal type after monomorphisation: the Rust item together with its
    generic arguments.  Distinct items (e.g. of different modules) and distinct instances of
    one generic item have distinct [tid]s but may have the same identifier. *)
Definition tid := nat.

(** The types occurring in generated code, closed (monomorphised). *)
Inductive ty :=
| TPrim (p : prim)
| TWrap (w : wrapper) (t : ty)
| TOption (t : ty)
| TTuple (ts : list ty)          (* lib.rs:58-66, 2 to 10 components *)
| TSeq (k : seq_kind) (t : ty)
| TDict (k : dict_kind) (t : ty)
| TNamed (id : tid).

(** ** Generated bodies

    Deep embedding of the expressions quoted by opg_derive/src/opg.rs for the body of
    [get_schema].  [rcode] evaluates to a [ModelReference], [mcode] to a [Model]. *)

(** the type descriptions quoted as constants: opg.rs:100-103, 133-139, 314-320, 708-734 *)
Inductive const_desc :=
| CdString (s : model_string)
| CdNumber (s : model_simple)
| CdInteger (s : model_simple)
| CdBoolean.
Definition const_td (c : const_desc) : type_desc :=
  match c with
  | CdString s => TdString s
  | CdNumber s => TdNumber s
  | CdInteger s => TdInteger s
  | CdBoolean => TdBoolean
  end.

Inductive rcode :=
| RcAny                                                   (* ModelReference::Any *)
| RcInline (c : mcode)                                    (* ModelReference::Inline(#c) *)
| RcMention (t : ty) (inline : bool) (p : params)         (* cx.mention_schema::<t>(inline, &p) *)
| RcTagged (c : mcode) (tag variant ident : str) (nullable : bool) (* opg.rs:419-459 *)
with mcode :=
| McSchemaWith (t : ty) (p : params)                      (* <t>::get_schema_with_params(cx, &p) *)
| McModel (description : option str) (d : dcode)          (* Model { description, data } *)
with dcode :=
| DcOneOf (l : list rcode)                                (* ModelData::OneOf(vec![..]) *)
| DcSingle (nullable : bool) (c : tcode)                  (* ModelData::Single(ModelType {..}) *)
with tcode :=
| TcConst (td : const_desc)                               (* constant String/Integer/Number/Boolean *)
| TcArray (items : rcode)                                 (* Array(ModelArray { items }) *)
| TcObject (stmts : list (str * rcode * bool))            (* properties.insert(..); required.push(..); *)
| TcDict (additional : rcode).                            (* Object { additional_properties: Some(..), .. } *)

(** An impl produced by the derive: opg.rs:774-807 [implement_type]. *)
Record typedef := {
  td_ident : str;      (* stringify!(#type_name) *)
  td_inline : bool;    (* container-level #[opg(inline)] *)
  td_body : mcode
}.

(** All derived impls of a crate graph.  rustc guarantees that every type occurring in a generated
    body has an impl, so the map is total; unused numbers are mapped to anything. *)
Definition env := tid -> typedef.

(** ** The impls *)

Definition mk_simple (f e : option str) : model_simple := {| ms_format := f; ms_example := e |}.
Definition mk_string (f e : option str) : model_string := {| mst_variants := None; mst_data := mk_simple f e |}.
Definition mk_single (d : option str) (nullable : bool) (td : type_desc) : model :=
  Model d (Single (MType nullable td)).

(** macros.rs:35-100 [describe_type!(string|number|integer|boolean => { format? })] *)
Definition describe_string (f : option str) : model := mk_single None false (TdString (mk_string f None)).
Definition describe_number (f : option str) : model := mk_single None false (TdNumber (mk_simple f None)).
Definition describe_integer (f : option str) : model := mk_single None false (TdInteger (mk_simple f None)).
Definition describe_boolean : model := mk_single None false TdBoolean.

(** lib.rs:13-44, 120-262 *)
Definition prim_schema (p : prim) : model :=
  match p with
  | PChar => describe_string (Some (u "char"))
  | PStr | PString => describe_string None
  | PI8 | PAtomicI8 => describe_integer (Some (u "int8"))
  | PU8 | PAtomicU8 => describe_integer (Some (u "uint8"))
  | PI16 | PAtomicI16 => describe_integer (Some (u "int16"))
  | PU16 | PAtomicU16 => describe_integer (Some (u "uint16"))
  | PI32 | PAtomicI32 => describe_integer (Some (u "int32"))
  | PU32 | PAtomicU32 => describe_integer (Some (u "uint32"))
  | PI64 | PAtomicI64 => describe_integer (Some (u "int64"))
  | PU64 | PAtomicU64 => describe_integer (Some (u "uint64"))
  | PIsize | PUsize | PAtomicIsize | PAtomicUsize => describe_integer None
  | PF32 => describe_number (Some (u "float"))
  | PF64 => describe_number (Some (u "double"))
  | PBool | PAtomicBool => describe_boolean
  | PUnit => mk_single (Some (u "Always `null`")) true (TdString (mk_string (Some (u "null")) None))
  | PUuid =>
      mk_single (Some (u "UUID ver. 4 [rfc](https://tools.ietf.org/html/rfc4122)")) false
        (TdString (mk_string (Some (u "uuid")) (Some (u "00000000-0000-0000-0000-000000000000"))))
  | PNaiveDateTime =>
      mk_single (Some (u "Datetime without timezone")) false
        (TdString (mk_string (Some (u "date")) (Some (u "2020-06-26T14:04:20.730045106"))))
  | PDateTime =>
      mk_single (Some (u "Datetime with timezone")) false
        (TdString (mk_string (Some (u "date")) (Some (u "2020-06-26T14:04:20.730045106Z"))))
  | PNaiveDate =>
      mk_single (Some (u "Date without timezone")) false
        (TdString (mk_string (Some (u "date")) (Some (u "2020-06-26"))))
  end.

(** macros.rs:173-176: the parameters applied by [Option<T>] *)
Definition nullable_params : params := Build_params None (Some true) None None None.

Section Exec.
  Variable E : env.

  (** [OpgModel::type_name]: macros.rs:180-182, 196-198 (delegating), 223-225, 253-255, 284-286,
      319-321 (None); opg.rs:782-796 (derived) *)
  Fixpoint type_name (t : ty) : option str :=
    match t with
    | TWrap _ t' | TOption t' => type_name t'
    | TNamed id => if td_inline (E id) then None else Some (td_ident (E id))
    | _ => None
    end.

  (** Which impls override [select_reference] to always inline: macros.rs:227-230, 257-260,
      288-291, 323-326, lib.rs:142-145 etc. and opg.rs:786-789; the [generic_simple] wrappers and
      non-inline derived types keep the trait default. *)
  Definition overrides_select (t : ty) : bool :=
    match t with
    | TPrim _ | TTuple _ | TSeq _ _ | TDict _ _ => true
    | TWrap _ _ | TOption _ => false
    | TNamed id => td_inline (E id)
    end.

  (** Execution is by open recursion in [gs], the [get_schema] of the types one level down. *)
  Section Open.
    Variable gs : ty -> components -> res (model * components).

    (** models.rs:596-598 [get_schema_with_params] *)
    Definition get_schema_with_params (t : ty) (p : params) (cx : components) : res (model * components) :=
      do (m, cx') <- gs t cx;
      Ok (apply_params p m, cx').

    (** models.rs:602-611 [select_reference] (trait default) and its overrides *)
    Definition select_reference (t : ty) (inline : bool) (p : params) (cx : components)
      : res (model_ref * components) :=
      let inlined :=
        do (m, cx') <- gs t cx;
        Ok (Inline (apply_params p m), cx') in
      if overrides_select t then inlined
      else match type_name t with
           | Some link => if inline then inlined else Ok (Link link, cx)
           | None => inlined
           end.

    (** models.rs:536-548 [Components::mention_schema] *)
    Definition mention_schema (t : ty) (inline : bool) (p : params) (cx : components)
      : res (model_ref * components) :=
      do (r, cx1) <- select_reference t inline p cx;
      match r with
      | Link link =>
          if bm_mem link (cx_schemas cx1) then Ok (r, cx1)
          else do (structure, cx2) <- gs t cx1;
               Ok (r, cx_insert_schema link structure cx2)
      | _ => Ok (r, cx1)
      end.

    (** [vec![e1, ..., en]]: elements are evaluated left to right. *)
    Definition eval_vec {A B} (f : A -> components -> res (B * components)) :=
      fix go (l : list A) (cx : components) : res (list B * components) :=
        match l with
        | [] => Ok ([], cx)
        | c :: l' =>
            do (r, cx1) <- f c cx;
            do (rs, cx2) <- go l' cx1;
            Ok (r :: rs, cx2)
        end.

    (** opg.rs:646-649, 239-264: [properties.insert(name, <code>); required.push(name);] *)
    Definition eval_stmts (f : rcode -> components -> res (model_ref * components)) :=
      fix go (l : list (str * rcode * bool)) (props : bmap str model_ref) (req : list str) (cx : components)
        : res (bmap str model_ref * list str * components) :=
        match l with
        | [] => Ok (props, req, cx)
        | (name, c, is_req) :: l' =>
            do (r, cx1) <- f c cx;
            go l' (bm_insert name r props) (if is_req then req ++ [name] else req) cx1
        end.

    (** opg.rs:423-455: the object holding just the tag property *)
    Definition tag_model (tag variant ident : str) (nullable : bool) : model :=
      mk_single None nullable
        (TdObject (MObject
          (bm_insert tag
             (Inline (mk_single (Some (ident ++ u " type variant")) false
                (TdString {| mst_variants := Some [variant];
                             mst_data := mk_simple None (Some variant) |}))) [])
          None [tag])).

    Fixpoint eval_r (c : rcode) (cx : components) : res (model_ref * components) :=
      match c with
      | RcAny => Ok (Any, cx)
      | RcInline c' =>
          do (m, cx') <- eval_m c' cx;
          Ok (Inline m, cx')
      | RcMention t inline p => mention_schema t inline p cx
      | RcTagged c' tag variant ident nullable =>
          do (m, cx') <- eval_m c' cx;
          (* let _ = model.try_merge(..): the outcome is ignored *)
          Ok (Inline (fst (try_merge m (tag_model tag variant ident nullable))), cx')
      end
    with eval_m (c : mcode) (cx : components) : res (model * components) :=
      match c with
      | McSchemaWith t p => get_schema_with_params t p cx
      | McModel d dc =>
          do (data, cx') <- eval_d dc cx;
          Ok (Model d data, cx')
      end
    with eval_d (c : dcode) (cx : components) : res (model_data * components) :=
      match c with
      | DcOneOf l =>
          do (rs, cx') <- eval_vec eval_r l cx;
          Ok (OneOf rs, cx')
      | DcSingle n tc =>
          do (td, cx') <- eval_t tc cx;
          Ok (Single (MType n td), cx')
      end
    with eval_t (c : tcode) (cx : components) : res (type_desc * components) :=
      match c with
      | TcConst c => Ok (const_td c, cx)
      | TcArray c' =>
          do (r, cx') <- eval_r c' cx;
          Ok (TdArray r, cx')
      | TcObject stmts =>
          do (pr, cx') <- eval_stmts eval_r stmts [] [] cx;
          let (props, req) := pr in
          Ok (TdObject (MObject props None req), cx')
      | TcDict c' =>
          do (r, cx') <- eval_r c' cx;
          Ok (TdObject (MObject [] (Some r) []), cx')
      end.

    (** One unfolding of [<t as OpgModel>::get_schema]. *)
    Definition schema_step (t : ty) (cx : components) : res (model * components) :=
      match t with
      | TPrim p => Ok (prim_schema p, cx)                              (* lib.rs *)
      | TWrap _ t' => gs t' cx                                         (* macros.rs:191-193 *)
      | TOption t' => get_schema_with_params t' nullable_params cx      (* macros.rs:172-177 *)
      | TTuple ts =>                                                   (* macros.rs:207-220 *)
          do (rs, cx') <- eval_vec (fun t' => mention_schema t' false params_default) ts cx;
          Ok (mk_single None false (TdArray (Inline (Model None (OneOf rs)))), cx')
      | TSeq _ t' =>                                                   (* macros.rs:240-250, lib.rs:94-104 *)
          do (r, cx') <- mention_schema t' false params_default cx;
          Ok (mk_single None false (TdArray r), cx')
      | TDict _ t' =>                                                  (* macros.rs:270-281 *)
          do (r, cx') <- mention_schema t' false params_default cx;
          Ok (mk_single None false (TdObject (MObject [] (Some r) [])), cx')
      | TNamed id =>                                                   (* opg.rs:800-803 *)
          eval_m (td_body (E id)) cx
      end.
  End Open.

  (** [<t as OpgModel>::get_schema(cx)], observed up to [fuel] nested calls. *)
  Fixpoint get_schema (fuel : nat) (t : ty) (cx : components) : res (model * components) :=
    match fuel with
    | O => Fuel
    | S f => schema_step (get_schema f) t cx
    end.

  (** [cx.mention_schema::<t>(inline, p)], observed up to [fuel] nested calls. *)
  Definition mention (fuel : nat) (t : ty) (inline : bool) (p : params) (cx : components)
    : res (model_ref * components) :=
    mention_schema (get_schema fuel) t inline p cx.
End Exec.
