(** Model of opg_derive/src/bound.rs and opg.rs:37-48: the where clause of the generated impl. *)
From Verif Require Export Ast.

(** Rust types as the visitor sees them ([syn::Type]).  [RPath]: a path type, with the self type of
    [<T as Trait>::Item], whether it starts with [::], and its segments; the arguments of a segment, of whatever
    form (angle-bracketed types, bindings, constraints, constant expressions, [Fn(A) -> B]), are represented by
    the types standing in them, in visiting order.  [RGroup]: an invisible group.  [RComposite]: references,
    pointers, slices, arrays (with the paths of their length), tuples, function pointers, parentheses, trait
    objects and impl traits (with the paths of their bounds): the types standing in them, in visiting order.
    [RMacro]: a macro in type position, or a type without parts ([!], [_]). *)
Inductive rty :=
| RPath (qself : option rty) (leading : bool) (segs : list (str * list rty))
| RGroup (t : rty)
| RComposite (l : list rty)
| RMacro.

(** [syn::GenericParam]; bounds and defaults are kept as token text *)
Inductive gparam :=
| GLifetime (text : str)
| GType (name : str) (bounds : str) (default : option str)
| GConst (text : str).
(** [syn::WherePredicate]: one written by the user, or [ty: bound] *)
Inductive predicate := PUser (text : str) | PBound (t : rty) (bound : str).
(** [syn::Generics] *)
Record generics := { g_params : list gparam; g_where : list predicate }.

(** bound.rs:9-25 [without_default] *)
Definition without_default (g : generics) : generics :=
  {| g_params := map (fun p => match p with GType n b _ => GType n b None | _ => p end) (g_params g);
     g_where := g_where g |}.

(** [Generics::type_params] *)
Definition type_params (g : generics) : list str :=
  flat_map (fun p => match p with GType n _ _ => [n] | _ => [] end) (g_params g).

(** bound.rs:136-141 [ungroup] *)
Fixpoint ungroup (t : rty) : rty := match t with RGroup t' => ungroup t' | _ => t end.

Definition PHANTOM_DATA : str := u "PhantomData".

(** [segments.last()] is [PhantomData] *)
Fixpoint ends_in_phantom (segs : list (str * list rty)) : bool :=
  match segs with
  | [] => false
  | [(n, _)] => if str_eq_dec n PHANTOM_DATA then true else false
  | _ :: rest => ends_in_phantom rest
  end.

(** bound.rs:53-66 [visit_path] within syn's traversal of types; 51 [visit_macro].  The identifiers inserted into
    [relevant_type_params], without the test for being a type parameter (done in [with_bound]). *)
Fixpoint visit_type (t : rty) : list str :=
  match t with
  | RPath q leading segs =>
      (match q with Some t' => visit_type t' | None => [] end) ++
      (if ends_in_phantom segs then []
       else (match segs with [(n, _)] => if leading then [] else [n] | _ => [] end) ++
            flat_map (fun s => flat_map visit_type (snd s)) segs)
  | RGroup t' => visit_type t'
  | RComposite l => flat_map visit_type l
  | RMacro => []
  end.

(** bound.rs:40-49 [visit_field], first part: the type, if its first segment is a type parameter followed by [::] *)
Definition associated_usage (params : list str) (t : rty) : list rty :=
  match ungroup t with
  | RPath q leading ((n, args) :: s :: rest) => if existsb (str_eqb n) params then [RPath q leading ((n, args) :: s :: rest)] else []
  | _ => []
  end.

(** bound.rs:80-98, with the filter of opg.rs:43-45: the fields visited *)
Definition relevant_fields (d : data rty) : list (field rty) :=
  match d with
  | Enum vs => flat_map (fun v => filter (fun f => negb (fa_skip (f_attrs f)) && negb (va_skip (v_attrs v))) (v_fields v)) vs
  | Struct _ fs => filter (fun f => negb (fa_skip (f_attrs f))) fs
  end.

(** bound.rs:27-134 [with_bound] *)
Definition with_bound (c : container rty) (g : generics) (bound : str) : generics :=
  let params := type_params g in
  let fs := relevant_fields (c_data c) in
  let relevant := flat_map (fun f => visit_type (f_ty f)) fs in
  let usages := flat_map (fun f => associated_usage params (f_ty f)) fs in
  let tys := map (fun n => RPath None false [(n, [])]) (filter (fun n => existsb (str_eqb n) relevant) params) ++ usages in
  {| g_params := g_params g; g_where := g_where g ++ map (fun t => PBound t bound) tys |}.

(** opg.rs:37-48 [build_generics] *)
Definition OPG_MODEL : str := u "_opg::OpgModel".
Definition build_generics (c : container rty) (g : generics) : generics := with_bound c (without_default g) OPG_MODEL.

(** opg.rs:10-35: the generics of the generated impl, if the derive gets that far *)
Definition impl_generics (pe pp : str -> bool) (uni : N -> bool) (i : derive_input rty) (g : generics) : option generics :=
  match container_from_ast pe pp uni i with
  | (FaSome c, []) => Some (build_generics c g)
  | _ => None
  end.
