(** Specification of the where clause of a generated impl. *)
From Verif Require Import Attr AttrSpec Ast DeriveSpec Bound.

(** The type parameter [T] stands as a type of its own somewhere in [t], outside [PhantomData] *)
Inductive mentions (T : str) : rty -> Prop :=
| men_bare q args : T <> u "PhantomData" -> mentions T (RPath q false [(T, args)])
| men_self t leading segs : mentions T t -> mentions T (RPath (Some t) leading segs)
| men_arg q leading segs n args t :
    (forall before args', segs <> before ++ [(u "PhantomData", args')]) ->
    In (n, args) segs -> In t args -> mentions T t -> mentions T (RPath q leading segs)
| men_group t : mentions T t -> mentions T (RGroup t)
| men_part l t : In t l -> mentions T t -> mentions T (RComposite l).

(** [t] is a projection [T::A...] of the type parameter [T], possibly in groups; [p] is the bare projection *)
Inductive projection (T : str) : rty -> rty -> Prop :=
| pr_path q leading args s rest :
    projection T (RPath q leading ((T, args) :: s :: rest)) (RPath q leading ((T, args) :: s :: rest))
| pr_group t p : projection T t p -> projection T (RGroup t) p.

(** [l'] is [l] without the elements not satisfying [P] *)
Inductive kept {X} (P : X -> Prop) : list X -> list X -> Prop :=
| kept_nil : kept P [] []
| kept_yes x l l' : P x -> kept P l l' -> kept P (x :: l) (x :: l')
| kept_no x l l' : ~ P x -> kept P l l' -> kept P (x :: l) l'.

Section Spec.
  Variable pe pp : str -> bool.

  (** the serialised fields of an item, in order *)
  Inductive serialised_of (i : derive_input rty) : list (field_syn rty) -> Prop :=
  | so_struct fs l : di_data i = DaStruct fs -> kept (fun f => ~ field_skipped pe pp f) (fields_list fs) l -> serialised_of i l
  | so_enum vs vs' ls : di_data i = DaEnum vs -> kept (fun v => ~ variant_skipped pe pp v) vs vs' ->
      Forall2 (fun v l => kept (fun f => ~ field_skipped pe pp f) (fields_list (vs_fields v)) l) vs' ls ->
      serialised_of i (concat ls).

  (** the type parameters of generics, in order *)
  Inductive declares : list gparam -> list str -> Prop :=
  | dc_nil : declares [] []
  | dc_type n b d l ns : declares l ns -> declares (GType n b d :: l) (n :: ns)
  | dc_lifetime s l ns : declares l ns -> declares (GLifetime s :: l) ns
  | dc_const s l ns : declares l ns -> declares (GConst s :: l) ns.

  (** the same parameters without defaults *)
  Inductive undefaulted : gparam -> gparam -> Prop :=
  | ud_type n b d : undefaulted (GType n b d) (GType n b None)
  | ud_lifetime s : undefaulted (GLifetime s) (GLifetime s)
  | ud_const s : undefaulted (GConst s) (GConst s).

  (** the projections of type parameters among the types of fields, in order *)
  Inductive projections (params : list str) : list (field_syn rty) -> list rty -> Prop :=
  | ps_nil : projections params [] []
  | ps_yes f T p fs l : In T params -> projection T (fs_ty f) p -> projections params fs l -> projections params (f :: fs) (p :: l)
  | ps_no f fs l : (forall T p, In T params -> ~ projection T (fs_ty f) p) -> projections params fs l ->
      projections params (f :: fs) l.

  (** [g'] are the generics of the impl for an item with generics [g] *)
  Definition impl_generics_are (i : derive_input rty) (g g' : generics) : Prop :=
    exists params needed fs ps,
      declares (g_params g) params /\ serialised_of i fs /\
      Forall2 undefaulted (g_params g) (g_params g') /\
      kept (fun T => exists f, In f fs /\ mentions T (fs_ty f)) params needed /\
      projections params fs ps /\
      g_where g' = g_where g ++
        map (fun T => PBound (RPath None false [(T, [])]) (u "_opg::OpgModel")) needed ++
        map (fun p => PBound p (u "_opg::OpgModel")) ps.
End Spec.

(** the same item with its types interpreted (type parameters instantiated, paths resolved) *)
Section Interpret.
  Context {A B : Type}.
  Variable h : A -> B.
  Definition field_map (f : field_syn A) : field_syn B := Build_field_syn (fs_attrs f) (fs_ident f) (h (fs_ty f)).
  Definition fields_map (f : fields_syn A) : fields_syn B :=
    match f with FNamed l => FNamed (map field_map l) | FUnnamed l => FUnnamed (map field_map l) | FUnit => FUnit end.
  Definition variant_map (v : variant_syn A) : variant_syn B :=
    Build_variant_syn (vs_attrs v) (vs_ident v) (fields_map (vs_fields v)) (vs_discriminant v).
  Definition input_map (i : derive_input A) : derive_input B :=
    Build_derive_input (di_attrs i) (di_ident i)
      (match di_data i with DaEnum l => DaEnum (map variant_map l) | DaStruct f => DaStruct (fields_map f) | DaUnion => DaUnion end).
End Interpret.
