(** Specification vocabulary for schemas.  Independent of the operations of Schema.v: only the
    data types are used. *)
From Verif Require Import Schema.

(** ** What a reader of a schema object sees *)

Inductive kind := KString | KNumber | KInteger | KBoolean | KArray_ | KObject | KOneOf | KAllOf | KAnyOf.

Definition kind_of (m : model) : kind :=
  match m_data m with
  | Single (MType _ (TdString _)) => KString
  | Single (MType _ (TdNumber _)) => KNumber
  | Single (MType _ (TdInteger _)) => KInteger
  | Single (MType _ TdBoolean) => KBoolean
  | Single (MType _ (TdArray _)) => KArray_
  | Single (MType _ (TdObject _)) => KObject
  | OneOf _ => KOneOf
  | AllOf _ => KAllOf
  | AnyOf _ => KAnyOf
  end.

(** the [nullable] member; composed schemas have none *)
Definition nullable_of (m : model) : option bool :=
  match m_data m with Single (MType n _) => Some n | _ => None end.

(** the [format] and [example] members *)
Definition simple_of (m : model) : option model_simple :=
  match m_data m with
  | Single (MType _ (TdString s)) => Some (mst_data s)
  | Single (MType _ (TdNumber s)) | Single (MType _ (TdInteger s)) => Some s
  | _ => None
  end.
Definition format_of (m : model) : option str :=
  match simple_of m with Some s => ms_format s | None => None end.
Definition example_of (m : model) : option str :=
  match simple_of m with Some s => ms_example s | None => None end.

(** the [enum] member *)
Definition enum_of (m : model) : option (list str) :=
  match m_data m with Single (MType _ (TdString s)) => mst_variants s | _ => None end.

(** the object part, if the schema is an object *)
Definition object_of (m : model) : option model_object :=
  match m_data m with Single (MType _ (TdObject o)) => Some o | _ => None end.

(** the items, if the schema is an array *)
Definition items_of (m : model) : option model_ref :=
  match m_data m with Single (MType _ (TdArray r)) => Some r | _ => None end.

(** the alternatives of a composed schema *)
Definition alternatives_of (m : model) : option (list model_ref) :=
  match m_data m with OneOf l | AllOf l | AnyOf l => Some l | _ => None end.

(** the reference a property leads to *)
Definition property_of (m : model) (k : str) : option model_ref :=
  match object_of m with Some o => bm_get k (mo_properties o) | None => None end.

(** ** Links *)

(** [child r m]: the reference [r] stands directly in the schema [m] (an alternative, the items,
    a property or the additional properties). *)
Inductive child (r : model_ref) : model -> Prop :=
| ch_oneof d l : In r l -> child r (Model d (OneOf l))
| ch_allof d l : In r l -> child r (Model d (AllOf l))
| ch_anyof d l : In r l -> child r (Model d (AnyOf l))
| ch_items d n : child r (Model d (Single (MType n (TdArray r))))
| ch_prop d n k p a q : In (k, r) p -> child r (Model d (Single (MType n (TdObject (MObject p a q)))))
| ch_additional d n p q : child r (Model d (Single (MType n (TdObject (MObject p (Some r) q))))).

(** [occurs l r]: the link [l] stands somewhere, at any depth, in [r]. *)
Inductive occurs (l : str) : model_ref -> Prop :=
| occ_link : occurs l (Link l)
| occ_inline m r : child r m -> occurs l r -> occurs l (Inline m).

(** the link [l] stands somewhere, at any depth, in the schema [m] *)
Definition occurs_in (l : str) (m : model) : Prop := exists r, child r m /\ occurs l r.

(** Every link of every registered schema is registered. *)
Definition links_closed (schemas : bmap str model) : Prop :=
  forall k m l, bm_get k schemas = Some m -> occurs_in l m -> bm_get l schemas <> None.

(** ** Merging *)

(** the two objects have no property in common *)
Definition disjoint_properties (o1 o2 : model_object) : Prop :=
  forall k, bm_get k (mo_properties o1) = None \/ bm_get k (mo_properties o2) = None.

(** a well-formed map: what a [BTreeMap] can hold *)
Definition wf_object (o : model_object) : Prop := bm_sorted (mo_properties o).
Definition wf_toplevel (m : model) : Prop :=
  match object_of m with Some o => wf_object o | None => True end.

(** ** Parameters *)

(** the given value if there is one, the old one otherwise *)
Definition given {A} (new old : option A) : option A :=
  match new with Some x => Some x | None => old end.

(** the parameters [q] given on top of the parameters [p] *)
Definition params_then (p q : params) : params :=
  Build_params (given (p_description q) (p_description p)) (given (p_nullable q) (p_nullable p))
    (given (p_variants q) (p_variants p)) (given (p_format q) (p_format p))
    (given (p_example q) (p_example p)).
