(** Schema objects of opg/src/models.rs and the operations on them. *)
From Verif Require Export Str BMap.

(** models.rs:884-892 [ModelSimple] *)
Record model_simple := { ms_format : option str; ms_example : option str }.

(** models.rs:853-861 [ModelString] *)
Record model_string := { mst_variants : option (list str); mst_data : model_simple }.

(** models.rs:639-647 [Model], 689-694 [ModelData] (with 720-722 [ModelOneOf], 740-742
    [ModelAllOf], 760-762 [ModelAnyOf]), 780-788 [ModelType], 822-829
    [ModelTypeDescription] (with 911-913 [ModelArray]), 931-943 [ModelObject],
    1008-1019 [ModelReference].  [Box] is erased. *)
Inductive model :=
| Model (description : option str) (data : model_data)
with model_data :=
| Single (t : model_type)
| OneOf (l : list model_ref)
| AllOf (l : list model_ref)
| AnyOf (l : list model_ref)
with model_type :=
| MType (nullable : bool) (td : type_desc)
with type_desc :=
| TdString (s : model_string)
| TdNumber (s : model_simple)
| TdInteger (s : model_simple)
| TdBoolean
| TdArray (items : model_ref)
| TdObject (o : model_object)
with model_object :=
| MObject (properties : bmap str model_ref) (additional : option model_ref) (required : list str)
with model_ref :=
| Link (l : str)
| Inline (m : model)
| Any.

Definition m_description (m : model) : option str := let 'Model d _ := m in d.
Definition m_data (m : model) : model_data := let 'Model _ d := m in d.
Definition mo_properties (o : model_object) : bmap str model_ref := let 'MObject p _ _ := o in p.
Definition mo_additional (o : model_object) : option model_ref := let 'MObject _ a _ := o in a.
Definition mo_required (o : model_object) : list str := let 'MObject _ _ r := o in r.

(** [ModelObject::default()] (derive(Default), models.rs:929) *)
Definition mo_default : model_object := MObject [] None [].

(** models.rs:616-632 [ContextParams] *)
Record params := {
  p_description : option str;
  p_nullable : option bool;
  p_variants : option (list str);
  p_format : option str;
  p_example : option str
}.

(** [ContextParams::default()] *)
Definition params_default : params := Build_params None None None None None.

(** [if let Some(x) = &params.x { self.x = Some(x.clone()) }] *)
Definition override {A} (new old : option A) : option A :=
  match new with Some x => Some x | None => old end.

(** models.rs:897-905 [ModelSimple::apply_params] *)
Definition simple_apply (p : params) (s : model_simple) : model_simple :=
  {| ms_format := override (p_format p) (ms_format s);
     ms_example := override (p_example p) (ms_example s) |}.

(** models.rs:866-872 [ModelString::apply_params] *)
Definition string_apply (p : params) (s : model_string) : model_string :=
  {| mst_variants := override (p_variants p) (mst_variants s);
     mst_data := simple_apply p (mst_data s) |}.

(** models.rs:834-847 [ModelTypeDescription::apply_params] *)
Definition td_apply (p : params) (td : type_desc) : type_desc :=
  match td with
  | TdString s => TdString (string_apply p s)
  | TdNumber s => TdNumber (simple_apply p s)
  | TdInteger s => TdInteger (simple_apply p s)
  | other => other
  end.

(** models.rs:793-799 [ModelType::apply_params] *)
Definition type_apply (p : params) (t : model_type) : model_type :=
  let 'MType n td := t in
  MType (match p_nullable p with Some b => b | None => n end) (td_apply p td).

(** models.rs:699-704 [ModelData::apply_params] *)
Definition data_apply (p : params) (d : model_data) : model_data :=
  match d with
  | Single t => Single (type_apply p t)
  | other => other
  end.

(** models.rs:652-658 [Model::apply_params] *)
Definition apply_params (p : params) (m : model) : model :=
  let 'Model d data := m in
  Model (override (p_description p) d) (data_apply p data).

(** Outcome of a [&mut self] method returning [Result<(), ModelMergeError>]: the state of
    the receiver afterwards, and whether [Ok(())] was returned. *)
Definition merge_result (A : Type) := (A * bool)%type.

(** models.rs:969-980: [another.properties.into_iter().try_for_each(..)], stopping at the
    first key that is already present; keys inserted before it stay. *)
Fixpoint merge_props (self other : bmap str model_ref) : merge_result (bmap str model_ref) :=
  match other with
  | [] => (self, true)
  | (k, r) :: rest =>
      if bm_mem k self then (self, false)
      else merge_props (bm_insert k r self) rest
  end.

(** models.rs:968-988 [ModelObject::merge] *)
Definition object_merge (self another : model_object) : merge_result model_object :=
  let 'MObject p a r := self in
  let (p', ok) := merge_props p (mo_properties another) in
  if ok then (MObject p' a (r ++ mo_required another), true)
  else (MObject p' a r, false).

(** models.rs:661-675 [Model::try_merge] *)
Definition try_merge (self other : model) : merge_result model :=
  match self with
  | Model d (Single (MType n (TdObject o))) =>
      match m_data other with
      | Single (MType _ (TdObject o2)) =>
          let (o', ok) := object_merge o o2 in
          (Model d (Single (MType n (TdObject o'))), ok)
      | _ => (self, false)
      end
  | _ => (self, false)
  end.

(** models.rs:947-965 [ModelObject::add_property] *)
Definition add_property (o : model_object) (k : str) (r : model_ref) (is_required : bool)
  : merge_result model_object :=
  let 'MObject p a req := o in
  if bm_mem k p then (o, false)
  else (MObject (bm_insert k r p) a (if is_required then req ++ [k] else req), true).

(** [Result<(), &str>] of the traversals: [None] is [Ok(())], [Some l] is [Err(l)]. *)
Definition trav := option str.

(** [Iterator::try_for_each] on [Result]: the first error. *)
Fixpoint try_for_each {A} (f : A -> trav) (l : list A) : trav :=
  match l with
  | [] => None
  | x :: l' => match f x with Some e => Some e | None => try_for_each f l' end
  end.

(** models.rs:1043-1051 [ModelReference::traverse] with 1056-1064 [TraverseContext::check] *)
Definition ref_traverse (cx : bmap str model) (r : model_ref) : trav :=
  match r with
  | Link l => if bm_mem l cx then None else Some l
  | _ => None
  end.

(** models.rs:991-996 [ModelObject::traverse] *)
Definition object_traverse (cx : bmap str model) (o : model_object) : trav :=
  let 'MObject p a _ := o in
  try_for_each (ref_traverse cx)
    (map snd p ++ match a with Some r => [r] | None => [] end).

(** models.rs:802-808 [ModelType::traverse] with 917-919 [ModelArray::traverse] *)
Definition type_traverse (cx : bmap str model) (t : model_type) : trav :=
  let 'MType _ td := t in
  match td with
  | TdArray items => ref_traverse cx items
  | TdObject o => object_traverse cx o
  | _ => None
  end.

(** models.rs:707-714 [ModelData::traverse], 726-728, 746-748, 766-768 *)
Definition data_traverse (cx : bmap str model) (d : model_data) : trav :=
  match d with
  | Single t => type_traverse cx t
  | OneOf l => try_for_each (ref_traverse cx) l
  | AllOf l => try_for_each (ref_traverse cx) l
  | AnyOf l => try_for_each (ref_traverse cx) l
  end.

(** models.rs:678-680 [Model::traverse] *)
Definition model_traverse (cx : bmap str model) (m : model) : trav :=
  data_traverse cx (m_data m).

(** models.rs:565-572 [Components::verify_schemas] on the schemas map *)
Definition verify_schemas (schemas : bmap str model) : trav :=
  try_for_each (fun kv => model_traverse schemas (snd kv)) schemas.
