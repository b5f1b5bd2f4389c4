(** What it means that two programs, and two schemas, differ in their documentation only. *)
From Verif Require Import Attr Ast Derive Schema Gen GenSpec Doc.

(** ** Kinds of documentation *)

(** Some of the three kinds of documentation: descriptions, formats, examples. *)
Record docs := { of_descriptions : bool; of_formats : bool; of_examples : bool }.
Definition all_docs : docs := Build_docs true true true.
Definition only_descriptions : docs := Build_docs true false false.

Section Without.
  Variable K : docs.

  (** ** Sources without documentation *)

  (** the items of [#[opg(..)]] that are documentation of these kinds: [".."], [format = ..], [example = ..],
      [example_with = ..] *)
  Definition documents (n : nested) : bool :=
    match n with
    | NLit _ => of_descriptions K
    | NMeta (MNameValue p _) =>
        is_ident (u "format") p && of_formats K ||
        (is_ident (u "example") p || is_ident (u "example_with") p) && of_examples K
    | _ => false
    end.

  (** an attribute without its documentation; nothing if it was all documentation; doc comments ([#[doc = ".."]]) are
      descriptions too *)
  Definition bare_attr (a : attribute) : list attribute :=
    if is_ident (u "doc") (at_path a) && of_descriptions K then []
    else if is_ident (u "opg") (at_path a) then
      match at_meta a with
      | PmList items =>
          match filter (fun n => negb (documents n)) items with
          | [] => []
          | rest => [Build_attribute (at_path a) (PmList rest)]
          end
      | _ => [a]
      end
    else [a].
  Definition bare_attrs (l : list attribute) : list attribute := flat_map bare_attr l.

  Definition bare_field (f : field_syn ty) : field_syn ty :=
    Build_field_syn (bare_attrs (fs_attrs f)) (fs_ident f) (fs_ty f).
  Definition bare_fields (f : fields_syn ty) : fields_syn ty :=
    match f with
    | FNamed l => FNamed (map bare_field l)
    | FUnnamed l => FUnnamed (map bare_field l)
    | FUnit => FUnit
    end.
  Definition bare_variant (v : variant_syn ty) : variant_syn ty :=
    Build_variant_syn (bare_attrs (vs_attrs v)) (vs_ident v) (bare_fields (vs_fields v)) (vs_discriminant v).
  (** the source of a type without its documentation *)
  Definition bare_input (i : derive_input ty) : derive_input ty :=
    Build_derive_input (bare_attrs (di_attrs i)) (di_ident i)
      match di_data i with
      | DaEnum vs => DaEnum (map bare_variant vs)
      | DaStruct f => DaStruct (bare_fields f)
      | DaUnion => DaUnion
      end.

  (** two sources of the same type with different documentation *)
  Definition redocumented (i i' : derive_input ty) : Prop := bare_input i = bare_input i'.

  (** two requests for the same schema with different documentation *)
  Definition drop {A} (b : bool) (x : option A) : option A := if b then None else x.
  Definition bare_params (p : params) : params :=
    Build_params (drop (of_descriptions K) (p_description p)) (p_nullable p) (p_variants p)
      (drop (of_formats K) (p_format p)) (drop (of_examples K) (p_example p)).
  Definition redocumented_call (c c' : mention_call) : Prop :=
    mc_ty c = mc_ty c' /\ mc_inline c = mc_inline c' /\ bare_params (mc_params c) = bare_params (mc_params c').

  (** ** Schemas without documentation *)

  Definition bare_simple (s : model_simple) : model_simple :=
    {| ms_format := drop (of_formats K) (ms_format s); ms_example := drop (of_examples K) (ms_example s) |}.
  Definition bare_string (s : model_string) : model_string :=
    {| mst_variants := mst_variants s; mst_data := bare_simple (mst_data s) |}.
  Fixpoint bare_model (m : model) : model :=
    match m with Model d data => Model (drop (of_descriptions K) d) (bare_data data) end
  with bare_data (d : model_data) : model_data :=
    match d with
    | Single t => Single (bare_type t)
    | OneOf l => OneOf (map bare_ref l)
    | AllOf l => AllOf (map bare_ref l)
    | AnyOf l => AnyOf (map bare_ref l)
    end
  with bare_type (t : model_type) : model_type :=
    match t with MType n td => MType n (bare_td td) end
  with bare_td (td : type_desc) : type_desc :=
    match td with
    | TdString s => TdString (bare_string s)
    | TdNumber s => TdNumber (bare_simple s)
    | TdInteger s => TdInteger (bare_simple s)
    | TdBoolean => TdBoolean
    | TdArray r => TdArray (bare_ref r)
    | TdObject o => TdObject (bare_object o)
    end
  with bare_object (o : model_object) : model_object :=
    match o with
    | MObject p a req =>
        MObject (map (fun e => match e with (k, r) => (k, bare_ref r) end) p)
          (match a with Some r => Some (bare_ref r) | None => None end) req
    end
  with bare_ref (r : model_ref) : model_ref :=
    match r with Inline m => Inline (bare_model m) | Link l => Link l | Any => Any end.
  (** all components *)
  Definition bare_schemas (S : bmap str model) : bmap str model := map (fun e => (fst e, bare_model (snd e))) S.

  (** ** Documents whose schemas are without documentation; what is said about paths, operations, parameters and so on stays *)

  Definition values {A V W} (f : V -> W) (l : list (A * V)) : list (A * W) := map (fun e => (fst e, f (snd e))) l.
  Definition bare_parameter (p : op_parameter) : op_parameter :=
    Build_op_parameter (pr_description p) (pr_in p) (pr_required p) (pr_deprecated p) (option_map bare_ref (pr_schema p)).
  Definition bare_body (b : request_body) : request_body :=
    Build_request_body (rb_description b) (rb_required b) (bare_ref (rb_schema b)).
  Definition bare_response (r : response) : response :=
    Build_response (rs_description r) (option_map bare_ref (rs_schema r)).
  Definition bare_operation_with (bare_cb : callback -> callback) (o : operation) : operation :=
    Build_operation_of (op_tags o) (op_summary o) (op_id o) (op_description o) (op_deprecated o) (op_security o)
      (option_map bare_body (op_body o)) (values bare_response (op_responses o)) (values bare_parameter (op_parameters o))
      (values bare_cb (op_callbacks o)).
  Definition bare_path_with (bare_cb : callback -> callback) (v : path_value) : path_value :=
    Build_path_value_of (pv_summary v) (pv_description v) (values (bare_operation_with bare_cb) (pv_operations v))
      (values bare_parameter (pv_parameters v)).
  Fixpoint bare_callback (c : callback) : callback :=
    match c with Callback l => Callback (values (bare_path_with bare_callback) l) end.
  Definition bare_document (d : opg) : opg :=
    {| og_info := og_info d; og_tags := og_tags d; og_servers := og_servers d;
       og_paths := values (bare_path_with bare_callback) (og_paths d);
       og_components := {| cx_schemas := bare_schemas (cx_schemas (og_components d)); cx_security := cx_security (og_components d) |} |}.
End Without.

(** ** Programs *)

(** the impls are those the derive gives for the sources *)
Definition program (pe pp : str -> bool) (uni : N -> bool) (ev : str -> str) (D : tid -> derive_input ty) (E : env) : Prop :=
  forall id, derive pe pp uni ev (D id) = DOk (E id).

(** the requests [l], one after the other, are answered by the references [rs] *)
Inductive answers (E : env) : list mention_call -> components -> list model_ref -> components -> Prop :=
| an_nil cx : answers E [] cx [] cx
| an_cons c l cx r cx1 rs cx2 :
    mention_returns E (mc_ty c) (mc_inline c) (mc_params c) cx r cx1 -> answers E l cx1 rs cx2 ->
    answers E (c :: l) cx (r :: rs) cx2.
