(** Specification vocabulary for serialised documents. *)
From Verif Require Export Ser SchemaSpec GenSpec.

(** ** Values *)

(** [part v w]: the value [v] stands somewhere, at any depth, in [w] (as a key, an entry or an element). *)
Inductive part (v : value) : value -> Prop :=
| part_self : part v v
| part_element w l : In w l -> part v w -> part v (VSeq l)
| part_key k w l : In (k, w) l -> part v k -> part v (VMap l)
| part_entry k w l : In (k, w) l -> part v w -> part v (VMap l).

(** no mapping in [v] has a key twice *)
Definition keys_distinct (v : value) : Prop := forall l, part (VMap l) v -> NoDup (map fst l).
(** no null in [v] *)
Definition no_null (v : value) : Prop := ~ part VNull v.
(** [s] is the target of a [$ref] in [v] *)
Definition has_ref (s : str) (v : value) : Prop := exists l, part (VMap l) v /\ In (VStr (u "$ref"), VStr s) l.

(** the member [k] of a mapping *)
Fixpoint lookup (k : str) (l : entries) : option value :=
  match l with
  | [] => None
  | (VStr k', v) :: l' => if str_eqb k k' then Some v else lookup k l'
  | _ :: l' => lookup k l'
  end.
Definition member (k : string) (v : value) : option value :=
  match v with VMap l => lookup (u k) l | _ => None end.
Definition at_ (ks : list string) (v : value) : option value :=
  fold_left (fun o k => match o with Some w => member k w | None => None end) ks (Some v).

(** ** Paths *)

Definition SLASH : N := 47. Definition LBRACE : N := 123. Definition RBRACE : N := 125.
Definition plain (s : str) : Prop := ~ In SLASH s /\ ~ In LBRACE s /\ ~ In RBRACE s.
Definition plain_path (p : path) : Prop :=
  forall e, In e p -> match e with PePath s | PeParameter s => plain s end.

(** Reading a path back: split at slashes; a piece in braces is a parameter. *)
Fixpoint split_slash (s : str) : str * list str :=
  match s with
  | [] => ([], [])
  | c :: s' => let (a, l) := split_slash s' in if N.eqb c SLASH then ([], a :: l) else (c :: a, l)
  end.
Definition parse_element (s : str) : path_element :=
  match s with
  | c :: s' => if N.eqb c LBRACE then PeParameter (removelast s') else PePath s
  | [] => PePath []
  end.
Definition parse_path (s : str) : path := map parse_element (snd (split_slash s)).

(** ** What a document contains *)

(** [within l0 l]: [l] is the list of paths [l0], or that of a callback of an operation found in it, at any depth *)
Inductive within (l0 : list (path * path_value)) : list (path * path_value) -> Prop :=
| wi_self : within l0 l0
| wi_callback l p v m o k c : within l0 l -> In (p, v) l -> In (m, o) (pv_operations v) -> In (k, c) (op_callbacks o) ->
    within l0 (cb_paths c).
Definition has_path (l0 : list (path * path_value)) (p : path) (v : path_value) : Prop := exists l, within l0 l /\ In (p, v) l.
Definition has_operation (l0 : list (path * path_value)) (o : operation) : Prop :=
  exists p v m, has_path l0 p v /\ In (m, o) (pv_operations v).

(** a schema mentioned in a path item or operation *)
Inductive path_ref (r : model_ref) (v : path_value) : Prop :=
| prf_parameter k a : In (k, a) (pv_parameters v) -> pr_schema a = Some r -> path_ref r v.
Inductive operation_ref (r : model_ref) (o : operation) : Prop :=
| orf_parameter k a : In (k, a) (op_parameters o) -> pr_schema a = Some r -> operation_ref r o
| orf_body b : op_body o = Some b -> rb_schema b = r -> operation_ref r o
| orf_response c s : In (c, s) (op_responses o) -> rs_schema s = Some r -> operation_ref r o.
Definition paths_ref (r : model_ref) (l0 : list (path * path_value)) : Prop :=
  (exists p v, has_path l0 p v /\ path_ref r v) \/ (exists o, has_operation l0 o /\ operation_ref r o).
(** [l] is a link of the document *)
Definition doc_link (l : str) (d : opg) : Prop :=
  (exists r, paths_ref r (og_paths d) /\ occurs l r) \/ (exists k m, In (k, m) (cx_schemas (og_components d)) /\ occurs_in l m).

(** every map of the schema, at any depth, is one that a [BTreeMap] can hold *)
Inductive wf_model (m : model) : Prop :=
| wfm : wf_toplevel m -> (forall m', child (Inline m') m -> wf_model m') -> wf_model m.
Definition wf_ref (r : model_ref) : Prop := match r with Inline m => wf_model m | _ => True end.
Definition wf_operation (o : operation) : Prop :=
  (forall s, In s (op_security o) -> bm_sorted s) /\ bm_sorted (op_responses o) /\ bm_sorted (op_parameters o) /\
  bm_sorted (op_callbacks o) /\ (forall r, operation_ref r o -> wf_ref r).
Definition wf_path_value (v : path_value) : Prop :=
  bm_sorted (pv_operations v) /\ bm_sorted (pv_parameters v) /\ (forall r, path_ref r v -> wf_ref r).
Definition wf_paths (l0 : list (path * path_value)) : Prop :=
  (forall p v, has_path l0 p v -> wf_path_value v) /\ (forall o, has_operation l0 o -> wf_operation o).
Definition wf_components (cx : components) : Prop :=
  wf_cx cx /\ (forall k m, In (k, m) (cx_schemas cx) -> wf_model m).
(** the same for a document: what the types of the Rust program guarantee *)
Definition wf_opg (d : opg) : Prop :=
  bm_sorted (og_tags d) /\ wf_paths (og_paths d) /\ wf_components (og_components d).

(** the rendered paths of each list are distinct *)
Definition distinct_paths (l0 : list (path * path_value)) : Prop :=
  forall l, within l0 l -> NoDup (map (fun e => render_path (fst e)) l).
Definition plain_paths (l0 : list (path * path_value)) : Prop := forall p v, has_path l0 p v -> plain_path p.
Definition bodies_described (l0 : list (path * path_value)) : Prop :=
  forall o b, has_operation l0 o -> op_body o = Some b -> rb_description b <> None.

(** ** Order *)

(** strictly ascending keys *)
Inductive ascending {K} `{Ord K} : list K -> Prop :=
| asc_nil : ascending []
| asc_cons k l : (forall k', In k' l -> kcmp k k' = Lt) -> ascending l -> ascending (k :: l).

(** the declarations [l] made in this order, starting from an empty map *)
Definition declare {K V} `{Ord K} (l : list (K * V)) : bmap K V := fold_left (fun m e => bm_insert (fst e) (snd e) m) l [].

(** [v] is a mapping with exactly these keys, in this order *)
Definition has_keys (v : value) (ks : list value) : Prop := exists l, v = VMap l /\ map fst l = ks.
(** [v] is a sequence of mappings with these names, in this order *)
Definition has_names (v : value) (ks : list str) : Prop :=
  exists l, v = VSeq l /\ map (member "name") l = map (fun k => Some (VStr k)) ks.
Definition all_methods : list http_method := [GET; PUT; POST; DELETE; OPTIONS; HEAD; PATCH; TRACE].
