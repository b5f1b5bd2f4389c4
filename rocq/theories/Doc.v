(** Model of the document types of opg/src/models.rs (those of schemas are in Schema.v, of components in Gen.v). *)
From Verif Require Export Gen.

(** models.rs:100-110 [Info] *)
Record info := { in_title : str; in_description : option str; in_version : str }.
(** models.rs:116-120 [Tag], 128-135 [Server] *)
Record tag := { tg_description : option str }.
Record server := { sv_url : str; sv_description : option str }.

(** models.rs:169-172 [PathElement], 141 [Path] *)
Inductive path_element := PePath (s : str) | PeParameter (s : str).
Definition path := list path_element.

(** models.rs:203-212 [HttpMethod]; the derived order is the order of declaration *)
Inductive http_method := GET | PUT | POST | DELETE | OPTIONS | HEAD | PATCH | TRACE.
Definition method_rank (m : http_method) : N :=
  match m with GET => 0 | PUT => 1 | POST => 2 | DELETE => 3 | OPTIONS => 4 | HEAD => 5 | PATCH => 6 | TRACE => 7 end.
#[global] Instance method_Ord : Ord http_method.
Proof.
  refine {| kcmp a b := N.compare (method_rank a) (method_rank b) |}.
  - intros a b. rewrite N.compare_eq_iff. split; [destruct a, b; cbn; congruence|now intros ->].
  - intros a b. apply N.compare_antisym.
  - intros a b c H1 H2. rewrite N.compare_lt_iff in *. eapply N.lt_trans; eauto.
Defined.

(** models.rs:329-338 [RequestBody], 370-376 [Response], 479-497 [OperationParameter] *)
Record request_body := { rb_description : option str; rb_required : bool; rb_schema : model_ref }.
Record response := { rs_description : str; rs_schema : option model_ref }.
Record op_parameter := {
  pr_description : option str; pr_in : parameter_in; pr_required : bool; pr_deprecated : bool; pr_schema : option model_ref }.

(** models.rs:243-287 [Operation], over the type of callbacks *)
Record operation_of (C : Type) := {
  op_tags : list str; op_summary : option str; op_id : option str; op_description : option str; op_deprecated : bool;
  op_security : list (bmap str (list str)); op_body : option request_body; op_responses : bmap N response;
  op_parameters : bmap str op_parameter; op_callbacks : bmap str C }.
(** models.rs:178-197 [PathValue], over the type of operations *)
Record path_value_of (O : Type) := {
  pv_summary : option str; pv_description : option str; pv_operations : bmap http_method O;
  pv_parameters : bmap str op_parameter }.
(** models.rs:418-426 [CallbackObject] *)
Inductive callback := Callback (paths : list (path * path_value_of (operation_of callback))).
Definition operation := operation_of callback.
Definition path_value := path_value_of operation.
Arguments Build_operation_of {C}. Arguments op_tags {C}. Arguments op_summary {C}. Arguments op_id {C}.
Arguments op_description {C}. Arguments op_deprecated {C}. Arguments op_security {C}. Arguments op_body {C}.
Arguments op_responses {C}. Arguments op_parameters {C}. Arguments op_callbacks {C}.
Arguments Build_path_value_of {O}. Arguments pv_summary {O}. Arguments pv_description {O}. Arguments pv_operations {O}.
Arguments pv_parameters {O}.
Definition cb_paths (c : callback) : list (path * path_value) := let 'Callback l := c in l.

(** models.rs:13-40 [Opg]; the [openapi] member has a private field, so that [Default] (44-51) is its only value *)
Record opg := {
  og_info : info; og_tags : bmap str tag; og_servers : list server; og_paths : list (path * path_value);
  og_components : components }.

(** derived [Default]s *)
Definition info_default : info := {| in_title := []; in_description := None; in_version := [] |}.
Definition operation_default : operation := Build_operation_of [] None None None false [] None [] [] [].
Definition path_value_default : path_value := Build_path_value_of None None [] [].
Definition opg_default : opg :=
  {| og_info := info_default; og_tags := []; og_servers := []; og_paths := []; og_components := cx_new |}.

(** ** The methods of [Operation] *)
(** models.rs:290-296 *)
Definition with_summary (s : str) (o : operation) : operation :=
  Build_operation_of (op_tags o) (Some s) (op_id o) (op_description o) (op_deprecated o) (op_security o) (op_body o)
    (op_responses o) (op_parameters o) (op_callbacks o).
(** models.rs:298-304 *)
Definition with_operation_id (s : str) (o : operation) : operation :=
  Build_operation_of (op_tags o) (op_summary o) (Some s) (op_description o) (op_deprecated o) (op_security o) (op_body o)
    (op_responses o) (op_parameters o) (op_callbacks o).
(** models.rs:306-312 *)
Definition with_description (s : str) (o : operation) : operation :=
  Build_operation_of (op_tags o) (op_summary o) (op_id o) (Some s) (op_deprecated o) (op_security o) (op_body o)
    (op_responses o) (op_parameters o) (op_callbacks o).
(** models.rs:314-317 *)
Definition mark_deprecated (b : bool) (o : operation) : operation :=
  Build_operation_of (op_tags o) (op_summary o) (op_id o) (op_description o) b (op_security o) (op_body o)
    (op_responses o) (op_parameters o) (op_callbacks o).
(** models.rs:319-322 *)
Definition with_request_body (b : request_body) (o : operation) : operation :=
  Build_operation_of (op_tags o) (op_summary o) (op_id o) (op_description o) (op_deprecated o) (op_security o) (Some b)
    (op_responses o) (op_parameters o) (op_callbacks o).
(** assignments to the other members, as done by the macros *)
Definition push_tags (l : list str) (o : operation) : operation :=
  Build_operation_of (op_tags o ++ l) (op_summary o) (op_id o) (op_description o) (op_deprecated o) (op_security o) (op_body o)
    (op_responses o) (op_parameters o) (op_callbacks o).
Definition push_security (s : bmap str (list str)) (o : operation) : operation :=
  Build_operation_of (op_tags o) (op_summary o) (op_id o) (op_description o) (op_deprecated o) (op_security o ++ [s]) (op_body o)
    (op_responses o) (op_parameters o) (op_callbacks o).
Definition insert_response (k : N) (r : response) (o : operation) : operation :=
  Build_operation_of (op_tags o) (op_summary o) (op_id o) (op_description o) (op_deprecated o) (op_security o) (op_body o)
    (bm_insert k r (op_responses o)) (op_parameters o) (op_callbacks o).
Definition op_set_parameters (m : bmap str op_parameter) (o : operation) : operation :=
  Build_operation_of (op_tags o) (op_summary o) (op_id o) (op_description o) (op_deprecated o) (op_security o) (op_body o)
    (op_responses o) m (op_callbacks o).
Definition insert_callback (k : str) (c : callback) (o : operation) : operation :=
  Build_operation_of (op_tags o) (op_summary o) (op_id o) (op_description o) (op_deprecated o) (op_security o) (op_body o)
    (op_responses o) (op_parameters o) (bm_insert k c (op_callbacks o)).
