(** Documentation changes nothing but documentation: C82. *)
From Verif Require Import Attr AttrSpec Ast Derive DeriveSpec Schema SchemaSpec Gen GenSpec DeriveExamples Conformance.
From Verif Require Import Doc Ser Api ApiSpec SoundSpec StrictSpec SoundExamples DocsSpec DocsFacts DocsFacts2 DocsFacts3 DocsFacts4 DocsFacts5 DocsExamples.
Local Open Scope string_scope. Local Open Scope list_scope.

(** * C82: Documentation changes nothing but documentation *)

(** Two programs whose types differ in their documentation only (descriptions, formats, examples, or any of these kinds), asked
    for the same schemas with parameters that differ in their documentation only: both answer, and the references and the
    components, names and order included, are the same apart from documentation of these kinds.  If the examples are among
    them, the values of example expressions play no role either. *)
Theorem C82_documentation_only : forall K pe pp uni ev ev' D D' E E' l l' rs cx,
  (of_examples K = false -> forall s, ev s = ev' s) ->
  program pe pp uni ev D E -> program pe pp uni ev' D' E' -> (forall id, redocumented K (D id) (D' id)) ->
  Forall2 (redocumented_call K) l l' -> answers E l cx_new rs cx ->
  (exists rs' cx', answers E' l' cx_new rs' cx') /\
  forall rs' cx', answers E' l' cx_new rs' cx' ->
    map (bare_ref K) rs = map (bare_ref K) rs' /\ bare_schemas K (cx_schemas cx) = bare_schemas K (cx_schemas cx').
Proof. exact docs_only. Qed.
(** So the same JSON is accepted, in both readings of [oneOf]. *)
Theorem C82_same_json : forall K pe pp uni ev ev' D D' E E' l l' rs cx rs' cx',
  (of_examples K = false -> forall s, ev s = ev' s) ->
  program pe pp uni ev D E -> program pe pp uni ev' D' E' -> (forall id, redocumented K (D id) (D' id)) ->
  Forall2 (redocumented_call K) l l' -> answers E l cx_new rs cx -> answers E' l' cx_new rs' cx' ->
  Forall2 (fun r r' => forall j,
    (valid (cx_schemas cx) r j <-> valid (cx_schemas cx') r' j) /\
    (accepts (cx_schemas cx) r j <-> accepts (cx_schemas cx') r' j) /\
    (rejects (cx_schemas cx) r j <-> rejects (cx_schemas cx') r' j)) rs rs'.
Proof. exact docs_same_json. Qed.
(** The types of the repository's tests, with and without their documentation; the schemas do differ. *)
Example C82_case :
  program yes yes noupper DeriveExamples.same (sources items) (sources_env items) /\
  program yes yes noupper DeriveExamples.same (sources bare_items) (sources_env bare_items) /\
  (forall id, redocumented all_docs (sources items id) (sources bare_items id)) /\
  Forall2 (redocumented_call all_docs) doc_calls bare_calls /\
  exists rs cx rs' cx', answers (sources_env items) doc_calls cx_new rs cx /\ answers (sources_env bare_items) bare_calls cx_new rs' cx' /\
    rs <> rs' /\ cx_schemas cx <> cx_schemas cx' /\ map fst (cx_schemas cx) = [u "NewType"; u "UntaggedEnumTest"].
Proof.
  split; [exact items_program|]. split; [exact bare_items_program|]. split; [exact items_redocumented|]. split; [exact doc_calls_alike|].
  destruct doc_answers as (rs & cx & H1 & H2), bare_answers as (rs' & cx' & H1' & H2'). exists rs, cx, rs', cx'.
  split; [exact H2|]. split; [exact H2'|]. injection H1 as <- <-. injection H1' as <- <-. split; [discriminate|]. split; [discriminate|reflexivity].
Qed.

(** The same description of an API, over two such programs: it compiles over both or neither, panics over both or neither, runs
    for ever over both or neither, and the documents are the same apart from the documentation of the types. *)
Theorem C82_api : forall K pe pp uni ev ev' D D' E E' reason seg a,
  (of_examples K = false -> forall s, ev s = ev' s) ->
  program pe pp uni ev D E -> program pe pp uni ev' D' E' -> (forall id, redocumented K (D id) (D' id)) ->
  (does_not_compile E reason seg a <-> does_not_compile E' reason seg a) /\
  (panics E reason seg a <-> panics E' reason seg a) /\
  (never_returns E reason seg a <-> never_returns E' reason seg a) /\
  ((exists d, describes E reason seg a d) <-> exists d', describes E' reason seg a d') /\
  forall d d', describes E reason seg a d -> describes E' reason seg a d' -> bare_document K d = bare_document K d'.
Proof. exact docs_api. Qed.
(** The description of the repository's tests, over its types with and without their documentation: both give a document, and
    the documents differ. *)
Example C82_api_case : exists d d',
  describes (sources_env items) test_reason test_seg test_api d /\ describes (sources_env bare_items) test_reason test_seg test_api d' /\
  og_components d <> og_components d' /\ length (og_paths d) = 2.
Proof.
  destruct doc_api as (d & H1 & H2), bare_api as (d' & H1' & H2'). exists d, d'. split; [exact H2|]. split; [exact H2'|].
  injection H1 as <-. injection H1' as <-. split; [discriminate|reflexivity].
Qed.

(** Leaving documentation out never breaks a type, and the impl keeps its name and whether it is inlined. *)
Theorem C82_removal : forall K pe pp uni ev i t, derive pe pp uni ev i = DOk t ->
  redocumented K i (bare_input K i) /\
  exists t', derive pe pp uni ev (bare_input K i) = DOk t' /\ td_ident t' = td_ident t /\ td_inline t' = td_inline t.
Proof. intros K pe pp uni ev i t H. split; [exact (bare_input_redocumented K i)|exact (docs_removal K _ _ _ _ _ _ H)]. Qed.
Example C82_removal_case :
  ex_derive t_new_type <> ex_derive (bare_input all_docs t_new_type) /\
  bare_input all_docs t_new_type = item [] "NewType" (DaStruct (FUnnamed [pos_fld [] Conformance.string])) /\
  bare_input only_descriptions t_new_type =
    item [opg_attr [str_value "format" "uuid"; str_value "example" "000-000"]] "NewType" (DaStruct (FUnnamed [pos_fld [] Conformance.string])).
Proof. split; [vm_compute; discriminate|]. split; reflexivity. Qed.

Print Assumptions C82_documentation_only.
Print Assumptions C82_same_json.
Print Assumptions C82_api.
Print Assumptions C82_removal.
