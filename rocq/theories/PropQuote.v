(** Running the impls that the derive writes, and the library's own: C72. *)
From Verif Require Import DeriveExamples GenSpec QuoteSpec QuoteFacts QuoteFacts2.

(** * C72: The impls that the derive writes, run as Rust code, give exactly the schemas that the model says *)

(** The derive writes an impl, reports errors or panics exactly when the model says so, with the same errors. *)
Theorem C72_same_outcome : forall parses_expr parses_path uni_upper eval_expr self i,
  match derive_code parses_expr parses_path uni_upper self i, derive parses_expr parses_path uni_upper eval_expr i with
  | CodeOk _, DOk _ => True
  | CodeErr es, DErr es' => es = es'
  | CodePanic, DPanic => True
  | _, _ => False
  end.
Proof. exact same_outcome. Qed.
(** [<t as OpgModel>::get_schema(cx)] *)
Theorem C72_get_schema : forall parses_expr parses_path uni_upper eval_expr src P E t cx v cx',
  compiled parses_expr parses_path uni_upper src P -> modelled parses_expr parses_path uni_upper eval_expr src E ->
  (returns eval_expr P (Of t T_get_schema) [VlCx] cx v cx' <-> exists m, v = VlModel m /\ schema_returns E t cx m cx').
Proof. exact run_get_schema. Qed.
(** [cx.mention_schema::<t>(inline, &p)] *)
Theorem C72_mention_schema : forall parses_expr parses_path uni_upper eval_expr src P E t inline p cx v cx',
  compiled parses_expr parses_path uni_upper src P -> modelled parses_expr parses_path uni_upper eval_expr src E ->
  (returns eval_expr P (Mention t) [VlCx; VlBool inline; VlParams p] cx v cx' <-> exists r, v = VlRef r /\ mention_returns E t inline p cx r cx').
Proof. exact run_mention_schema. Qed.
(** [<t as OpgModel>::type_name()] *)
Theorem C72_type_name : forall parses_expr parses_path uni_upper eval_expr src P E t cx,
  compiled parses_expr parses_path uni_upper src P -> modelled parses_expr parses_path uni_upper eval_expr src E ->
  returns eval_expr P (Of t T_type_name) [] cx (VlOpt (option_map VlStr (type_name E t))) cx.
Proof. exact run_type_name. Qed.
(** No call ever reaches a point where the code has no meaning: every variable is bound, every value is of the type
    that is needed there, every field of a structure is given once. *)
Theorem C72_never_wrong : forall parses_expr parses_path uni_upper eval_expr src P E t cx,
  compiled parses_expr parses_path uni_upper src P -> modelled parses_expr parses_path uni_upper eval_expr src E ->
  ~ goes_wrong eval_expr P (Of t T_get_schema) [VlCx] cx /\
  forall inline p, ~ goes_wrong eval_expr P (Mention t) [VlCx; VlBool inline; VlParams p] cx.
Proof. exact run_never_wrong. Qed.
(** A call has one result at most, and none exactly when the model says that it never returns. *)
Theorem C72_one_result : forall parses_expr parses_path uni_upper eval_expr src P E t cx,
  compiled parses_expr parses_path uni_upper src P -> modelled parses_expr parses_path uni_upper eval_expr src E ->
  (forall v cx1 w cx2, returns eval_expr P (Of t T_get_schema) [VlCx] cx v cx1 -> returns eval_expr P (Of t T_get_schema) [VlCx] cx w cx2 ->
     w = v /\ cx2 = cx1) /\
  ((forall v cx1, ~ returns eval_expr P (Of t T_get_schema) [VlCx] cx v cx1) <-> schema_diverges E t cx).
Proof. exact run_one_result. Qed.

(** ten declarations; [Event] is tagged internally, and [Shape] externally *)
Definition ex_src (id : tid) : derive_input ty :=
  match id with
  | 0 => i_point | 1 => i_color | 2 => i_level | 3 => i_shape | 4 => i_untagged
  | 5 => i_internal | 6 => i_adjacent | 7 => i_newtype | 8 => i_tuple | _ => i_secret
  end.
Definition ex_code (id : tid) : impl_code :=
  match derive_code yes yes noupper (TNamed id) (ex_src id) with CodeOk c => c | _ => implement_type (TNamed id) [] EUnit false end.
Example C72_case : compiled yes yes noupper ex_src ex_code /\ modelled yes yes noupper same ex_src ex_env /\
  (exists m cx', returns same ex_code (Of (TOption (TSeq KVec (TNamed 5))) T_get_schema) [VlCx] cx_new (VlModel m) cx' /\
     schema_returns ex_env (TOption (TSeq KVec (TNamed 5))) cx_new m cx' /\ List.length (cx_schemas cx') = 2) /\
  returns same ex_code (Mention (TNamed 5)) [VlCx; VlBool false; VlParams params_default] cx_new (VlRef (Link (u "Event")))
    (second_of (get_schema ex_env 10 (TSeq KVec (TNamed 5)) cx_new)).
Proof.
  split; [|split; [|split]].
  - intros id. do 9 (destruct id as [|id]; [vm_compute; reflexivity|]). vm_compute. reflexivity.
  - intros id. do 9 (destruct id as [|id]; [vm_compute; reflexivity|]). vm_compute. reflexivity.
  - do 2 eexists. split; [exists 20; vm_compute; reflexivity|]. split; [exists 20; vm_compute; reflexivity|]. reflexivity.
  - exists 20. vm_compute. reflexivity.
Qed.
Print Assumptions C72_same_outcome.
Print Assumptions C72_get_schema.
Print Assumptions C72_mention_schema.
Print Assumptions C72_type_name.
Print Assumptions C72_never_wrong.
Print Assumptions C72_one_result.
