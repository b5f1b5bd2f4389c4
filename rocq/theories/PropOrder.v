(** When the expressions in an invocation of describe_api! are evaluated: C80. *)
From Coq Require Import List NArith Permutation.
From Verif Require Import Conformance ApiExamples.
From Verif Require Import Str BMap Doc Api Expand Trace OrderSpec OrderFacts OrderFacts2 OrderFacts3 OrderFacts4 ExpandExamples.
Import ListNotations.

(** * C80: the expressions of the caller are evaluated once each, in an order that the source shows *)

(** [trace_api] (Trace.v) runs the statements that the macro writes, where what an expression gives may depend on all that was
    evaluated before it, and gives the expressions evaluated.  [evaluated] and [written] (OrderSpec.v) only look at the invocation. *)
Theorem C80_in_order : forall E fuel reason imported answer seg s x o h,
  trace_api E fuel reason imported answer seg s x = (o, h) ->
  (exists rest, evaluated x = h ++ rest) /\ (forall d, o = Done d -> h = evaluated x).
Proof.
  intros E fuel reason imported answer seg s x o h H.
  destruct (trace_prefix E fuel reason imported seg answer s x o h H) as (rest & H1 & H2 & _).
  split; [now exists rest|]. intros d Hd. now rewrite H1, (H2 d Hd), app_nil_r.
Qed.
Print Assumptions C80_in_order.

(** After an expression that panics none is evaluated, and there is no document; if it is reached, the invocation panics. *)
Theorem C80_panics : forall E fuel reason imported answer seg s x o h a e b,
  trace_api E fuel reason imported answer seg s x = (o, h) -> evaluated x = a ++ e :: b -> (forall sc, answer a e sc = None) ->
  (forall d, o <> Done d) /\ (exists rest, a ++ [e] = h ++ rest) /\ (h = a ++ [e] -> o = Panicked).
Proof. exact trace_panics. Qed.
Print Assumptions C80_panics.

(** If the expressions only have values, the outcome is that of C77. *)
Theorem C80_same_document : forall E fuel reason imported answer seg s x, (forall h e sc, answer h e sc = Some (e sc)) ->
  fst (trace_api E fuel reason imported answer seg s x) = run_api E fuel reason imported seg s x.
Proof. intros. now apply trace_pure. Qed.
Print Assumptions C80_same_document.

(** No expression is evaluated more often than it is written. *)
Theorem C80_at_most_once : forall x, exists dropped, Permutation (written x) (evaluated x ++ dropped).
Proof. exact written_covers. Qed.
Print Assumptions C80_at_most_once.
(** Each is evaluated as often as it is written, if no callback is named by a literal. *)
Theorem C80_once_partial : forall x, no_literal_callbacks x -> Permutation (evaluated x) (written x).
Proof. exact evaluated_perm. Qed.
Print Assumptions C80_once_partial.
(** In the order of writing, if moreover there is no apiKey scheme, and no header with an expression among its properties. *)
Theorem C80_as_written_partial : forall x, no_literal_callbacks x ->
  (forall n props, has_header x n props -> flat_map param_prop_exprs props = []) ->
  (forall l n props, In (XcSecurity l) x -> ~ In (XsApiKey n props) l) -> evaluated x = written x.
Proof. exact evaluated_as_written. Qed.
Print Assumptions C80_as_written_partial.

(** The name of a header is evaluated after its description: if expressions say whether they are the first, the one in front does not. *)
Theorem C80_as_written_refuted : exists E fuel reason seg s x answer d h first second p v,
  trace_api E fuel reason true answer seg s x = (Done d, h) /\ written x = [first; second] /\ h = [second; first] /\ first <> second /\
  og_paths d = [(p, v)] /\ map fst (pv_parameters v) = [u "id"; u "later"] /\
  map (fun b => pr_description (snd b)) (pv_parameters v) = [None; Some (u "first")].
Proof.
  exists test_env, 50, test_reason, small_seg, [], header_api, counting. eexists _, _, _, _, _, _.
  split; [vm_compute; reflexivity|]. split; [vm_compute; reflexivity|]. split; [vm_compute; reflexivity|]. split.
  - intros H. apply (f_equal (fun f => f [])) in H. discriminate.
  - split; [reflexivity|]. split; reflexivity.
Qed.
Print Assumptions C80_as_written_refuted.
(** An expression in a callback that is named by a literal is never evaluated. *)
Theorem C80_once_refuted : exists E fuel reason seg s x answer d e,
  trace_api E fuel reason true answer seg s x = (Done d, []) /\ In e (written x).
Proof.
  exists test_env, 50, test_reason, small_seg, [], literal_api, counting. eexists _, _. split; [vm_compute; reflexivity|]. left. reflexivity.
Qed.
Print Assumptions C80_once_refuted.

(** The invocation of C77: all its expressions are evaluated. *)
Example C80_case :
  fst (trace_api test_env 50 test_reason true pure small_seg hy_scope hy_api) = Done hy_doc /\
  snd (trace_api test_env 50 test_reason true pure small_seg hy_scope hy_api) = evaluated hy_api /\
  length (evaluated hy_api) = 14 /\ length (written hy_api) = 14 /\ no_literal_callbacks hy_api.
Proof.
  split; [vm_compute; reflexivity|]. split; [vm_compute; reflexivity|]. split; [reflexivity|]. split; [reflexivity|].
  assert (H : forall d, has_path hy_api d -> Forall (fun p => match p with XvMethod _ l =>
    Forall (fun o => match o with XoCallbacks cs _ => Forall (fun c => match c with XcLit _ _ => False | XcIdent _ ps => ps = [XPathDecl hy_url [XvMethod GET [XoSummary (given "result")]]] end) cs | _ => True end) l | _ => True end) (xd_props d)).
  { intros d (l & Hl & Hd).
    assert (El : exists d0, l = [d0] /\ In (XcPaths [d0]) hy_api).
    { repeat destruct Hl as [Hl|Hl]; try discriminate; try contradiction. injection Hl as <-. eexists. split; [reflexivity|]. do 4 right. left. reflexivity. }
    destruct El as (d0 & -> & Hin). repeat destruct Hin as [Hin|Hin]; try discriminate; try contradiction. injection Hin as <-.
    induction Hd as [d [<-|[]]|d m ops cs t n ps d' _ IH Hm Ho Hc Hd'].
    - repeat constructor.
    - rewrite Forall_forall in IH. specialize (IH _ Hm). cbn in IH. rewrite Forall_forall in IH. specialize (IH _ Ho). cbn in IH.
      rewrite Forall_forall in IH. specialize (IH _ Hc). cbn in IH. subst ps. destruct Hd' as [<-|[]]. repeat constructor. }
  intros d m ops cs t n ps Hd Hm Ho Hc. specialize (H d Hd). rewrite Forall_forall in H. specialize (H _ Hm). cbn in H. rewrite Forall_forall in H.
  specialize (H _ Ho). cbn in H. rewrite Forall_forall in H. exact (H _ Hc).
Qed.
(** The same invocation, if the expression after the first two panics. *)
Example C80_panics_case : exists a e b, evaluated hy_api = a ++ e :: b /\ length a = 2 /\ b <> [] /\
  trace_api test_env 50 test_reason true (fun h x s => if Nat.eqb (length h) 2 then None else Some (x s)) small_seg hy_scope hy_api = (Panicked, a ++ [e]).
Proof.
  destruct (evaluated hy_api) as [|e0 [|e1 [|e2 b] ] ] eqn:Ee; try discriminate. exists [e0; e1], e2, b.
  split; [reflexivity|]. split; [reflexivity|]. injection Ee as <- <- <- <-. split; [discriminate|]. vm_compute. reflexivity.
Qed.
