(** The types of the repository's tests with and without their documentation. *)
From Verif Require Import Attr AttrSpec Ast Derive DeriveSpec Schema SchemaSpec Gen GenSpec DeriveExamples Conformance.
From Verif Require Import Doc Ser Api ApiSpec SoundSpec SoundExamples DocsSpec.
Local Open Scope string_scope. Local Open Scope list_scope.

Definition bare_items : list (derive_input ty) := map (bare_input all_docs) items.

Lemma sources_program l : forallb (fun i => match ex_derive i with DOk _ => true | _ => false end) (i_secret :: l) = true ->
  program yes yes noupper DeriveExamples.same (sources l) (sources_env l).
Proof. intros H id. apply (sources_derived l (TNamed id) H id). apply in_self. Qed.
Lemma items_program : program yes yes noupper DeriveExamples.same (sources items) (sources_env items).
Proof. apply sources_program. vm_compute. reflexivity. Qed.
Lemma bare_items_program : program yes yes noupper DeriveExamples.same (sources bare_items) (sources_env bare_items).
Proof. apply sources_program. vm_compute. reflexivity. Qed.

Lemma items_redocumented id : redocumented all_docs (sources items id) (sources bare_items id).
Proof.
  do 22 (destruct id as [|id]; [vm_compute; reflexivity|]). unfold sources, bare_items. rewrite !nth_overflow; [reflexivity|cbn; lia|cbn; lia].
Qed.
(** two of the schemas: they do differ, and in what *)
Definition doc_calls : list mention_call :=
  [Build_mention_call (TNamed 5) false params_default; Build_mention_call (TOption (TNamed 1)) true (Build_params (Some (u "Maybe")) None None None None)].
Definition bare_calls : list mention_call :=
  [Build_mention_call (TNamed 5) false params_default; Build_mention_call (TOption (TNamed 1)) true params_default].
Lemma doc_calls_alike : Forall2 (redocumented_call all_docs) doc_calls bare_calls.
Proof. repeat (apply Forall2_cons; [repeat split|]). apply Forall2_nil. Qed.

Fixpoint answer_from (E : env) (l : list mention_call) (cx : components) : option (list model_ref * components) :=
  match l with
  | [] => Some ([], cx)
  | c :: l' => match mention E 20 (mc_ty c) (mc_inline c) (mc_params c) cx with
               | Ok (r, cx1) => match answer_from E l' cx1 with Some (rs, cx2) => Some (r :: rs, cx2) | None => None end
               | Fuel => None
               end
  end.
Lemma answer_from_answers E l cx0 rs cx : answer_from E l cx0 = Some (rs, cx) -> answers E l cx0 rs cx.
Proof.
  revert rs cx cx0. induction l as [|c l IH]; intros rs cx cx0; cbn [answer_from]; [intros [= <- <-]; constructor|].
  destruct (mention E 20 _ _ _ cx0) as [[r cx1]|] eqn:Em; [|discriminate].
  destruct (answer_from E l cx1) as [[rs' cx2]|] eqn:Eg; [|discriminate]. intros [= <- <-]. econstructor; [exists 20; exact Em|]. eauto.
Qed.
Definition doc_answer := Eval vm_compute in answer_from (sources_env items) doc_calls cx_new.
Definition bare_answer := Eval vm_compute in answer_from (sources_env bare_items) bare_calls cx_new.
Lemma doc_answers : exists rs cx, doc_answer = Some (rs, cx) /\ answers (sources_env items) doc_calls cx_new rs cx.
Proof. unfold doc_answer. do 2 eexists. split; [reflexivity|]. apply answer_from_answers. vm_compute. reflexivity. Qed.
Lemma bare_answers : exists rs cx, bare_answer = Some (rs, cx) /\ answers (sources_env bare_items) bare_calls cx_new rs cx.
Proof. unfold bare_answer. do 2 eexists. split; [reflexivity|]. apply answer_from_answers. vm_compute. reflexivity. Qed.

(** the description of the tests, over both *)
Definition doc_done := Eval vm_compute in describe_api (sources_env items) 50 test_reason test_seg test_api.
Definition bare_done := Eval vm_compute in describe_api (sources_env bare_items) 50 test_reason test_seg test_api.
Lemma doc_api : exists d, doc_done = Done d /\ describes (sources_env items) test_reason test_seg test_api d.
Proof. unfold doc_done. eexists. split; [reflexivity|]. exists 50. vm_compute. reflexivity. Qed.
Lemma bare_api : exists d, bare_done = Done d /\ describes (sources_env bare_items) test_reason test_seg test_api d.
Proof. unfold bare_done. eexists. split; [reflexivity|]. exists 50. vm_compute. reflexivity. Qed.
