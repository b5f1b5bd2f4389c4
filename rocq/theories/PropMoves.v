(** Moves in the code that describe_api! becomes: C87. *)
From Coq Require Import List NArith.
From Verif Require Import Conformance ApiExamples.
From Verif Require Import Str Doc Api Expand ExpandSpec ExpandExamples Moves MovesSpec MovesFacts4 MovesExamples.
Import ListNotations.

(** * C87: what the compiler says about moved values depends only on what the caller does with their own variables *)

(** [passes] (Moves.v): in the code of the invocation no variable, of the macro or of the caller, is used after its value was moved away.
    [api_uses] (MovesSpec.v): how the invocation uses the variables of the caller, whatever their expressions do inside ([uses]) and
    whichever of them are only a variable ([alone]). [allowed]: that these uses one after the other are allowed. *)
Theorem C87_moves : forall uses alone seg vars x,
  (forall l, In (XcInfo l) x -> info_tidy uses alone l) ->
  passes uses alone seg vars x <-> allowed vars (api_uses uses alone x).
Proof. exact moves_checked. Qed.
Print Assumptions C87_moves.

(** An invocation of constants is never rejected for a move: the variables of the macro itself are each moved at most once. *)
Theorem C87_own_variables : forall uses alone seg vars x,
  (forall e, uses e = []) -> (forall e, alone e = None) ->
  (forall l, In (XcInfo l) x -> NoDup (map info_name l)) -> api_uses uses alone x = [] -> passes uses alone seg vars x.
Proof. exact own_variables. Qed.
Print Assumptions C87_own_variables.

(** A variable that is used by reference only can be used any number of times; so can one that can be copied. *)
Theorem C87_many_uses : forall uses alone seg vars x,
  (forall l, In (XcInfo l) x -> info_tidy uses alone l) ->
  (forall w, In w (api_uses uses alone x) -> copyable vars (used w) = Some true \/ exists n, w = Borrow n /\ copyable vars n = Some false /\ ~ In (Take n) (api_uses uses alone x)) ->
  passes uses alone seg vars x.
Proof. exact many_uses. Qed.
Print Assumptions C87_many_uses.

(** A [String] named for two servers, or for a server and then elsewhere, is rejected, although the invocation has a document. *)
Theorem C87_every_invocation_refuted : exists E fuel reason seg s x d,
  s = [(u "url", XText (u "U"))] /\ run_api E fuel reason true seg s x = Done d /\
  ~ passes ex_uses ex_alone seg [(u "url", false)] x /\ passes ex_uses ex_alone seg [(u "url", true)] x.
Proof.
  exists test_env, 50, test_reason, small_seg, [(u "url", XText (u "U"))], twice_api. eexists _.
  split; [reflexivity|]. split; [vm_compute; reflexivity|]. split; unfold passes; vm_compute; [auto|discriminate].
Qed.
Print Assumptions C87_every_invocation_refuted.
Theorem C87_order_refuted : exists seg,
  passes ex_uses ex_alone seg [(u "url", false)] once_api /\ ~ passes ex_uses ex_alone seg [(u "url", false)] late_api.
Proof. exists small_seg. split; unfold passes; vm_compute; [discriminate|auto]. Qed.
Print Assumptions C87_order_refuted.

(** An invocation with all sections: two [String]s are used three times each, by reference. *)
Example C87_case :
  (forall l, In (XcInfo l) hy_api -> info_tidy ex_uses ex_alone l) /\ allowed hy_vars (api_uses ex_uses ex_alone hy_api) /\
  length (api_uses ex_uses ex_alone hy_api) = 15 /\ copyable hy_vars (u "parameter") = Some false /\
  count_occ (list_eq_dec N.eq_dec) (map used (api_uses ex_uses ex_alone hy_api)) (u "parameter") = 3.
Proof.
  split; [exact hy_tidy|]. split; [apply (C87_moves ex_uses ex_alone small_seg), hy_passes; exact hy_tidy|]. repeat split; vm_compute; reflexivity.
Qed.
