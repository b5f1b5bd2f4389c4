(** The code that describe_type! becomes: C84. *)
From Verif Require Import Tokens Match Syntax SyntaxSpec Conformance ConformanceSyntax.
From Verif Require Import Expand ExpandType ExpandTypeSpec ExpandTypeFacts2 ExpandTypeFacts3 ExpandTypeExamples.
Local Open Scope string_scope. Local Open Scope list_scope.

(** * C84: variables named in a described type are the caller's *)

(** [run_type] (ExpandType.v) runs the code that the rules of the macro write among the variables [l] of the caller: the macro's own
    variables [properties] and [required] carry the mark of the expansion ([mk], not empty), a variable used by value is moved, and
    there is no result if the compiler would reject the code.  [means] (ExpandTypeSpec.v) puts the values of the caller's variables in
    their places and knows no others.  The code has a value if and only if the description has a meaning and uses no model or data
    twice, and the value is the model that C53 gives for that meaning. *)
Theorem C84_meaning : forall mk l d m, mk <> [] ->
  ((exists e, run_type mk d (caller_frame l) = Some (m, e)) <->
   exists d', means (value_of l) d d' /\ NoDup (moved d) /\ m = describe_type d').
Proof. exact type_result. Qed.
Print Assumptions C84_meaning.

(** From the source: where the grammar with the names ([written]) reads it as [d], the code of [d] has the value that C68 gives for the
    source, if no variable is used by value twice; otherwise it does not compile. *)
Theorem C84_source : forall C l mk ts d m, has_variables C l -> mk <> [] -> written C ts d ->
  ((exists e, run_type mk d (caller_frame l) = Some (m, e)) <-> Syntax.describe_type_macro C ts = Some m /\ NoDup (moved d)).
Proof. exact source_runs. Qed.
Print Assumptions C84_source.
(** The two grammars read the same sources, and each source in one way. *)
Theorem C84_grammars : forall C l ts d, has_variables C l -> (type_form C ts d <-> exists xd, written C ts xd /\ means (value_of l) xd d).
Proof. intros C l ts d H. exact (grammars_agree C l H ts d). Qed.
Print Assumptions C84_grammars.
Theorem C84_read_once : forall C ts d d', written C ts d -> written C ts d' -> d = d'.
Proof. exact written_unique. Qed.
Print Assumptions C84_read_once.

(** Afterwards the caller has the variables that there were, nothing more.  The models and data used are gone, and all others hold what they held:
    linked names too. *)
Theorem C84_variables : forall mk l d m e, mk <> [] -> run_type mk d (caller_frame l) = Some (m, e) ->
  map fst e = map fst (caller_frame l) /\
  forall v, tlookup (Id v []) e = if in_dec (list_eq_dec N.eq_dec) v (moved d) then Some Moved else tlookup (Id v []) (caller_frame l).
Proof. exact type_variables. Qed.
Print Assumptions C84_variables.

(** FINDING: one model named for two properties has a meaning, and the grammar takes it, but it does not compile: the first use takes the
    variable away. *)
Theorem C84_every_description_refuted : exists C l ts d d', has_variables C l /\ written C ts d /\ means (value_of l) d d' /\
  Syntax.describe_type_macro C ts = Some (describe_type d') /\ forall mk, mk <> [] -> run_type mk d (caller_frame l) = None.
Proof.
  exists (with_variables test_caller twice_vars), twice_vars, twice_tokens, twice, twice_meaning.
  split; [apply with_has|]. split; [apply twice_written|]. split; [exact twice_means|]. split; [vm_compute; reflexivity|exact twice_fails].
Qed.
Print Assumptions C84_every_description_refuted.

(** The caller's variables are named as those of the macro, one object stands in another, and one name is linked twice. *)
Example C84_case : has_variables (with_variables test_caller hy_vars) hy_vars /\
  written (with_variables test_caller hy_vars) hy_tokens hy_type /\ means (value_of hy_vars) hy_type hy_meaning /\ NoDup (moved hy_type) /\
  (exists e, run_type [7] hy_type (caller_frame hy_vars) = Some (describe_type hy_meaning, e) /\
     tlookup (Id (u "properties") []) e = Some Moved /\ tlookup (Id (u "name") []) e = Some (Has (VText (u "Other")))) /\
  run_type [] hy_type (caller_frame hy_vars) = None.
Proof.
  split; [apply with_has|]. split; [apply hy_written|]. split; [exact hy_means|]. split; [exact hy_nodup|].
  split; [eexists; split; [vm_compute; reflexivity|]; split; vm_compute; reflexivity|]. vm_compute. reflexivity.
Qed.
