(** The recursion limit on the tests' invocation, and on an operation with many responses. *)
From Verif Require Import Conformance ConformanceSyntax Levels LevelsSpec LevelsFacts LevelsFacts2 SyntaxSpec SyntaxFacts9.
From Coq Require Import Lia.
Local Open Scope string_scope. Local Open Scope list_scope.

Definition default_limit : nat := 128.
(** test_suite/tests/api.rs:43-121 is far from the limit *)
Example test_levels : api_levels test_caller test_tokens = 17.
Proof. vm_compute. reflexivity. Qed.

(** [n] responses without content, from [c] on *)
Fixpoint response_tokens_from (c : N) (n : nat) : list tree :=
  match n with O => [] | S n' => TkLit (TlInt c) :: tk_pu ":" :: tk_id "None" :: tk_pu "," :: response_tokens_from (c + 1) n' end.
Definition responses_source (n : nat) : list tree :=
  [tk_id "paths"; tk_pu ":"; TkGr Brace [TkGr Paren [tk_str "jobs"]; tk_pu ":"; TkGr Brace
     [tk_id "GET"; tk_pu ":"; TkGr Brace (response_tokens_from 100 n)]]].
Definition compiled (limit : nat) (ts : list tree) : bool :=
  match limited_api_macro limit test_caller test_env 5 test_reason ts with Done _ => true | _ => false end.
Example responses_fit : compiled default_limit (responses_source 62) = true.
Proof. vm_compute. reflexivity. Qed.
Example responses_too_many : compiled default_limit (responses_source 63) = false /\ compiled 130 (responses_source 63) = true.
Proof. vm_compute. split; reflexivity. Qed.
