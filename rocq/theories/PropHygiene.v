(** Names in the code that the derive writes: C73. *)
From Verif Require Import DeriveExamples HygieneSpec HygieneFacts.
Local Open Scope string_scope. Local Open Scope list_scope.

(** * C73: What the derive writes keeps apart from the names of the program it is written into *)

(** An example expression means the same in the written code as where it was given, if it has none of three names. *)
Theorem C73_examples_keep_meaning_partial : forall parses_expr parses_path uni_upper self i c src seen,
  derive_code parses_expr parses_path uni_upper self i = CodeOk c -> stands_in_impl c src seen ->
  ~ has_in_it src (u "cx") -> ~ has_in_it src (u "properties") -> ~ has_in_it src (u "required") -> ~ captured src seen.
Proof. exact not_captured. Qed.
(** Without that it may not: a name in it can be taken for a variable of the written code. *)
Theorem C73_examples_keep_meaning_refuted : exists self i c src seen,
  derive_code yes yes noupper self i = CodeOk c /\ stands_in_impl c src seen /\ captured src seen.
Proof. exact some_captured. Qed.
(** The impl for a type is wrapped in a constant named after it. Two types are wrapped in constants of the same name exactly if
    they have the same name, however it is spelled; and the name of the constant is an identifier. *)
Theorem C73_const_names : forall i j n m, spells i n -> spells j m ->
  const_name i = u "_IMPL_OPG_MODEL_FOR_" ++ n /\ (const_name i = const_name j <-> n = m) /\ ~ In hash (const_name i).
Proof. exact const_names. Qed.

(** #[derive(OpgModel)] struct Page { #[opg(example_with = "required()")] total: i32, #[opg(example_with = "first() + 1")] next: i32 } *)
Example C73_case : exists c, derive_code yes yes noupper (TNamed 0) i_page = CodeOk c /\
  stands_in_impl c (u "first() + 1") [V_required; V_properties; V_cx] /\
  ~ captured (u "first() + 1") [V_required; V_properties; V_cx] /\
  stands_in_impl c (u "required()") [V_required; V_properties; V_cx] /\
  captured (u "required()") [V_required; V_properties; V_cx].
Proof. exact page_case. Qed.
Example C73_const_case : spells (u "r#type") (u "type") /\ spells (u "Page") (u "Page") /\
  const_name (u "r#type") = u "_IMPL_OPG_MODEL_FOR_type" /\ const_name (u "Page") <> const_name (u "r#type").
Proof.
  split; [split; [vm_compute; intuition discriminate|now right]|]. split; [split; [vm_compute; intuition discriminate|now left]|].
  split; [reflexivity|]. vm_compute. discriminate.
Qed.
Print Assumptions C73_examples_keep_meaning_partial.
Print Assumptions C73_examples_keep_meaning_refuted.
Print Assumptions C73_const_names.
