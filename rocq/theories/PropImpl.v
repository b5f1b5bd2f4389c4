(** The macro that gives other types a schema: C70. *)
From Verif Require Import Syntax SyntaxSpec Schema Gen GenSpec Impl LibImpls ImplSpec ImplFacts ImplFacts2.
From Coq Require Import Lia.
Local Open Scope string_scope. Local Open Scope list_scope.

(** * C70: [impl_opg_model!] writes the impl that its form names *)

(** What the macro accepts, and the impl it writes for it, in terms of the grammar of ImplSpec.v. *)
Theorem C70_reads : forall C S ts it, impl_opg_model C S ts = Some it <-> impl_form C S ts it.
Proof. exact impl_spec. Qed.
Print Assumptions C70_reads.
(** No invocation has two readings. *)
Theorem C70_one_reading : forall C S ts a b, impl_form C S ts a -> impl_form C S ts b -> a = b.
Proof. exact impl_unique. Qed.
Print Assumptions C70_one_reading.
Example C70_case : forall C,
  impl_form C opg_scope [tk_id "string"; TkGr Paren [tk_id "always_inline"; COMMA; tk_str "email"]; COLON_TK; tk_id "Email"]
    {| ii_kind := IkConst (Model None (Single (MType false (TdString (mk_string (Some (u "email")) None))))); ii_for := [tk_id "Email"] |} /\
  impl_form C bare_scope [tk_id "generic_simple"; TkGr Paren [tk_id "nullable"]; COLON_TK; tk_id "Maybe"; tk_pu "<"; tk_id "T"; tk_pu ">"]
    {| ii_kind := IkWrap true false; ii_for := [tk_id "Maybe"; tk_pu "<"; tk_id "T"; tk_pu ">"] |}.
Proof. intros C. split; apply impl_spec; vm_compute; reflexivity. Qed.

(** Every invocation in lib.rs compiles there and gives its type the schema, the name and the way of being mentioned that
    the theorems about generation assume. *)
Theorem C70_builtin_types : forall C e, In e lib_impls -> as_written C e.
Proof. exact lib_written_in. Qed.
Print Assumptions C70_builtin_types.
(** The invocations cover exactly the types of [by_macro]. *)
Theorem C70_builtin_coverage : forall t, by_macro t <-> exists e args, In e lib_impls /\ snd e args = Some t.
Proof. exact lib_covers. Qed.
Print Assumptions C70_builtin_coverage.
Example C70_coverage_case :
  by_macro (TTuple [TPrim PBool; TOption (TPrim PString); TSeq (KArray 32) (TPrim PU8)]) /\ by_macro (TSeq (KArray 32) (TPrim PU8)) /\
  ~ by_macro (TSeq (KArray 33) (TPrim PU8)) /\ ~ by_macro (TPrim PUuid) /\ ~ by_macro (TTuple [TPrim PBool]).
Proof.
  split; [constructor; cbn; lia|]. split; [constructor; intros n [= <-]; now split|]. split; [|split].
  - intros H. inversion H as [| | | |k t' Hk|]. destruct (Hk _ eq_refl) as [_ Hn]. now apply Hn.
  - intros H. inversion H as [p Hp| | | | |]. discriminate.
  - intros H. inversion H as [| | |ts Hl| |]. cbn in Hl. lia.
Qed.

(** FINDING: the form without [always_inline], [string: Foo], asks for the name of a type called [T] (macros.rs:305),
    which is no parameter of the impl.  It does not compile where there is no such type ... *)
Theorem C70_plain_form_refuted : forall C S k fmt t, type_t S = None -> k <> u "generic_simple" ->
  (fmt = [] \/ exists l f, literal C l f /\ fmt = [TkGr Paren l]) -> k <> u "generic_tuple" -> k <> u "generic_array" -> k <> u "generic_dictionary" ->
  impl_opg_model C S (TkId k :: fmt ++ COLON_TK :: t) = None.
Proof. exact plain_form_refused. Qed.
Print Assumptions C70_plain_form_refuted.
(** ... and takes that type's component name where there is one; its schema is the constant written, and it is referred
    to as any named type is ([select_reference] is not overridden). *)
Theorem C70_plain_form_name : forall C S ts it m n E, impl_opg_model C S ts = Some it -> ii_kind it = IkNamed m n ->
  type_t S = Some n /\ impl_name E (ii_kind it) [] = type_name E n /\
  impl_selects (ii_kind it) = false /\ forall gs cx, impl_schema E gs (ii_kind it) [] cx = Some (Ok (m, cx)).
Proof. exact named_name. Qed.
Print Assumptions C70_plain_form_name.
Example C70_plain_form_case : forall C, let S t := {| model_in_scope := true; serde_in_scope := true; type_t := t |} in
  let ts := [tk_id "string"; COLON_TK; tk_id "Foo"] in
  impl_opg_model C (S None) ts = None /\ exists m, impl_opg_model C (S (Some (TNamed 0))) ts = Some {| ii_kind := IkNamed m (TNamed 0); ii_for := [tk_id "Foo"] |}.
Proof. intros C. split; [vm_compute; reflexivity|]. eexists. vm_compute. reflexivity. Qed.

(** FINDING: with no more than the macro imported only the [generic_simple] and [generic_tuple] forms compile: the others
    write [Model] or [serde] without [$crate] (macros.rs:241, 268, 271, 297, 312). *)
Theorem C70_imports_refuted : forall C, exists ts it, impl_opg_model C opg_scope ts = Some it /\ impl_opg_model C bare_scope ts = None.
Proof. exact imports_matter. Qed.
Print Assumptions C70_imports_refuted.
Theorem C70_bare_forms : forall C ts it, impl_opg_model C bare_scope ts = Some it <->
  impl_opg_model C opg_scope ts = Some it /\ ((exists n z, ii_kind it = IkWrap n z) \/ exists ns, ii_kind it = IkTuple ns).
Proof. exact bare_forms. Qed.
Print Assumptions C70_bare_forms.
