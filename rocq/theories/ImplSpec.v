(** The grammar of [impl_opg_model!], independently of its rules, and when an impl behaves as a type's own. *)
From Verif Require Import Syntax SyntaxSpec Gen Impl LibImpls.
Local Open Scope string_scope. Local Open Scope list_scope.

Section Grammar.
  Variable C : caller.
  Variable S : scope.
  (** a kind of primitive schema and its model, without and with a format *)
  Inductive plain_kind : string -> model -> Prop :=
  | pk_string : plain_kind "string" (Model None (Single (MType false (TdString (mk_string None None)))))
  | pk_number : plain_kind "number" (Model None (Single (MType false (TdNumber (mk_simple None None)))))
  | pk_integer : plain_kind "integer" (Model None (Single (MType false (TdInteger (mk_simple None None)))))
  | pk_boolean : plain_kind "boolean" (Model None (Single (MType false TdBoolean))).
  Inductive format_kind (f : str) : string -> model -> Prop :=
  | fk_string : format_kind f "string" (Model None (Single (MType false (TdString (mk_string (Some f) None)))))
  | fk_number : format_kind f "number" (Model None (Single (MType false (TdNumber (mk_simple (Some f) None)))))
  | fk_integer : format_kind f "integer" (Model None (Single (MType false (TdInteger (mk_simple (Some f) None))))).
  (** names with commas in between *)
  Definition names_form (ts : list tree) (ns : list str) : Prop := sep_list COMMA (fun t n => t = [TkId n] /\ a_name n) ts ns.

  (** in order: [generic_simple: ..], [generic_simple(?Sized): ..], [generic_simple(nullable): ..],
      [generic_simple(nullable, ?Sized): ..], [generic_tuple: (A, B, ..)], [generic_array: ..], [generic_dictionary: ..],
      [string(always_inline): ..] etc., [string(always_inline, "format"): ..] etc., [string: ..] etc.,
      [string("format"): ..] etc. *)
  Inductive impl_form : list tree -> impl_item -> Prop :=
  | if_simple t : t <> [] -> impl_form (tk_id "generic_simple" :: COLON_TK :: t) {| ii_kind := IkWrap false false; ii_for := t |}
  | if_simple_unsized t : t <> [] -> impl_form (tk_id "generic_simple" :: TkGr Paren [tk_pu "?"; tk_id "Sized"] :: COLON_TK :: t)
      {| ii_kind := IkWrap false true; ii_for := t |}
  | if_nullable t : t <> [] -> impl_form (tk_id "generic_simple" :: TkGr Paren [tk_id "nullable"] :: COLON_TK :: t)
      {| ii_kind := IkWrap true false; ii_for := t |}
  | if_nullable_unsized t : t <> [] ->
      impl_form (tk_id "generic_simple" :: TkGr Paren [tk_id "nullable"; COMMA; tk_pu "?"; tk_id "Sized"] :: COLON_TK :: t)
        {| ii_kind := IkWrap true true; ii_for := t |}
  | if_tuple l ns : names_form l ns -> impl_form [tk_id "generic_tuple"; COLON_TK; TkGr Paren l] {| ii_kind := IkTuple ns; ii_for := [TkGr Paren l] |}
  | if_array t : t <> [] -> model_in_scope S = true -> impl_form (tk_id "generic_array" :: COLON_TK :: t) {| ii_kind := IkArray; ii_for := t |}
  | if_dict t : t <> [] -> model_in_scope S = true -> serde_in_scope S = true ->
      impl_form (tk_id "generic_dictionary" :: COLON_TK :: t) {| ii_kind := IkDict; ii_for := t |}
  | if_const k m t : plain_kind k m -> t <> [] -> model_in_scope S = true ->
      impl_form (tk_id k :: TkGr Paren [tk_id "always_inline"] :: COLON_TK :: t) {| ii_kind := IkConst m; ii_for := t |}
  | if_const_format k f l m t : format_kind f k m -> literal C l f -> t <> [] -> model_in_scope S = true ->
      impl_form (tk_id k :: TkGr Paren (tk_id "always_inline" :: COMMA :: l) :: COLON_TK :: t) {| ii_kind := IkConst m; ii_for := t |}
  | if_named k m n t : plain_kind k m -> t <> [] -> model_in_scope S = true -> type_t S = Some n ->
      impl_form (tk_id k :: COLON_TK :: t) {| ii_kind := IkNamed m n; ii_for := t |}
  | if_named_format k f l m n t : format_kind f k m -> literal C l f -> t <> [] -> model_in_scope S = true -> type_t S = Some n ->
      impl_form (tk_id k :: TkGr Paren l :: COLON_TK :: t) {| ii_kind := IkNamed m n; ii_for := t |}.
End Grammar.

(** the impl does what generation does for the type [t] *)
Definition acts_as (E : env) (k : impl_kind) (args : list ty) (t : ty) : Prop :=
  (forall gs cx, impl_schema E gs k args cx = Some (schema_step E gs t cx)) /\
  impl_name E k args = type_name E t /\ impl_selects k = overrides_select E t.

(** what is in scope inside of opg (lib.rs:1-8): its own [Model], the crate [serde], no type [T] *)
Definition opg_scope : scope := {| model_in_scope := true; serde_in_scope := true; type_t := None |}.
(** ... and where no more than the macro has been imported *)
Definition bare_scope : scope := {| model_in_scope := false; serde_in_scope := false; type_t := None |}.

(** an invocation does, inside of opg, what generation does for the type that it is for *)
Definition as_written (C : caller) (e : list tree * (list ty -> option ty)) : Prop :=
  exists it, impl_opg_model C opg_scope (fst e) = Some it /\ forall E args t, snd e args = Some t -> acts_as E (ii_kind it) args t.

(** impls written by hand: lib.rs:90-115 (other lengths of arrays, with const_generics), 120-262 *)
Definition by_hand (p : prim) : bool := match p with PUnit | PUuid | PNaiveDateTime | PDateTime | PNaiveDate => true | _ => false end.
Inductive by_macro : ty -> Prop :=
| bm_prim p : by_hand p = false -> by_macro (TPrim p)
| bm_wrap w t : by_macro (TWrap w t)
| bm_option t : by_macro (TOption t)
| bm_tuple ts : 2 <= length ts <= 10 -> by_macro (TTuple ts)
| bm_seq k t : (forall n, k = KArray n -> (1 <= n <= 32)%N) -> by_macro (TSeq k t)
| bm_dict k t : by_macro (TDict k t).
