(** [impl_opg_model!] (opg/src/macros.rs:165-330): from token trees to the impl it writes, and what the impl does.

    Not modelled: whether rustc accepts the impl for the type it is written for (coherence, distinct names of
    parameters, bounds of the methods). *)
From Verif Require Export Syntax Gen.
Local Open Scope string_scope. Local Open Scope list_scope.

(** The kinds of impls the macro writes. *)
Inductive impl_kind :=
| IkWrap (nullable unsized : bool)   (* macros.rs:167-184, 186-200: [impl<T>], delegating to [T]; [?Sized] *)
| IkTuple (names : list str)         (* macros.rs:202-232: [impl<T1, ..>] *)
| IkArray                            (* macros.rs:234-262: [impl<T>] *)
| IkDict                             (* macros.rs:264-293: [impl<K, T>] *)
| IkConst (m : model)                (* macros.rs:310-328: always inline *)
| IkNamed (m : model) (t : ty).      (* macros.rs:295-308: the name is that of the type called [T] *)
(** the impl and the tokens of the type it is for *)
Record impl_item := { ii_kind : impl_kind; ii_for : list tree }.

(** What is in scope where the macro is used (the names that the expansion writes without [$crate]): does [Model] stand
    for opg's (macros.rs:241, 271, 297, 312)?  Is there a crate [serde] (macros.rs:268)?  Is there a type [T] with a
    schema (macros.rs:305)? *)
Record scope := { model_in_scope : bool; serde_in_scope : bool; type_t : option ty }.

Section Rules.
  Variable C : caller.
  Variable S : scope.

  (** the tokens of a literal that was matched *)
  Definition lit_tokens (v : lval) : list tree :=
    match v with
    | VStr s => [TkLit (TlStr s)]
    | VInt n => [TkLit (TlInt n)]
    | VOther s => [TkLit (TlOther s)]
    | VBool b => [tk_id (if b then "true" else "false")]
    | VNeg l => [tk_pu "-"; TkLit l]
    end.
  (** macros.rs:298-300, 313-315: [describe_type!($serialized_type => { $(format: $format)? })] *)
  Definition const_model (kind : str) (format : list (list binding)) : option model :=
    match format with
    | [] => describe_type_macro C [TkId kind; tk_pu "=>"; TkGr Brace []]
    | [[BLit v]] => describe_type_macro C [TkId kind; tk_pu "=>"; TkGr Brace (tk_id "format" :: tk_pu ":" :: lit_tokens v)]
    | _ => None
    end.
  (** [$(+ ?$sized)?]: rustc only lets [Sized] be relaxed *)
  Definition sized_mark (l : list (list binding)) : option bool :=
    match l with
    | [] => Some false
    | [[BId s]] => if str_eqb s (u "Sized") then Some true else None
    | _ => None
    end.
  Definition item (k : impl_kind) (t : list (list binding)) : impl_item := {| ii_kind := k; ii_for := trees t |}.
  Definition needs {X} (b : bool) (x : X) : option X := if b then Some x else None.
  Definition param_name (b : list binding) : option str := match b with [BId n] => Some n | _ => None end.

  (** macros.rs:167-329 *)
  Definition impl_rules : list (rule impl_item) :=
    [Build_rule [kw "generic_simple"; PG Paren [kw "nullable"; opt [pu ","; pu "?"; PV FIdent]]; pu ":"; tts1]
       (fun b => match b with [BRep s; BRep t] => option_map (fun z => item (IkWrap true z) t) (sized_mark s) | _ => None end);
     Build_rule [kw "generic_simple"; opt [PG Paren [pu "?"; PV FIdent]]; pu ":"; tts1]
       (fun b => match b with [BRep s; BRep t] => option_map (fun z => item (IkWrap false z) t) (sized_mark s) | _ => None end);
     Build_rule [kw "generic_tuple"; pu ":"; PG Paren [PR [PV FIdent] (Some COMMA) RPlus]]
       (fun b => match b with
                 | [BRep l] => option_map (fun ns => {| ii_kind := IkTuple ns;
                     ii_for := [TkGr Paren (match ns with [] => [] | n :: ns' => TkId n :: flat_map (fun m => [COMMA; TkId m]) ns' end)] |}) (all_some param_name l)
                 | _ => None
                 end);
     Build_rule [kw "generic_array"; pu ":"; tts1]
       (fun b => match b with [BRep t] => needs (model_in_scope S) (item IkArray t) | _ => None end);
     Build_rule [kw "generic_dictionary"; pu ":"; tts1]
       (fun b => match b with [BRep t] => needs (model_in_scope S && serde_in_scope S) (item IkDict t) | _ => None end);
     Build_rule [PV FIdent; opt [PG Paren [PV FLit]]; pu ":"; tts1]
       (fun b => match b with
                 | [BId k; BRep f; BRep t] =>
                     match const_model k f, type_t S with Some m, Some n => needs (model_in_scope S) (item (IkNamed m n) t) | _, _ => None end
                 | _ => None
                 end);
     Build_rule [PV FIdent; PG Paren [kw "always_inline"; opt [pu ","; PV FLit]]; pu ":"; tts1]
       (fun b => match b with
                 | [BId k; BRep f; BRep t] =>
                     match const_model k f with Some m => needs (model_in_scope S) (item (IkConst m) t) | None => None end
                 | _ => None
                 end)].
  (** [None]: does not compile *)
  Definition impl_opg_model (ts : list tree) : option impl_item := match_rules C impl_rules ts.
End Rules.

(** ** What the impls do, for given generic arguments ([K] aside); [None]: wrong number of arguments *)
Section Do.
  Variable E : env.
  (** [type_name]: macros.rs:180-182, 196-198, 223-225, 253-255, 284-286, 304-306, 319-321 *)
  Definition impl_name (k : impl_kind) (args : list ty) : option str :=
    match k, args with
    | IkWrap _ _, t :: _ => type_name E t
    | IkNamed _ t, _ => type_name E t
    | _, _ => None
    end.
  (** is [select_reference] overridden (macros.rs:227-230, 257-260, 288-291, 323-326)? *)
  Definition impl_selects (k : impl_kind) : bool := match k with IkWrap _ _ | IkNamed _ _ => false | _ => true end.
  Variable gs : ty -> components -> res (model * components).
  (** [get_schema]: macros.rs:172-177, 191-193, 207-220, 239-250, 270-281, 297-301, 312-316 *)
  Definition impl_schema (k : impl_kind) (args : list ty) (cx : components) : option (res (model * components)) :=
    match k, args with
    | IkWrap true _, [t] => Some (get_schema_with_params gs t nullable_params cx)
    | IkWrap false _, [t] => Some (gs t cx)
    | IkTuple ns, ts =>
        if Nat.eqb (length ns) (length ts)
        then Some (do (rs, cx') <- eval_vec (fun t' => mention_schema E gs t' false params_default) ts cx;
                   Ok (describe_type (DtArray None (DvInline (DtRawModel (Model None (OneOf rs))))), cx'))
        else None
    | IkArray, [t] =>
        Some (do (r, cx') <- mention_schema E gs t false params_default cx;
              Ok (Model None (Single (MType false (TdArray r))), cx'))
    | IkDict, [t] =>
        Some (do (r, cx') <- mention_schema E gs t false params_default cx;
              Ok (Model None (Single (MType false (TdObject (MObject [] (Some r) [])))), cx'))
    | IkConst m, [] | IkNamed m _, [] => Some (Ok (m, cx))
    | _, _ => None
    end.
End Do.
