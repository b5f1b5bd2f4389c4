(** Declarations with errors, used to show that the theorems about compile errors are not vacuous. *)
From Verif Require Import AttrSpec DeriveSpec DeriveExamples PanicSpec DiagSpec.
Local Open Scope string_scope. Local Open Scope list_scope.

Definition quoted (s : str) : str := u """" ++ s ++ u """".
Definition ex_shows : derive_input ty -> shown := derive_shows yes yes noupper same quoted.
Definition path_value (segs : list string) (v : string) : nested :=
  NMeta (MNameValue {| pa_colon := false; pa_segs := map u segs |} (LStr (u v))).

(** #[opg(string, nullable, number, foo::bar = "x")] #[serde = "x"]
    #[serde(rename_all(serialize = "a", deserialize = "c", serialize = "b"))]
    enum Bad { #[opg(inline, inline)] A(#[serde(rename = 5)] i32),
               #[serde(rename =)] B { #[opg("text", integer, "other", string)] x: i32 } } *)
Definition i_bad : derive_input ty :=
  item [opg_attr [word_item "string"; word_item "nullable"; word_item "number"; path_value ["foo"; "bar"] "x"];
        {| at_path := ident "serde"; at_meta := PmOther |};
        serde_attr [list_item "rename_all" [str_value "serialize" "a"; str_value "deserialize" "c"; str_value "serialize" "b"]]] "Bad"
    (DaEnum
      [vrt [opg_attr [word_item "inline"; word_item "inline"]] "A" (FUnnamed [pos_fld [serde_attr [name_value "rename" LOther]] i32]);
       vrt [{| at_path := ident "serde"; at_meta := PmErr |}] "B"
         (FNamed [fld [opg_attr [described "text"; word_item "integer"; described "other"; word_item "string"]] "x" i32])]).
Definition bad_errors : list diag :=
  [own (AtPart OContainer 0 3 PaPath) (u "unknown opg variant attribute `foo::bar`");
   own (AtMeta OContainer 1) (u "expected #[serde(...)]");
   own (AtPart OContainer 2 0 (PaNested 2)) (u "duplicate opg attribute `rename`");
   own (AtPart OContainer 0 2 PaPath) (u "duplicate opg attribute");
   own (AtPart (OVariant 0) 0 1 PaPath) (u "duplicate opg attribute `inline`");
   own (AtPart (OField (Some 0) 0) 0 0 PaLit) (u "expected rename attribute to be a string: `rename = ""...""`");
   {| dg_at := AtSyntax (OVariant 1) 0; dg_text := Syn |};
   own (AtPart (OField (Some 1) 0) 0 2 PaItem) (u "duplicate opg attribute `description`");
   own (AtPart (OField (Some 1) 0) 0 3 PaPath) (u "duplicate opg attribute")].
Lemma bad_shows : ex_shows i_bad = Errors bad_errors.
Proof. vm_compute. reflexivity. Qed.

(** #[opg(nothing)] union U { .. } *)
Definition i_union : derive_input ty := item [opg_attr [word_item "nothing"]] "U" DaUnion.
Lemma union_shows : ex_shows i_union =
  Errors [own (AtPart OContainer 0 0 PaPath) (u "unknown attribute"); own AtIdent (u "unions are not supported");
          own AtInput (u "union types are not supported")].
Proof. vm_compute. reflexivity. Qed.

(** enum Mixed { A = 1, #[opg(nothing)] B } *)
Definition i_mixed : derive_input ty := item [] "Mixed" (DaEnum [vrt_disc "A" "1"; vrt [opg_attr [word_item "nothing"]] "B" FUnit]).
Lemma mixed_shows : ex_shows i_mixed = Errors [own AtVariants (u "varant discriminants are not consistent")].
Proof. vm_compute. reflexivity. Qed.
(** #[serde(rename_all = "camelCase")] struct Dash { #[opg(nothing)] _: i32 }, with a name that has nothing to lower *)
Definition i_dash : derive_input ty :=
  item [serde_attr [str_value "rename_all" "camelCase"]] "Dash" (DaStruct (FNamed [fld [opg_attr [word_item "nothing"]] "__" i32])).
Lemma dash_shows : ex_shows i_dash = Panics.
Proof. vm_compute. reflexivity. Qed.
