(** Concrete derive inputs, used to show that the theorems about the derive are not vacuous. *)
From Verif Require Import Attr AttrSpec Ast Derive DeriveSpec Schema Gen GenSpec.

(** every text is an expression and a path; an expression's value is its text *)
Definition yes : str -> bool := fun _ => true.
Definition noupper : N -> bool := fun _ => false.
Definition same : str -> str := fun s => s.
Definition ex_derive : derive_input ty -> derive_result := derive yes yes noupper same.

Definition opg_attr (items : list nested) : attribute := {| at_path := ident "opg"; at_meta := PmList items |}.
Definition serde_attr (items : list nested) : attribute := {| at_path := ident "serde"; at_meta := PmList items |}.
Definition repr_attr : attribute := {| at_path := ident "repr"; at_meta := PmList [word_item "u8"] |}.
Definition str_value (w v : string) : nested := name_value w (LStr (u v)).
Definition described (s : string) : nested := NLit (LStr (u s)).

Definition fld (l : list attribute) (n : string) (t : ty) : field_syn ty := Build_field_syn l (Some (u n)) t.
Definition pos_fld (l : list attribute) (t : ty) : field_syn ty := Build_field_syn l None t.
Definition vrt (l : list attribute) (n : string) (f : fields_syn ty) : variant_syn ty := Build_variant_syn l (u n) f None.
Definition vrt_disc (n d : string) : variant_syn ty := Build_variant_syn [] (u n) FUnit (Some (u d)).
Definition item (l : list attribute) (n : string) (d : data_syn ty) : derive_input ty := Build_derive_input l (u n) d.

Definition i32 : ty := TPrim PI32.
Definition text : ty := TPrim PString.

(** #[serde(rename_all = "camelCase")] #[opg("A point")]
    struct Point { #[opg(optional)] first_x: i32, #[serde(skip)] secret: Secret,
                   #[serde(rename = "Y")] #[opg(integer, format = "int64")] y: String } *)
Definition i_point : derive_input ty :=
  item [serde_attr [str_value "rename_all" "camelCase"]; opg_attr [described "A point"]] "Point"
    (DaStruct (FNamed
      [fld [opg_attr [word_item "optional"]] "first_x" i32;
       fld [serde_attr [word_item "skip"]] "secret" (TNamed 9);
       fld [serde_attr [str_value "rename" "Y"]; opg_attr [word_item "integer"; str_value "format" "int64"]] "y" text])).

(** #[serde(rename_all = "kebab-case")] enum Color { Red, DarkBlue, #[serde(skip)] Hidden } *)
Definition i_color : derive_input ty :=
  item [serde_attr [str_value "rename_all" "kebab-case"]] "Color"
    (DaEnum [vrt [] "Red" FUnit; vrt [] "DarkBlue" FUnit; vrt [serde_attr [word_item "skip"]] "Hidden" FUnit]).

(** #[repr(u8)] enum Level { Low = 1, High = 20 } *)
Definition i_level : derive_input ty := item [repr_attr] "Level" (DaEnum [vrt_disc "Low" "1"; vrt_disc "High" "20"]).

(** enum Shape { Empty, Size(i32), Pair(i32, String), #[serde(rename_all = "UPPERCASE")] Named { inner: Point } } *)
Definition shape_variants : list (variant_syn ty) :=
  [vrt [] "Empty" FUnit; vrt [] "Size" (FUnnamed [pos_fld [] i32]); vrt [] "Pair" (FUnnamed [pos_fld [] i32; pos_fld [] text]);
   vrt [serde_attr [str_value "rename_all" "UPPERCASE"]] "Named" (FNamed [fld [] "inner" (TNamed 0)])].
Definition i_shape : derive_input ty := item [] "Shape" (DaEnum shape_variants).

(** #[serde(untagged)] enum Either { Left(i32), Right { value: String } } *)
Definition either_variants : list (variant_syn ty) :=
  [vrt [] "Left" (FUnnamed [pos_fld [] i32]); vrt [] "Right" (FNamed [fld [] "value" text])].
Definition i_untagged : derive_input ty := item [serde_attr [word_item "untagged"]] "Either" (DaEnum either_variants).

(** #[serde(tag = "kind")] enum Event { Stop, Move { to: Point }, Jump(Point), Say(String) } *)
Definition event_variants : list (variant_syn ty) :=
  [vrt [] "Stop" FUnit; vrt [] "Move" (FNamed [fld [] "to" (TNamed 0)]); vrt [] "Jump" (FUnnamed [pos_fld [] (TNamed 0)]);
   vrt [] "Say" (FUnnamed [pos_fld [] text])].
Definition i_internal : derive_input ty := item [serde_attr [str_value "tag" "kind"]] "Event" (DaEnum event_variants).

(** #[serde(tag = "t", content = "c")] enum Message { Num(i32), Two(i32, String), Rec { a: i32 } } *)
Definition message_variants : list (variant_syn ty) :=
  [vrt [] "Num" (FUnnamed [pos_fld [] i32]); vrt [] "Two" (FUnnamed [pos_fld [] i32; pos_fld [] text]);
   vrt [] "Rec" (FNamed [fld [] "a" i32])].
Definition i_adjacent : derive_input ty :=
  item [serde_attr [str_value "tag" "t"; str_value "content" "c"]] "Message" (DaEnum message_variants).

(** #[opg("An age", nullable)] struct Age(#[opg(format = "int8")] i32) *)
Definition i_newtype : derive_input ty :=
  item [opg_attr [described "An age"; word_item "nullable"]] "Age"
    (DaStruct (FUnnamed [pos_fld [opg_attr [str_value "format" "int8"]] i32])).

(** #[opg(inline)] struct Pair(Point, #[serde(skip)] Secret) *)
Definition i_tuple : derive_input ty :=
  item [opg_attr [word_item "inline"]] "Pair"
    (DaStruct (FUnnamed [pos_fld [] (TNamed 0); pos_fld [serde_attr [word_item "skip"]] (TNamed 9)])).

(** struct Secret { key: String } *)
Definition i_secret : derive_input ty := item [] "Secret" (DaStruct (FNamed [fld [] "key" text])).

Definition derived (i : derive_input ty) : typedef :=
  match ex_derive i with DOk td => td | _ => {| td_ident := []; td_inline := false; td_body := McModel None (DcOneOf []) |} end.
(** the generated code, evaluated *)
Definition td_point : typedef := Eval vm_compute in derived i_point.
Definition td_color : typedef := Eval vm_compute in derived i_color.
Definition td_level : typedef := Eval vm_compute in derived i_level.
Definition td_shape : typedef := Eval vm_compute in derived i_shape.
Definition td_untagged : typedef := Eval vm_compute in derived i_untagged.
Definition td_internal : typedef := Eval vm_compute in derived i_internal.
Definition td_adjacent : typedef := Eval vm_compute in derived i_adjacent.
Definition td_newtype : typedef := Eval vm_compute in derived i_newtype.
Definition td_tuple : typedef := Eval vm_compute in derived i_tuple.
Definition td_secret : typedef := Eval vm_compute in derived i_secret.
Definition ex_env : env := fun id =>
  match id with
  | 0 => td_point | 1 => td_color | 2 => td_level | 3 => td_shape | 4 => td_untagged
  | 5 => td_internal | 6 => td_adjacent | 7 => td_newtype | 8 => td_tuple | _ => td_secret
  end.

Lemma d_point : ex_derive i_point = DOk (ex_env 0).
Proof. vm_compute. reflexivity. Qed.
Lemma d_color : ex_derive i_color = DOk (ex_env 1).
Proof. vm_compute. reflexivity. Qed.
Lemma d_level : ex_derive i_level = DOk (ex_env 2).
Proof. vm_compute. reflexivity. Qed.
Lemma d_shape : ex_derive i_shape = DOk (ex_env 3).
Proof. vm_compute. reflexivity. Qed.
Lemma d_untagged : ex_derive i_untagged = DOk (ex_env 4).
Proof. vm_compute. reflexivity. Qed.
Lemma d_internal : ex_derive i_internal = DOk (ex_env 5).
Proof. vm_compute. reflexivity. Qed.
Lemma d_adjacent : ex_derive i_adjacent = DOk (ex_env 6).
Proof. vm_compute. reflexivity. Qed.
Lemma d_newtype : ex_derive i_newtype = DOk (ex_env 7).
Proof. vm_compute. reflexivity. Qed.
Lemma d_tuple : ex_derive i_tuple = DOk (ex_env 8).
Proof. vm_compute. reflexivity. Qed.
Lemma d_secret : ex_derive i_secret = DOk (ex_env 9).
Proof. vm_compute. reflexivity. Qed.

(** what generation gives, with ample fuel, evaluated *)
Definition ex_schema (id : tid) : res (model * components) := get_schema ex_env 10 (TNamed id) cx_new.
Definition first_of (r : res (model * components)) : model := match r with Ok (m, _) => m | Fuel => Model None (OneOf []) end.
Definition second_of (r : res (model * components)) : components := match r with Ok (_, cx) => cx | Fuel => cx_new end.
Definition m_point : model := Eval vm_compute in first_of (ex_schema 0).
Definition cx_point : components := Eval vm_compute in second_of (ex_schema 0).
Definition m_color : model := Eval vm_compute in first_of (ex_schema 1).
Definition cx_color : components := Eval vm_compute in second_of (ex_schema 1).
Definition m_level : model := Eval vm_compute in first_of (ex_schema 2).
Definition cx_level : components := Eval vm_compute in second_of (ex_schema 2).
Definition m_shape : model := Eval vm_compute in first_of (ex_schema 3).
Definition cx_shape : components := Eval vm_compute in second_of (ex_schema 3).
Definition m_untagged : model := Eval vm_compute in first_of (ex_schema 4).
Definition cx_untagged : components := Eval vm_compute in second_of (ex_schema 4).
Definition m_internal : model := Eval vm_compute in first_of (ex_schema 5).
Definition cx_internal : components := Eval vm_compute in second_of (ex_schema 5).
Definition m_adjacent : model := Eval vm_compute in first_of (ex_schema 6).
Definition cx_adjacent : components := Eval vm_compute in second_of (ex_schema 6).
Definition m_newtype : model := Eval vm_compute in first_of (ex_schema 7).
Definition cx_newtype : components := Eval vm_compute in second_of (ex_schema 7).
Definition m_tuple : model := Eval vm_compute in first_of (ex_schema 8).
Definition cx_tuple : components := Eval vm_compute in second_of (ex_schema 8).
Definition m_secret : model := Eval vm_compute in first_of (ex_schema 9).
Definition cx_secret : components := Eval vm_compute in second_of (ex_schema 9).

Lemma r_point : schema_returns ex_env (TNamed 0) cx_new m_point cx_point.
Proof. exists 10. vm_compute. reflexivity. Qed.
Lemma r_color : schema_returns ex_env (TNamed 1) cx_new m_color cx_color.
Proof. exists 10. vm_compute. reflexivity. Qed.
Lemma r_level : schema_returns ex_env (TNamed 2) cx_new m_level cx_level.
Proof. exists 10. vm_compute. reflexivity. Qed.
Lemma r_shape : schema_returns ex_env (TNamed 3) cx_new m_shape cx_shape.
Proof. exists 10. vm_compute. reflexivity. Qed.
Lemma r_untagged : schema_returns ex_env (TNamed 4) cx_new m_untagged cx_untagged.
Proof. exists 10. vm_compute. reflexivity. Qed.
Lemma r_internal : schema_returns ex_env (TNamed 5) cx_new m_internal cx_internal.
Proof. exists 10. vm_compute. reflexivity. Qed.
Lemma r_adjacent : schema_returns ex_env (TNamed 6) cx_new m_adjacent cx_adjacent.
Proof. exists 10. vm_compute. reflexivity. Qed.
Lemma r_newtype : schema_returns ex_env (TNamed 7) cx_new m_newtype cx_newtype.
Proof. exists 10. vm_compute. reflexivity. Qed.
Lemma r_tuple : schema_returns ex_env (TNamed 8) cx_new m_tuple cx_tuple.
Proof. exists 10. vm_compute. reflexivity. Qed.
Lemma r_secret : schema_returns ex_env (TNamed 9) cx_new m_secret cx_secret.
Proof. exists 10. vm_compute. reflexivity. Qed.
