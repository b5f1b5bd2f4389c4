(** What the schemas of some types never accept, although serde writes it: C86. *)
From Verif Require Import Attr AttrSpec Ast Derive DeriveSpec Schema SchemaSpec Gen GenSpec DeriveExamples Conformance.
From Verif Require Import SoundSpec SoundExamples RejectSpec RejectFacts RejectExamples.
From Coq Require Import ZArith.
Local Open Scope string_scope. Local Open Scope list_scope.

(** * C86: The types whose values the schemas always reject

    C59 shows by examples that what serde writes for some types is not accepted.  These theorems say it of every type of
    those shapes: [rejects E t j] is about every schema of [t], made at any point, whatever the components hold. *)

(** a unit variant of an externally tagged enum that has other variants: no string is ever accepted *)
Theorem C86_external_unit_variants : forall pe pp uni disc D ev E id, derive pe pp uni ev (D id) = DOk (E id) ->
  forall vs w n v, di_data (D id) = DaEnum vs -> In w vs -> ~ unit_variant w ->
  enum_variant pe pp uni (D id) RepExternal n v -> unit_variant v ->
  emits pe pp uni disc D (TNamed id) (JStr n) /\ forall s, rejects E (TNamed id) (JStr s).
Proof. exact external_unit_rejected. Qed.
Print Assumptions C86_external_unit_variants.

(** an enum of unit variants with a tag: no object is ever accepted *)
Theorem C86_tagged_units : forall pe pp uni disc D ev E id, derive pe pp uni ev (D id) = DOk (E id) ->
  forall vs rep tag n v, di_data (D id) = DaEnum vs -> (forall w, In w vs -> unit_variant w) ->
  rep = RepInternal tag \/ (exists content, rep = RepAdjacent tag content) -> enum_variant pe pp uni (D id) rep n v ->
  emits pe pp uni disc D (TNamed id) (JObj [(tag, JStr n)]) /\ forall ms, rejects E (TNamed id) (JObj ms).
Proof. exact tagged_units_rejected. Qed.
Print Assumptions C86_tagged_units.

(** an enum written as an integer: its schema accepts exactly the integers if some serialised variant has its discriminant
    written out, and nothing at all otherwise *)
Theorem C86_integer_enums : forall pe pp uni D ev E id, derive pe pp uni ev (D id) = DOk (E id) ->
  forall vs l, di_data (D id) = DaEnum vs -> written_as_int pe pp (D id) vs -> enum_variants pe pp uni (D id) vs l ->
  forall cx m cx', schema_returns E (TNamed id) cx m cx' -> forall S j,
  valid_model S m j <-> (exists z, j = JInt z) /\ exists n v, In (n, v) l /\ vs_discriminant v <> None.
Proof. exact repr_exact. Qed.
Print Assumptions C86_integer_enums.

(** the schema of [Option<T>] accepts null exactly if that of [T] can be marked nullable, or accepts null itself *)
Theorem C86_optional : forall E t cx m0 cx' m cx2, schema_returns E t cx m0 cx' -> schema_returns E (TOption t) cx m cx2 ->
  forall S, valid_model S m JNull <-> nullable_of m0 <> None \/ valid_model S m0 JNull.
Proof. exact option_null. Qed.
Print Assumptions C86_optional.

(** ... so null is never accepted for an absent enum written as an integer, *)
Theorem C86_optional_integer_enum : forall pe pp uni D ev E id, derive pe pp uni ev (D id) = DOk (E id) ->
  forall vs, di_data (D id) = DaEnum vs -> written_as_int pe pp (D id) vs -> rejects E (TOption (TNamed id)) JNull.
Proof. intros pe pp uni D ev E id Hd vs Hvs Hw. exact (option_rejects E _ (repr_null pe pp uni D ev E id Hd vs Hvs Hw)). Qed.
Print Assumptions C86_optional_integer_enum.

(** ... nor for an absent internally tagged enum without newtype variants *)
Theorem C86_optional_internal_enum : forall pe pp uni D ev E id, derive pe pp uni ev (D id) = DOk (E id) ->
  forall vs w tag, di_data (D id) = DaEnum vs -> In w vs -> ~ unit_variant w ->
  represents pe pp (di_attrs (D id)) (RepInternal tag) ->
  (forall v, In v vs -> ~ variant_skipped pe pp v -> ~ newtype_variant v) -> rejects E (TOption (TNamed id)) JNull.
Proof.
  intros pe pp uni D ev E id Hd vs w tag Hvs Hw Hnu Hrep Hnt.
  exact (option_rejects E _ (internal_null pe pp uni D ev E id Hd vs w tag Hvs Hw Hnu Hrep Hnt)).
Qed.
Print Assumptions C86_optional_internal_enum.

(** a transparent struct with named fields: only what is an object (or null, if said to be nullable) can be accepted, *)
Theorem C86_transparent_struct : forall pe pp uni disc D ev E id, derive pe pp uni ev (D id) = DOk (E id) ->
  forall fs f j, di_data (D id) = DaStruct (FNamed fs) -> transparent_field pe pp (D id) f ->
  emits pe pp uni disc D (fs_ty f) j -> (forall ms, j <> JObj ms) ->
  (j = JNull -> ~ said pe pp (PContainer DkNamed) (di_attrs (D id)) SNullable) ->
  emits pe pp uni disc D (TNamed id) j /\ rejects E (TNamed id) j.
Proof. exact struct_transparent_rejected. Qed.
Print Assumptions C86_transparent_struct.

(** ... and of one with several unnamed fields, only what is an array *)
Theorem C86_transparent_tuple : forall pe pp uni disc D ev E id, derive pe pp uni ev (D id) = DOk (E id) ->
  forall fs f j, di_data (D id) = DaStruct (FUnnamed fs) -> length fs <> 1 -> transparent_field pe pp (D id) f ->
  emits pe pp uni disc D (fs_ty f) j -> (forall l, j <> JArr l) ->
  (j = JNull -> ~ said pe pp (PContainer DkOther) (di_attrs (D id)) SNullable) ->
  emits pe pp uni disc D (TNamed id) j /\ rejects E (TNamed id) j.
Proof. exact tuple_transparent_rejected. Qed.
Print Assumptions C86_transparent_tuple.

(** an object without a member named like a field that is not optional, be it flattened or not *)
Theorem C86_flattened : forall pe pp uni D ev E id, derive pe pp uni ev (D id) = DOk (E id) ->
  forall fs rule l n f ms, di_data (D id) = DaStruct (FNamed fs) ->
  has_rule pe pp (PContainer DkNamed) (di_attrs (D id)) rule -> serialised_fields pe pp rule 0 fs l ->
  In (n, f) l -> ~ field_optional pe pp f -> ~ In n (keys ms) -> rejects E (TNamed id) (JObj ms).
Proof. exact flattened_rejected. Qed.
Print Assumptions C86_flattened.

(** a variant with named fields of an adjacently tagged enum without newtype variants *)
Theorem C86_adjacent_struct_variants : forall pe pp uni D ev E id, derive pe pp uni ev (D id) = DOk (E id) ->
  forall vs w tag content n v fs, di_data (D id) = DaEnum vs -> In w vs -> ~ unit_variant w -> tag <> content ->
  enum_variant pe pp uni (D id) (RepAdjacent tag content) n v -> vs_fields v = FNamed fs ->
  (forall v', In v' vs -> ~ variant_skipped pe pp v' -> ~ newtype_variant v') ->
  forall t ms, rejects E (TNamed id) (JObj [(tag, t); (content, JObj ms)]).
Proof. exact adjacent_struct_rejected. Qed.
Print Assumptions C86_adjacent_struct_variants.

(** a newtype struct with a type flag accepts exactly the JSON values of that kind, and null if said to be nullable *)
Theorem C86_flagged_newtype : forall pe pp uni D ev E id, derive pe pp uni ev (D id) = DOk (E id) ->
  forall f t, di_data (D id) = DaStruct (FUnnamed [f]) -> said pe pp (PContainer DkOther) (di_attrs (D id)) (SType t) ->
  forall cx m cx', schema_returns E (TNamed id) cx m cx' -> forall S j,
  valid_model S m j <-> of_kind t j \/ (j = JNull /\ said pe pp (PContainer DkOther) (di_attrs (D id)) SNullable).
Proof. exact newtype_flag_exact. Qed.
Print Assumptions C86_flagged_newtype.

(** an object whose member for a field with a type flag is of another kind *)
Theorem C86_flagged_field : forall pe pp uni D ev E id, derive pe pp uni ev (D id) = DOk (E id) ->
  forall fs l r n f t, di_data (D id) = DaStruct (FNamed fs) ->
  has_rule pe pp (PContainer DkNamed) (di_attrs (D id)) r -> serialised_fields pe pp r 0 fs l -> NoDup (map fst l) ->
  In (n, f) l -> said pe pp PField (fs_attrs f) (SType t) ->
  forall ms x, In (n, x) ms -> ~ of_kind t x -> (x = JNull -> ~ said pe pp PField (fs_attrs f) SNullable) ->
  rejects E (TNamed id) (JObj ms).
Proof. exact field_flag_exact. Qed.
Print Assumptions C86_flagged_field.

(** a one-element tuple of a built-in type *)
Theorem C86_one_element_tuples : forall E p l, rejects E (TWrap WTuple1 (TPrim p)) (JArr l).
Proof. exact tuple1_rejected. Qed.
Print Assumptions C86_one_element_tuples.

(** Twelve types, one for each theorem: all derive, all have schemas, and these values of them are written and rejected. *)
Example C86_case :
  (forall id, derive yes yes noupper DeriveExamples.same (sources rj_all id) = DOk (rj_env id)) /\
  Forall (fun tj => emits yes yes noupper zero (sources rj_all) (fst tj) (snd tj) /\ rejects rj_env (fst tj) (snd tj))
    [(TNamed 0, JStr (u "Empty")); (TNamed 2, JObj [(u "kind", JStr (u "Stop"))]); (TNamed 3, JInt 1);
     (TOption (TNamed 4), JNull); (TOption (TNamed 8), JNull); (TNamed 5, JInt 5); (TNamed 9, JInt 5);
     (TNamed 7, circle_json); (TNamed 10, JInt 5); (TNamed 11, JObj [(u "cost", JInt 5)]); (TNamed 6, flat_json);
     (TWrap WTuple1 i32, JArr [JInt 5])] /\
  forall id, id < 12 -> exists m cx, schema_returns rj_env (TNamed id) cx_new m cx.
Proof. exact rj_case. Qed.
