(** Properties C10-C22, C54, C55: what the derive accepts and the schemas of derived types. *)
From Verif Require Import Attr AttrSpec Ast Derive DeriveSpec DeriveFacts2 DeriveFacts3 DeriveFacts4 DeriveFacts5 DeriveFacts6
  DeriveExamples Schema SchemaSpec Gen GenSpec PanicSpec PanicFacts.

(** ** C10: panics *)
Theorem C10_never_panics_refuted : forall pe pp uni ev, exists i, derive pe pp uni ev i = DPanic.
Proof. intros. exists i_untagged_unit. reflexivity. Qed.
Print Assumptions C10_never_panics_refuted.

(** exactly when code is generated *)
Theorem C10_accepted_exactly : forall pe pp uni ev i,
  (exists td, derive pe pp uni ev i = DOk td) <->
  attributes_acceptable pe pp i /\ ~ unsupported pe pp i /\ ~ unnameable pe pp i /\ ~ undescribed pe pp i.
Proof. exact derive_ok_iff. Qed.
Print Assumptions C10_accepted_exactly.

(** exactly when the derive panics *)
Theorem C10_panics_exactly : forall pe pp uni ev i, derive pe pp uni ev i = DPanic <->
  misnamed pe pp i \/ attributes_acceptable pe pp i /\ ~ unsupported pe pp i /\ undescribed pe pp i.
Proof. exact derive_panics_iff. Qed.
Print Assumptions C10_panics_exactly.

(** exactly when it reports errors *)
Theorem C10_errors_exactly : forall pe pp uni ev i, (exists es, derive pe pp uni ev i = DErr es) <->
  ~ misnamed pe pp i /\ (~ attributes_acceptable pe pp i \/ unsupported pe pp i).
Proof. exact derive_errors_iff. Qed.
Print Assumptions C10_errors_exactly.

Example C10_case_errors : forall pe pp uni ev,
  (~ attributes_acceptable pe pp (i_gap "camelCase" "snake_case") /\ misnamed pe pp (i_gap "camelCase" "snake_case") /\
   derive pe pp uni ev (i_gap "camelCase" "snake_case") = DPanic) /\
  exists es, derive pe pp uni ev (i_gap "snake_case" "camelCase") = DErr es /\ length es = 2.
Proof. exact gap_outcomes. Qed.

(** on inputs without errors the first value is the only one *)
Theorem C10_panics_exactly_partial : forall pe pp uni ev i, attributes_acceptable pe pp i -> ~ unsupported pe pp i ->
  (derive pe pp uni ev i = DPanic <-> unnameable pe pp i \/ undescribed pe pp i).
Proof. exact derive_panics. Qed.
Print Assumptions C10_panics_exactly_partial.

(** with ordinary identifiers, the derive never panics except for the undescribed combinations *)
Theorem C10_no_panic_partial : forall pe pp uni ev i,
  derive pe pp uni ev i = DPanic ->
  odd_name i \/ attributes_acceptable pe pp i /\ ~ unsupported pe pp i /\ undescribed pe pp i.
Proof. exact derive_panic_odd. Qed.
Print Assumptions C10_no_panic_partial.

(** errors have a reason *)
Theorem C10_errors_have_a_reason : forall pe pp uni ev i es,
  derive pe pp uni ev i = DErr es -> es <> [] /\ (~ attributes_acceptable pe pp i \/ unsupported pe pp i).
Proof. exact derive_DErr. Qed.
Print Assumptions C10_errors_have_a_reason.

Example C10_case : (forall pe pp uni ev i,
    In i [i_untagged_unit; i_adjacent_unit; i_internal_tuple; i_newtype_any; i_camel] -> derive pe pp uni ev i = DPanic) /\
  (attributes_acceptable yes yes i_untagged_unit /\ ~ unsupported yes yes i_untagged_unit /\
   undescribed yes yes i_untagged_unit) /\
  attributes_acceptable yes yes i_internal /\ ~ unsupported yes yes i_internal /\
  ~ unnameable yes yes i_internal /\ ~ undescribed yes yes i_internal.
Proof.
  split; [exact panics|]. split; [exact i_untagged_unit_undescribed|].
  apply (C10_accepted_exactly yes yes noupper same). eexists. reflexivity.
Qed.

(** ** C11: unsupported shapes *)
Theorem C11_always_reported_refuted : forall pe pp uni ev, exists i, unsupported pe pp i /\ derive pe pp uni ev i = DPanic.
Proof. intros. exists i_odd_untagged. apply odd_untagged. Qed.
Print Assumptions C11_always_reported_refuted.

Theorem C11_unsupported_rejected : forall pe pp uni ev i, unsupported pe pp i ->
  (forall td, derive pe pp uni ev i <> DOk td) /\
  (~ odd_name i -> exists es, derive pe pp uni ev i = DErr es /\ es <> []).
Proof. exact unsupported_rejected. Qed.
Print Assumptions C11_unsupported_rejected.

(** reported exactly when no member is to be renamed in a way it cannot be *)
Theorem C11_reported_exactly : forall pe pp uni ev i, unsupported pe pp i ->
  ((exists es, derive pe pp uni ev i = DErr es /\ es <> []) <-> ~ misnamed pe pp i).
Proof. exact unsupported_reported. Qed.
Print Assumptions C11_reported_exactly.

(** three of the four, whatever the names *)
Theorem C11_shape_errors : forall pe pp uni ev i,
  di_data i = DaUnion \/ di_data i = DaStruct FUnit \/ (exists vs, di_data i = DaEnum vs /\ mixed_discriminants vs) ->
  exists es, derive pe pp uni ev i = DErr es /\ es <> [].
Proof. exact derive_shape_errors. Qed.
Print Assumptions C11_shape_errors.

Definition i_mixed : derive_input ty := item [repr_attr] "E" (DaEnum [vrt_disc "A" "1"; vrt [] "B" FUnit]).
Example C11_case : mixed_discriminants [vrt_disc "A" "1"; vrt [] "B" FUnit] /\ (exists es, ex_derive i_mixed = DErr es /\ es <> []).
Proof.
  split.
  - exists (vrt_disc "A" "1"), (vrt [] "B" FUnit). eexists. cbn. intuition reflexivity.
  - apply C11_shape_errors. right. right. eexists. split; [reflexivity|].
    exists (vrt_disc "A" "1"), (vrt [] "B" FUnit). eexists. cbn. intuition reflexivity.
Qed.

(** ** C12: enum representations *)
Theorem C12_representation_selected : forall pe pp l, acceptable pe pp (PContainer DkEnum) l ->
  (exists rep, represents pe pp l rep) /\
  (forall r1 r2, represents pe pp l r1 -> represents pe pp l r2 -> r1 = r2).
Proof. intros pe pp l H. split; [exact (represents_total pe pp l H)|intros r1 r2; exact (represents_unique pe pp l r1 r2 H)]. Qed.
Print Assumptions C12_representation_selected.

Theorem C12_representation_shape : forall pe pp uni ev E id i cx m cx',
  derive pe pp uni ev i = DOk (E id) -> schema_returns E (TNamed id) cx m cx' ->
  forall vs, di_data i = DaEnum vs ->
  exists rep, represents pe pp (di_attrs i) rep /\
    ((forall v, In v vs -> unit_variant v) -> ~ said pe pp (PContainer DkEnum) (di_attrs i) SRepr ->
       kind_of m = KString /\ rep <> RepUntagged) /\
    ((forall v, In v vs -> unit_variant v) -> said pe pp (PContainer DkEnum) (di_attrs i) SRepr ->
       kind_of m = KOneOf /\ rep <> RepUntagged) /\
    (forall w, In w vs -> ~ unit_variant w ->
       match rep with
       | RepExternal => exists o m1, object_of m = Some o /\ mo_properties o = [] /\ mo_additional o = Some (Inline m1) /\
                          kind_of m1 = KOneOf
       | RepUntagged | RepInternal _ => kind_of m = KOneOf
       | RepAdjacent tag content => exists o, object_of m = Some o /\ mo_additional o = None /\
           forall k, bm_get k (mo_properties o) <> None <-> k = tag \/ k = content
       end).
Proof. exact enum_shape. Qed.
Print Assumptions C12_representation_shape.

Example C12_case : represents yes yes (di_attrs i_adjacent) (RepAdjacent (u "t") (u "c")) /\
  represents yes yes (di_attrs i_internal) (RepInternal (u "kind")) /\
  represents yes yes (di_attrs i_untagged) RepUntagged /\ represents yes yes (di_attrs i_shape) RepExternal /\
  (exists w, In w message_variants /\ ~ unit_variant w) /\
  map kind_of ([m_color; m_level; m_shape; m_untagged; m_internal; m_adjacent]) = [KString; KOneOf; KObject; KOneOf; KOneOf; KObject].
Proof.
  split; [apply rep_adjacent; try intros ?; decide_said|]. split; [apply rep_internal; try intros ?; decide_said|].
  split; [apply rep_untagged; try intros ?; decide_said|]. split; [apply rep_external; try intros ?; decide_said|].
  split; [|reflexivity]. eexists. split; [now left|discriminate].
Qed.

(** ** C13: structs *)
Theorem C13_struct_members : forall pe pp uni ev E id i cx m cx',
  derive pe pp uni ev i = DOk (E id) -> schema_returns E (TNamed id) cx m cx' ->
  forall fs, di_data i = DaStruct (FNamed fs) ->
  exists r l rs o, has_rule pe pp (PContainer DkNamed) (di_attrs i) r /\ serialised_fields pe pp r 0 fs l /\
    field_refs pe pp ev E false (map snd l) cx rs cx' /\
    object_of m = Some o /\ (forall n, bm_get n (mo_properties o) <> None <-> In n (map fst l)) /\
    required_names pe pp l (mo_required o) /\ mo_additional o = None /\
    (NoDup (map fst l) -> forall j n f ref, nth_error l j = Some (n, f) -> nth_error rs j = Some ref ->
       bm_get n (mo_properties o) = Some ref).
Proof. exact struct_members. Qed.
Print Assumptions C13_struct_members.

Example C13_case : ex_derive i_point = DOk (ex_env 0) /\
  schema_returns ex_env (TNamed 0) cx_new m_point cx_point /\
  (forall fs, di_data i_point = DaStruct (FNamed fs) -> exists l, serialised_fields yes yes RCamelCase 0 fs l /\
     map fst l = [u "firstX"; u "Y"] /\ required_names yes yes l [u "Y"]) /\
  (exists o, object_of m_point = Some o /\ mo_required o = [u "Y"]).
Proof.
  split; [exact d_point|]. split; [exact r_point|]. split; [|eexists; split; reflexivity].
  intros fs [= <-]. eexists. split; [|split].
  - apply sf_keep; [unfold field_skipped; decide_said|apply fn_rule; [intros s; decide_said|reflexivity]|].
    apply sf_skip; [unfold field_skipped; decide_said|].
    apply sf_keep; [unfold field_skipped; decide_said|apply fn_explicit; decide_said|]. constructor.
  - reflexivity.
  - apply rn_optional; [unfold field_optional; decide_said|]. apply rn_required; [unfold field_optional; decide_said|]. constructor.
Qed.

(** ** C14: skipped members *)

(** a skipped tuple field is described all the same, and its type is registered *)
Theorem C14_skipped_never_described_refuted : exists i E id fs f t m cx',
  ex_derive i = DOk (E id) /\ di_data i = DaStruct (FUnnamed fs) /\ In f fs /\ field_skipped yes yes f /\ fs_ty f = TNamed t /\
  schema_returns E (TNamed id) cx_new m cx' /\ occurs_in (td_ident (E t)) m /\ registered cx' (td_ident (E t)).
Proof.
  exists i_tuple, ex_env, 8. eexists _, _, _, m_tuple, cx_tuple.
  split; [exact d_tuple|]. split; [reflexivity|]. split; [right; now left|].
  split; [unfold field_skipped; decide_said|]. split; [reflexivity|]. split; [exact r_tuple|].
  split; [|discriminate].
  vm_compute. eexists. split; [apply ch_items|]. eapply occ_inline; [eapply ch_oneof; right; now left|constructor].
Qed.
Print Assumptions C14_skipped_never_described_refuted.

(** a skipped variant with a payload changes the shape of the enum *)
Theorem C14_skipped_variant_refuted : forall pe pp uni ev, exists l n v vs td1 td2,
  variant_skipped pe pp v /\
  derive pe pp uni ev (Build_derive_input l n (DaEnum (vs ++ [v]))) = DOk td1 /\
  derive pe pp uni ev (Build_derive_input l n (DaEnum vs)) = DOk td2 /\ td1 <> td2.
Proof.
  intros. exists [], (u "E"), (vrt [serde_attr [word_item "skip"]] "B" (FUnnamed [pos_fld [] i32])), [vrt [] "A" FUnit].
  eexists _, _. split; [unfold variant_skipped; decide_said|]. split; [reflexivity|]. split; [reflexivity|]. discriminate.
Qed.
Print Assumptions C14_skipped_variant_refuted.

(** Everywhere else skipped members leave no trace: removing skipped named fields and skipped variants gives
    the same generated code, unless the fields are those of an adjacently tagged variant, or all variants that
    are left are unit and not all were. *)
Theorem C14_skipped_leave_no_trace_partial : forall pe pp uni ev i1 i2 td,
  inputs_differ pe pp True False i1 i2 -> derive pe pp uni ev i1 = DOk td -> derive pe pp uni ev i2 = DOk td.
Proof. intros pe pp uni ev. exact (differ_derive pe pp uni ev True False). Qed.
Print Assumptions C14_skipped_leave_no_trace_partial.

Definition i_point_less : derive_input ty :=
  item [serde_attr [str_value "rename_all" "camelCase"]; opg_attr [described "A point"]] "Point"
    (DaStruct (FNamed
      [fld [opg_attr [word_item "optional"]] "first_x" i32;
       fld [serde_attr [str_value "rename" "Y"]; opg_attr [word_item "integer"; str_value "format" "int64"]] "y" text])).
Example C14_case : inputs_differ yes yes True False i_point i_point_less.
Proof.
  apply id_struct. apply pd_named; [repeat constructor; discriminate|]. apply fd_keep. apply fd_drop; auto.
  - unfold field_skipped. decide_said.
  - apply fd_keep. constructor.
Qed.

(** ** C15: unit enums *)
Theorem C15_unit_enum : forall pe pp uni ev E id i cx m cx',
  derive pe pp uni ev i = DOk (E id) -> schema_returns E (TNamed id) cx m cx' ->
  forall vs, di_data i = DaEnum vs -> (forall v, In v vs -> unit_variant v) ->
  ~ said pe pp (PContainer DkEnum) (di_attrs i) SRepr ->
  exists l, enum_variants pe pp uni i vs l /\ names_schema (map fst l) m /\
    takes pe pp (PContainer DkEnum) (di_attrs i) SDescription (m_description m) /\ cx' = cx.
Proof. exact unit_enum_described. Qed.
Print Assumptions C15_unit_enum.

Example C15_case : ex_derive i_color = DOk (ex_env 1) /\
  schema_returns ex_env (TNamed 1) cx_new m_color cx_color /\
  (forall vs, di_data i_color = DaEnum vs -> (forall v, In v vs -> unit_variant v) /\
     exists l, enum_variants yes yes noupper i_color vs l /\ map fst l = [u "red"; u "dark-blue"]) /\
  ~ said yes yes (PContainer DkEnum) (di_attrs i_color) SRepr /\
  names_schema [u "red"; u "dark-blue"] m_color.
Proof.
  split; [exact d_color|]. split; [exact r_color|]. split; [|split; [decide_said|repeat split]].
  intros vs [= <-]. split.
  - intros v H. repeat (destruct H as [<-|H]; [reflexivity|]). destruct H.
  - eexists. split.
    + exists RKebabCase. split; [left; decide_said|].
      do 2 (apply sv_keep; [unfold variant_skipped; decide_said|apply vn_rule; [intros s; decide_said|reflexivity]|]).
      apply sv_skip; [unfold variant_skipped; decide_said|constructor].
    + reflexivity.
Qed.

(** ** C16: repr enums *)
Theorem C16_repr_enum : forall pe pp uni ev E id i cx m cx',
  derive pe pp uni ev i = DOk (E id) -> schema_returns E (TNamed id) cx m cx' ->
  forall vs, di_data i = DaEnum vs -> (forall v, In v vs -> unit_variant v) ->
  said pe pp (PContainer DkEnum) (di_attrs i) SRepr ->
  exists l, enum_variants pe pp uni i vs l /\ kind_of m = KOneOf /\
    (exists rs, alternatives_of m = Some rs /\ repr_alternatives l rs) /\
    takes pe pp (PContainer DkEnum) (di_attrs i) SDescription (m_description m) /\ cx' = cx.
Proof. exact repr_enum_described. Qed.
Print Assumptions C16_repr_enum.

Example C16_case : ex_derive i_level = DOk (ex_env 2) /\
  schema_returns ex_env (TNamed 2) cx_new m_level cx_level /\
  said yes yes (PContainer DkEnum) (di_attrs i_level) SRepr /\
  exists m1 m2, alternatives_of m_level = Some [Inline m1; Inline m2] /\ kind_of m1 = KInteger /\
    example_of m1 = Some (u "1") /\ example_of m2 = Some (u "20") /\ m_description m2 = Some (u "High variant").
Proof.
  split; [exact d_level|]. split; [exact r_level|]. split; [decide_said|].
  eexists _, _. repeat split.
Qed.

(** ** C17: internally tagged enums *)

(** a payload that is not an object: the tag is dropped *)
Theorem C17_always_tagged_refuted : exists i E id vs tag m cx' rs ref,
  ex_derive i = DOk (E id) /\ schema_returns E (TNamed id) cx_new m cx' /\ di_data i = DaEnum vs /\
  represents yes yes (di_attrs i) (RepInternal tag) /\ (forall v, In v vs -> ~ variant_skipped yes yes v) /\
  alternatives_of m = Some rs /\ In ref rs /\ forall n, ~ carries_tag tag n ref.
Proof.
  exists i_internal, ex_env, 5. eexists _, _, m_internal, cx_internal, _, _.
  split; [exact d_internal|]. split; [exact r_internal|]. split; [reflexivity|].
  split; [apply rep_internal; try intros ?; decide_said|].
  split; [intros v H; repeat (destruct H as [<-|H]; [unfold variant_skipped; decide_said|]); destruct H|].
  split; [reflexivity|]. split; [do 3 right; now left|]. intros n (am & o & t & [= <-] & H & _). discriminate.
Qed.
Print Assumptions C17_always_tagged_refuted.

(** a field with the tag's name: the tag is dropped *)
Theorem C17_tag_clash_refuted : exists i E id vs tag m cx' rs ref,
  ex_derive i = DOk (E id) /\ schema_returns E (TNamed id) cx_new m cx' /\ di_data i = DaEnum vs /\
  represents yes yes (di_attrs i) (RepInternal tag) /\ (forall v, In v vs -> ~ variant_skipped yes yes v) /\
  (forall v, In v vs -> exists fs, vs_fields v = FNamed fs) /\
  alternatives_of m = Some rs /\ In ref rs /\ forall n, ~ carries_tag tag n ref.
Proof.
  exists i_tag_clash, (fun _ => td_tag_clash), 0. eexists _, _, m_tag_clash, cx_new, _, _.
  split; [exact d_tag_clash|]. split; [exact r_tag_clash|]. split; [reflexivity|].
  split; [apply rep_internal; try intros ?; decide_said|].
  split; [intros v [<-|[]]; unfold variant_skipped; decide_said|]. split; [intros v [<-|[]]; eexists; reflexivity|].
  split; [reflexivity|]. split; [now left|]. intros n (am & o & t & [= <-] & [= <-] & Ht & Hn & _).
  vm_compute in Ht. injection Ht as <-. destruct Hn as [Hn _]. discriminate.
Qed.
Print Assumptions C17_tag_clash_refuted.

(** exactly what each alternative is: the payload's schema with the tag added, or the payload's schema itself *)
Theorem C17_internal_enum : forall pe pp uni ev E id i cx m cx',
  derive pe pp uni ev i = DOk (E id) -> schema_returns E (TNamed id) cx m cx' ->
  forall vs, di_data i = DaEnum vs ->
  forall w tag, In w vs -> ~ unit_variant w -> represents pe pp (di_attrs i) (RepInternal tag) ->
  exists l rs, enum_variants pe pp uni i vs l /\ in_order (internal_alternative pe pp ev E tag) l cx rs cx' /\
    kind_of m = KOneOf /\ alternatives_of m = Some rs /\
    takes pe pp (PContainer DkEnum) (di_attrs i) SDescription (m_description m).
Proof. exact internal_enum_described. Qed.
Print Assumptions C17_internal_enum.

(** unit variants always carry the tag, struct variants unless one of their fields has the tag's name *)
Theorem C17_tagged_partial : forall pe pp uni ev E id i cx m cx',
  derive pe pp uni ev i = DOk (E id) -> schema_returns E (TNamed id) cx m cx' ->
  forall vs, di_data i = DaEnum vs ->
  forall w tag, In w vs -> ~ unit_variant w -> represents pe pp (di_attrs i) (RepInternal tag) ->
  exists l rs, enum_variants pe pp uni i vs l /\ alternatives_of m = Some rs /\
    Forall2 (fun nv ref =>
      (unit_variant (snd nv) -> carries_tag tag (fst nv) ref) /\
      (forall fs r, vs_fields (snd nv) = FNamed fs -> has_rule pe pp PVariant (vs_attrs (snd nv)) r ->
         ~ named_by pe pp r fs tag -> carries_tag tag (fst nv) ref)) l rs.
Proof. exact internal_tagged. Qed.
Print Assumptions C17_tagged_partial.

Example C17_case : exists rs, alternatives_of m_internal = Some rs /\
  (exists r0 r1 r2 r3, rs = [r0; r1; r2; r3] /\ carries_tag (u "kind") (u "Stop") r0 /\ carries_tag (u "kind") (u "Move") r1 /\
     carries_tag (u "kind") (u "Jump") r2).
Proof.
  eexists. split; [reflexivity|]. eexists _, _, _, _. split; [reflexivity|].
  split; [|split]; (eexists _, _, _; split; [reflexivity|]; split; [reflexivity|]; split; [reflexivity|]; split;
    [repeat split|vm_compute; tauto]).
Qed.

(** ** C18: adjacently tagged enums *)
Theorem C18_adjacent_enum : forall pe pp uni ev E id i cx m cx',
  derive pe pp uni ev i = DOk (E id) -> schema_returns E (TNamed id) cx m cx' ->
  forall vs, di_data i = DaEnum vs ->
  forall w tag content, In w vs -> ~ unit_variant w -> represents pe pp (di_attrs i) (RepAdjacent tag content) ->
  exists l rs o m1 m2, enum_variants pe pp uni i vs l /\
    in_order (alternative_of pe pp ev E (RepAdjacent tag content)) l cx rs cx' /\
    object_of m = Some o /\ mo_required o = [tag; content] /\ mo_additional o = None /\
    (forall k, bm_get k (mo_properties o) = last_value k [(tag, Inline m1); (content, Inline m2)]) /\
    names_schema (map fst l) m1 /\ m_description m1 = Some (di_ident i ++ u " type variant") /\
    kind_of m2 = KOneOf /\ alternatives_of m2 = Some rs /\
    takes pe pp (PContainer DkEnum) (di_attrs i) SDescription (m_description m2) /\
    takes pe pp (PContainer DkEnum) (di_attrs i) SDescription (m_description m) /\
    (exists b, nullable_of m = Some b /\ flag_takes pe pp (PContainer DkEnum) (di_attrs i) SNullable b).
Proof. exact adjacent_enum_described. Qed.
Print Assumptions C18_adjacent_enum.

Example C18_case : ex_derive i_adjacent = DOk (ex_env 6) /\
  schema_returns ex_env (TNamed 6) cx_new m_adjacent cx_adjacent /\
  represents yes yes (di_attrs i_adjacent) (RepAdjacent (u "t") (u "c")) /\
  exists o m1, object_of m_adjacent = Some o /\ map fst (mo_properties o) = [u "c"; u "t"] /\
    bm_get (u "t") (mo_properties o) = Some (Inline m1) /\ enum_of m1 = Some [u "Num"; u "Two"; u "Rec"].
Proof.
  split; [exact d_adjacent|]. split; [exact r_adjacent|].
  split; [apply rep_adjacent; try intros ?; decide_said|]. eexists _, _. repeat split.
Qed.

(** ** C19: struct variants *)
Theorem C19_struct_variant_is_object_refuted : exists i E id vs v k m cx' o m2 rs ref,
  ex_derive i = DOk (E id) /\ schema_returns E (TNamed id) cx_new m cx' /\ di_data i = DaEnum vs /\
  nth_error vs k = Some v /\ (exists fs, vs_fields v = FNamed fs) /\ (forall v, In v vs -> ~ variant_skipped yes yes v) /\
  represents yes yes (di_attrs i) (RepAdjacent (u "t") (u "c")) /\
  object_of m = Some o /\ bm_get (u "c") (mo_properties o) = Some (Inline m2) /\ alternatives_of m2 = Some rs /\
  nth_error rs k = Some (Inline ref) /\ kind_of ref = KArray_.
Proof.
  exists i_adjacent, ex_env, 6. eexists _, _, 2, m_adjacent, cx_adjacent, _, _, _, _.
  split; [exact d_adjacent|]. split; [exact r_adjacent|]. split; [reflexivity|]. split; [reflexivity|].
  split; [eexists; reflexivity|].
  split; [intros v H; repeat (destruct H as [<-|H]; [unfold variant_skipped; decide_said|]); destruct H|].
  split; [apply rep_adjacent; try intros ?; decide_said|]. repeat split.
Qed.
Print Assumptions C19_struct_variant_is_object_refuted.

Theorem C19_struct_variants_partial : forall pe pp uni ev E id i cx m cx',
  derive pe pp uni ev i = DOk (E id) -> schema_returns E (TNamed id) cx m cx' ->
  forall vs, di_data i = DaEnum vs -> forall w, In w vs -> ~ unit_variant w ->
  (represents pe pp (di_attrs i) RepExternal ->
     exists l rs o m1, enum_variants pe pp uni i vs l /\ object_of m = Some o /\ mo_additional o = Some (Inline m1) /\
       alternatives_of m1 = Some rs /\ Forall2 (fun nv => struct_alternative pe pp nv (fun _ => False)) l rs) /\
  (represents pe pp (di_attrs i) RepUntagged ->
     exists l rs, enum_variants pe pp uni i vs l /\
       alternatives_of m = Some rs /\ Forall2 (fun nv => struct_alternative pe pp nv (fun _ => False)) l rs) /\
  (forall tag, represents pe pp (di_attrs i) (RepInternal tag) ->
     exists l rs, enum_variants pe pp uni i vs l /\
       alternatives_of m = Some rs /\ Forall2 (fun nv => struct_alternative pe pp nv (fun n => n = tag)) l rs).
Proof.
  intros pe pp uni ev E id i cx m cx' Hd Hret vs Hvs w Hw Hnu. split; [|split].
  - exact (external_structs _ _ _ _ _ _ _ _ _ _ Hd Hret _ Hvs w Hw Hnu).
  - exact (untagged_structs _ _ _ _ _ _ _ _ _ _ Hd Hret _ Hvs).
  - intros tag. exact (internal_structs _ _ _ _ _ _ _ _ _ _ Hd Hret _ Hvs w tag Hw Hnu).
Qed.
Print Assumptions C19_struct_variants_partial.

Example C19_case : exists o m1 rs m3 o3, object_of m_shape = Some o /\ mo_additional o = Some (Inline m1) /\
  alternatives_of m1 = Some rs /\ nth_error rs 3 = Some (Inline m3) /\ object_of m3 = Some o3 /\
  map fst (mo_properties o3) = [u "INNER"] /\ ex_derive i_shape = DOk (ex_env 3) /\
  schema_returns ex_env (TNamed 3) cx_new m_shape cx_shape.
Proof. eexists _, _, _, _, _. repeat split. exact r_shape. Qed.

(** ** C20: externally tagged and untagged enums *)
Theorem C20_external_enum : forall pe pp uni ev E id i cx m cx',
  derive pe pp uni ev i = DOk (E id) -> schema_returns E (TNamed id) cx m cx' ->
  forall vs, di_data i = DaEnum vs -> forall w, In w vs -> ~ unit_variant w -> represents pe pp (di_attrs i) RepExternal ->
  exists l rs o m1, enum_variants pe pp uni i vs l /\
    in_order (alternative_of pe pp ev E RepExternal) l cx rs cx' /\
    object_of m = Some o /\ mo_properties o = [] /\ mo_required o = [] /\ mo_additional o = Some (Inline m1) /\
    kind_of m1 = KOneOf /\ alternatives_of m1 = Some rs /\
    takes pe pp (PContainer DkEnum) (di_attrs i) SDescription (m_description m1) /\
    takes pe pp (PContainer DkEnum) (di_attrs i) SDescription (m_description m) /\
    (exists b, nullable_of m = Some b /\ flag_takes pe pp (PContainer DkEnum) (di_attrs i) SNullable b).
Proof. exact external_enum_described. Qed.
Print Assumptions C20_external_enum.

Theorem C20_untagged_enum : forall pe pp uni ev E id i cx m cx',
  derive pe pp uni ev i = DOk (E id) -> schema_returns E (TNamed id) cx m cx' ->
  forall vs, di_data i = DaEnum vs -> represents pe pp (di_attrs i) RepUntagged ->
  exists l rs, enum_variants pe pp uni i vs l /\
    in_order (alternative_of pe pp ev E RepUntagged) l cx rs cx' /\
    kind_of m = KOneOf /\ alternatives_of m = Some rs /\
    takes pe pp (PContainer DkEnum) (di_attrs i) SDescription (m_description m).
Proof. exact untagged_enum_described. Qed.
Print Assumptions C20_untagged_enum.

Lemma nothing_said pos : params_said yes yes same pos [] (Build_params None None None None None).
Proof.
  assert (H : forall x, ~ said yes yes pos [] x).
  { intros x (its & f & n & Hw & Hin & _). inversion Hw; subst. destruct Hin. }
  unfold params_said, takes, example_is; cbn. intuition (try discriminate).
  - now apply H in H0.
  - now apply H in H0.
  - now apply H in H0.
  - now apply H in H1.
  - destruct H1 as (c & Hc & _). now apply H in Hc.
Qed.
Example C20_case : ex_derive i_untagged = DOk (ex_env 4) /\
  schema_returns ex_env (TNamed 4) cx_new m_untagged cx_untagged /\
  exists r1 r2, alternatives_of m_untagged = Some [r1; r2] /\
    alternative_of yes yes same ex_env RepUntagged (u "Left", hd (vrt [] "" FUnit) either_variants) cx_new r1 cx_new.
Proof.
  split; [exact d_untagged|]. split; [exact r_untagged|]. eexists _, _. split; [reflexivity|].
  eapply alt_newtype; [intros t; discriminate|reflexivity|]. exists false.
  exists (Build_params None None None None None), (Build_params None None None None None).
  split; [unfold flag_takes; decide_said|].
  split; [apply nothing_said|]. split; [apply nothing_said|].
  apply fr_type; [intros t; decide_said|]. exists 10. reflexivity.
Qed.

(** ** C21: newtype structs *)

(** the container's [nullable] is dropped *)
Theorem C21_container_nullable_refuted : exists i E id f m cx',
  ex_derive i = DOk (E id) /\ schema_returns E (TNamed id) cx_new m cx' /\ di_data i = DaStruct (FUnnamed [f]) /\
  said yes yes (PContainer DkOther) (di_attrs i) SNullable /\ ~ said yes yes PField (fs_attrs f) SNullable /\
  nullable_of m = Some false.
Proof.
  exists i_newtype, ex_env, 7. eexists _, m_newtype, cx_newtype.
  split; [exact d_newtype|]. split; [exact r_newtype|]. split; [reflexivity|].
  split; [decide_said|]. split; [decide_said|reflexivity].
Qed.
Print Assumptions C21_container_nullable_refuted.

Theorem C21_newtype_struct : forall pe pp uni ev E id i cx m cx',
  derive pe pp uni ev i = DOk (E id) -> schema_returns E (TNamed id) cx m cx' ->
  forall f, di_data i = DaStruct (FUnnamed [f]) ->
  exists p q, params_said pe pp ev PField (fs_attrs f) p /\
    params_said pe pp ev (PContainer DkOther) (di_attrs i) q /\
    ((exists t b, said pe pp (PContainer DkOther) (di_attrs i) (SType t) /\
        flag_takes pe pp (PContainer DkOther) (di_attrs i) SNullable b /\
        explicit_model t b (completed_by p q) m /\ cx' = cx) \/
     ((forall t, ~ said pe pp (PContainer DkOther) (di_attrs i) (SType t)) /\
      exists m0, schema_returns E (fs_ty f) cx m0 cx' /\ m = apply_params (completed_by p q) m0)).
Proof. exact newtype_struct_described. Qed.
Print Assumptions C21_newtype_struct.

Example C21_case : ex_derive i_newtype = DOk (ex_env 7) /\
  schema_returns ex_env (TNamed 7) cx_new m_newtype cx_newtype /\
  kind_of m_newtype = KInteger /\ format_of m_newtype = Some (u "int8") /\
  m_description m_newtype = Some (u "An age").
Proof. split; [exact d_newtype|]. split; [exact r_newtype|]. repeat split. Qed.

(** ** C22: explicit type flags *)

(** the flag of the field of a newtype struct is ignored *)
Definition i_flagged_newtype : derive_input ty :=
  item [] "N" (DaStruct (FUnnamed [pos_fld [opg_attr [word_item "string"]] i32])).
Theorem C22_flag_replaces_type_refuted : exists i E id f m cx',
  ex_derive i = DOk (E id) /\ schema_returns E (TNamed id) cx_new m cx' /\ di_data i = DaStruct (FUnnamed [f]) /\
  said yes yes PField (fs_attrs f) (SType ETString) /\ kind_of m = KInteger.
Proof.
  exists i_flagged_newtype, (fun _ => derived i_flagged_newtype), 0. eexists _, _, _.
  split; [reflexivity|]. split; [exists 10; reflexivity|]. split; [reflexivity|]. split; [decide_said|reflexivity].
Qed.
Print Assumptions C22_flag_replaces_type_refuted.

(** changing the Rust type of flagged fields changes nothing in the generated code, unless the field is that of
    a newtype struct or of an internally tagged newtype variant *)
Theorem C22_type_not_consulted_partial : forall pe pp uni ev i1 i2 td,
  inputs_differ pe pp False True i1 i2 -> derive pe pp uni ev i1 = DOk td -> derive pe pp uni ev i2 = DOk td.
Proof. intros pe pp uni ev. exact (differ_derive pe pp uni ev False True). Qed.
Print Assumptions C22_type_not_consulted_partial.

(** the property of a flagged field of a struct *)
Theorem C22_flagged_property : forall pe pp uni ev E id i cx m cx',
  derive pe pp uni ev i = DOk (E id) -> schema_returns E (TNamed id) cx m cx' ->
  forall fs l r k n f t, di_data i = DaStruct (FNamed fs) ->
  has_rule pe pp (PContainer DkNamed) (di_attrs i) r -> serialised_fields pe pp r 0 fs l -> NoDup (map fst l) ->
  nth_error l k = Some (n, f) -> said pe pp PField (fs_attrs f) (SType t) ->
  exists o, object_of m = Some o /\
    (t = ETAny -> bm_get n (mo_properties o) = Some Any) /\
    (t <> ETAny -> exists p nl mm, params_said pe pp ev PField (fs_attrs f) p /\
       flag_takes pe pp PField (fs_attrs f) SNullable nl /\
       bm_get n (mo_properties o) = Some (Inline mm) /\ explicit_model t nl p mm).
Proof. exact struct_flagged. Qed.
Print Assumptions C22_flagged_property.

(** any flagged field, wherever it is described by reference: the type is not consulted, nothing is registered *)
Theorem C22_flagged_reference : forall pe pp E f b p cx r cx' t,
  field_ref pe pp E f b p cx r cx' -> acceptable pe pp PField (fs_attrs f) ->
  said pe pp PField (fs_attrs f) (SType t) ->
  cx' = cx /\ (t = ETAny -> r = Any) /\
  (t <> ETAny -> exists nl mm, r = Inline mm /\ flag_takes pe pp PField (fs_attrs f) SNullable nl /\ explicit_model t nl p mm).
Proof. exact flagged_field. Qed.
Print Assumptions C22_flagged_reference.

Definition i_point_retyped : derive_input ty :=
  item [serde_attr [str_value "rename_all" "camelCase"]; opg_attr [described "A point"]] "Point"
    (DaStruct (FNamed
      [fld [opg_attr [word_item "optional"]] "first_x" i32;
       fld [serde_attr [word_item "skip"]] "secret" (TNamed 9);
       fld [serde_attr [str_value "rename" "Y"]; opg_attr [word_item "integer"; str_value "format" "int64"]] "y" (TNamed 77)])).
Example C22_case : inputs_differ yes yes False True i_point i_point_retyped /\
  exists o m, object_of m_point = Some o /\ bm_get (u "Y") (mo_properties o) = Some (Inline m) /\
    kind_of m = KInteger /\ format_of m = Some (u "int64").
Proof.
  split.
  - apply id_struct. apply pd_named; [repeat constructor; discriminate|]. apply fd_keep, fd_keep.
    apply (fd_retype _ _ _ _ _ _ _ _ _ ETInteger); [exact I|decide_said|constructor].
  - eexists _, _. repeat split.
Qed.

(** ** C54: tuple structs *)
Theorem C54_tuple_struct : forall pe pp uni ev E id i cx m cx',
  derive pe pp uni ev i = DOk (E id) -> schema_returns E (TNamed id) cx m cx' ->
  forall fs, di_data i = DaStruct (FUnnamed fs) -> length fs <> 1 ->
  takes pe pp (PContainer DkOther) (di_attrs i) SDescription (m_description m) /\
  (exists b, nullable_of m = Some b /\ flag_takes pe pp (PContainer DkOther) (di_attrs i) SNullable b) /\
  exists rs, field_refs pe pp ev E false fs cx rs cx' /\ tuple_schema m rs.
Proof. exact tuple_struct_described. Qed.
Print Assumptions C54_tuple_struct.

Example C54_case : ex_derive i_tuple = DOk (ex_env 8) /\
  schema_returns ex_env (TNamed 8) cx_new m_tuple cx_tuple /\
  tuple_schema m_tuple [Link (u "Point"); Link (u "Secret")].
Proof.
  split; [exact d_tuple|]. split; [exact r_tuple|]. exists None. split; reflexivity.
Qed.

(** ** C55: the name and inlining of a derived type *)
Theorem C55_type_name : forall pe pp uni ev i td, derive pe pp uni ev i = DOk td ->
  td_ident td = di_ident i /\ flag_takes pe pp (PContainer (shape (di_data i))) (di_attrs i) SInline (td_inline td).
Proof. exact derive_name. Qed.
Print Assumptions C55_type_name.

Example C55_case : ex_derive i_tuple = DOk (ex_env 8) /\ td_ident (ex_env 8) = u "Pair" /\ td_inline (ex_env 8) = true /\
  td_inline (ex_env 0) = false.
Proof. repeat split. Qed.
