(** Properties C05-C09: attributes and names, as seen through the derive. *)
From Verif Require Import Attr AttrSpec Ast Derive DeriveSpec DeriveFacts2 DeriveFacts3 DeriveFacts5 DeriveExamples
  Schema SchemaSpec Gen GenSpec.
From Coq Require Import Permutation.

(** ** C05: an unknown [rename_all] spelling is as good as none *)
Theorem C05_unknown_rule_changes_nothing : forall pe pp uni ev (i1 i2 : derive_input ty),
  input_rel (fun _ => without unknown_rule) i1 i2 -> derive pe pp uni ev i1 = derive pe pp uni ev i2.
Proof. exact derive_without_unknown_rule. Qed.
Print Assumptions C05_unknown_rule_changes_nothing.

Definition with_bad_rule : derive_input ty :=
  item [serde_attr [str_value "rename_all" "Kebab-Case"]; opg_attr [described "d"]] "S" (DaStruct (FNamed [fld [] "a_b" i32])).
Definition without_bad_rule : derive_input ty :=
  item [opg_attr [described "d"]] "S" (DaStruct (FNamed [fld [] "a_b" i32])).
Example C05_unknown_rule_case : input_rel (A := ty) (fun _ => without unknown_rule) with_bad_rule without_bad_rule /\
  ex_derive with_bad_rule <> DPanic.
Proof.
  split; [|discriminate]. constructor.
  - eexists _, _. split; [apply items_written_ok; reflexivity|]. split; [apply items_written_ok; reflexivity|].
    cbn. apply du_drop; [|repeat constructor]. apply ur_value. intros r. vm_compute. intuition discriminate.
  - repeat constructor. eexists [], []. repeat split; constructor.
Qed.

(** ** C06: where names come from *)
Theorem C06_struct_property_names : forall pe pp uni ev E id i cx m cx',
  derive pe pp uni ev i = DOk (E id) -> schema_returns E (TNamed id) cx m cx' ->
  forall fs r, di_data i = DaStruct (FNamed fs) -> has_rule pe pp (PContainer DkNamed) (di_attrs i) r ->
  exists o, object_of m = Some o /\
    forall n, bm_get n (mo_properties o) <> None <-> named_by pe pp r fs n.
Proof. exact struct_names. Qed.
Print Assumptions C06_struct_property_names.

Theorem C06_unit_variant_names : forall pe pp uni ev E id i cx m cx',
  derive pe pp uni ev i = DOk (E id) -> schema_returns E (TNamed id) cx m cx' ->
  forall vs, di_data i = DaEnum vs ->
  forall r, (forall v, In v vs -> unit_variant v) -> ~ said pe pp (PContainer DkEnum) (di_attrs i) SRepr ->
  has_rule pe pp (PContainer DkEnum) (di_attrs i) r ->
  exists names, enum_of m = Some names /\
    forall n, In n names <-> exists v, In v vs /\ ~ variant_skipped pe pp v /\ variant_named pe pp uni r v n.
Proof. exact unit_enum_names. Qed.
Print Assumptions C06_unit_variant_names.

Theorem C06_external_variant_fields : forall pe pp uni ev E id i cx m cx',
  derive pe pp uni ev i = DOk (E id) -> schema_returns E (TNamed id) cx m cx' ->
  forall vs, di_data i = DaEnum vs ->
  forall w, In w vs -> ~ unit_variant w -> represents pe pp (di_attrs i) RepExternal ->
  exists l rs o m1, enum_variants pe pp uni i vs l /\ object_of m = Some o /\ mo_additional o = Some (Inline m1) /\
    alternatives_of m1 = Some rs /\ Forall2 (fun nv => struct_alternative pe pp nv (fun _ => False)) l rs.
Proof. exact external_structs. Qed.
Print Assumptions C06_external_variant_fields.

Theorem C06_untagged_variant_fields : forall pe pp uni ev E id i cx m cx',
  derive pe pp uni ev i = DOk (E id) -> schema_returns E (TNamed id) cx m cx' ->
  forall vs, di_data i = DaEnum vs -> represents pe pp (di_attrs i) RepUntagged ->
  exists l rs, enum_variants pe pp uni i vs l /\
    alternatives_of m = Some rs /\ Forall2 (fun nv => struct_alternative pe pp nv (fun _ => False)) l rs.
Proof. exact untagged_structs. Qed.
Print Assumptions C06_untagged_variant_fields.

Theorem C06_internal_variant_fields : forall pe pp uni ev E id i cx m cx',
  derive pe pp uni ev i = DOk (E id) -> schema_returns E (TNamed id) cx m cx' ->
  forall vs, di_data i = DaEnum vs ->
  forall w tag, In w vs -> ~ unit_variant w -> represents pe pp (di_attrs i) (RepInternal tag) ->
  exists l rs, enum_variants pe pp uni i vs l /\
    alternatives_of m = Some rs /\ Forall2 (fun nv => struct_alternative pe pp nv (fun n => n = tag)) l rs.
Proof. exact internal_structs. Qed.
Print Assumptions C06_internal_variant_fields.

(** names are determined by the input *)
Theorem C06_names_are_unique : forall pe pp uni,
  (forall A r1 r2 k (f : field_syn A) n1 n2, acceptable pe pp PField (fs_attrs f) -> r1 = r2 ->
     field_named pe pp r1 k f n1 -> field_named pe pp r2 k f n2 -> n1 = n2) /\
  (forall A r1 r2 (v : variant_syn A) n1 n2, acceptable pe pp PVariant (vs_attrs v) -> r1 = r2 ->
     variant_named pe pp uni r1 v n1 -> variant_named pe pp uni r2 v n2 -> n1 = n2) /\
  (** an explicit name wins whatever the rule *)
  (forall A r1 r2 k (f : field_syn A) s n, acceptable pe pp PField (fs_attrs f) ->
     said pe pp PField (fs_attrs f) (SRename s) -> field_named pe pp r1 k f n -> n = s /\ field_named pe pp r2 k f s) /\
  (forall A r1 r2 (v : variant_syn A) s n, acceptable pe pp PVariant (vs_attrs v) ->
     said pe pp PVariant (vs_attrs v) (SRename s) -> variant_named pe pp uni r1 v n -> n = s /\ variant_named pe pp uni r2 v s).
Proof. exact names_determined. Qed.
Print Assumptions C06_names_are_unique.

(** raw identifiers have the name of the identifier; without rule and rename the name is the identifier *)
Theorem C06_raw_identifiers : forall pe pp uni,
  (forall A r k (f g : field_syn A) i n, fs_ident f = Some (raw i) -> fs_ident g = Some i -> fs_attrs f = fs_attrs g ->
     (field_named pe pp r k f n <-> field_named pe pp r k g n)) /\
  (forall A r (v w : variant_syn A) n, vs_ident v = raw (vs_ident w) -> vs_attrs v = vs_attrs w ->
     (variant_named pe pp uni r v n <-> variant_named pe pp uni r w n)) /\
  (forall A k (f : field_syn A) i n, fs_ident f = Some i -> (forall j, i <> raw j) -> (forall m, ~ said pe pp PField (fs_attrs f) (SRename m)) ->
     (field_named pe pp RNone k f n <-> n = i)) /\
  (forall A (v : variant_syn A) n, (forall j, vs_ident v <> raw j) -> (forall m, ~ said pe pp PVariant (vs_attrs v) (SRename m)) ->
     (variant_named pe pp uni RNone v n <-> n = vs_ident v)).
Proof. exact raw_names. Qed.
Print Assumptions C06_raw_identifiers.
Example C06_raw_case : fs_ident (fld [] "r#type" i32) = Some (raw (u "type")) /\ field_named yes yes RNone 0 (fld [] "r#type" i32) (u "type").
Proof. split; [reflexivity|]. apply fn_rule; [intros m; decide_said|reflexivity]. Qed.

Example C06_struct_case :
  has_rule yes yes (PContainer DkNamed) (di_attrs i_point) RCamelCase /\
  (forall fs, di_data i_point = DaStruct (FNamed fs) -> named_by yes yes RCamelCase fs (u "Y") /\
     named_by yes yes RCamelCase fs (u "firstX")) /\
  exists o, object_of m_point = Some o /\ map fst (mo_properties o) = [u "Y"; u "firstX"].
Proof.
  split; [left; decide_said|]. split.
  - intros fs [= <-]. split.
    + exists 2. eexists. split; [reflexivity|]. split; [unfold field_skipped; decide_said|]. apply fn_explicit. decide_said.
    + exists 0. eexists. split; [reflexivity|]. split; [unfold field_skipped; decide_said|].
      apply fn_rule; [intros s; decide_said|reflexivity].
  - eexists. split; reflexivity.
Qed.
Example C06_enum_case :
  enum_of m_color = Some [u "red"; u "dark-blue"] /\
  has_rule yes yes (PContainer DkEnum) (di_attrs i_color) RKebabCase /\
  represents yes yes (di_attrs i_shape) RepExternal /\
  represents yes yes (di_attrs i_untagged) RepUntagged /\
  represents yes yes (di_attrs i_internal) (RepInternal (u "kind")).
Proof.
  split; [reflexivity|]. split; [left; decide_said|]. split; [apply rep_external; try intros ?; decide_said|].
  split; [apply rep_untagged; try intros ?; decide_said|]. apply rep_internal; try intros ?; decide_said.
Qed.

(** ** C07: order and grouping of attributes *)
Theorem C07_order_and_grouping : forall pe pp uni ev (i1 i2 : derive_input ty) td,
  input_rel (fun _ => rearranged) i1 i2 ->
  (derive pe pp uni ev i1 = DOk td <-> derive pe pp uni ev i2 = DOk td).
Proof. exact derive_rearranged_iff. Qed.
Print Assumptions C07_order_and_grouping.

Definition grouped : derive_input ty :=
  item [opg_attr [word_item "inline"; described "d"; str_value "format" "f"]; serde_attr [str_value "rename_all" "camelCase"]]
    "S" (DaStruct (FNamed [fld [] "a_b" i32])).
Definition regrouped : derive_input ty :=
  item [opg_attr [str_value "format" "f"]; serde_attr [str_value "rename_all" "camelCase"]; opg_attr [described "d"];
        opg_attr [word_item "inline"]]
    "S" (DaStruct (FNamed [fld [] "a_b" i32])).
Example C07_case : input_rel (A := ty) (fun _ => rearranged) grouped regrouped /\ exists td, ex_derive grouped = DOk td.
Proof.
  split; [|eexists; reflexivity]. constructor.
  - eexists _, _. split; [apply items_written_ok; reflexivity|]. split; [apply items_written_ok; reflexivity|]. cbn.
    match goal with |- Permutation [?a; ?b; ?c; ?d] _ =>
      transitivity [c; d; a; b]; [apply (Permutation_app_comm [a; b] [c; d])|repeat constructor] end.
  - repeat constructor. eexists [], []. repeat split; constructor.
Qed.

(** ** C08: repeated and malformed attributes *)

(** errors are reported exactly for unacceptable attributes, on inputs of a supported shape with ordinary
    identifiers (others: C10, C11) *)
Theorem C08_errors_exactly_for_unacceptable : forall pe pp uni ev i, ~ odd_name i -> ~ unsupported pe pp i ->
  ((exists es, derive pe pp uni ev i = DErr es /\ es <> []) <-> ~ attributes_acceptable pe pp i).
Proof. exact errors_exactly. Qed.
Print Assumptions C08_errors_exactly_for_unacceptable.

(** whatever the names, nothing is generated for unacceptable attributes *)
Theorem C08_unacceptable_never_accepted : forall pe pp uni ev i, ~ attributes_acceptable pe pp i ->
  (forall td, derive pe pp uni ev i <> DOk td) /\
  (~ odd_name i -> exists es, derive pe pp uni ev i = DErr es /\ es <> []).
Proof. exact unacceptable_rejected. Qed.
Print Assumptions C08_unacceptable_never_accepted.

(** in an accepted input every attribute has at most one value *)
Theorem C08_accepted_settings_are_single : forall pe pp uni ev i td pos l x y,
  derive pe pp uni ev i = DOk td -> attrs_at i pos l -> said pe pp pos l x -> said pe pp pos l y ->
  key_of x = key_of y -> x = y.
Proof. exact derive_single. Qed.
Print Assumptions C08_accepted_settings_are_single.

(** and that value is the one used (the settings of a struct; those of fields and variants: C13-C22) *)
Theorem C08_struct_settings_verbatim : forall pe pp uni ev E id i cx m cx',
  derive pe pp uni ev i = DOk (E id) -> schema_returns E (TNamed id) cx m cx' ->
  forall fs, di_data i = DaStruct (FNamed fs) ->
  takes pe pp (PContainer DkNamed) (di_attrs i) SDescription (m_description m) /\
  (exists b, nullable_of m = Some b /\ flag_takes pe pp (PContainer DkNamed) (di_attrs i) SNullable b) /\
  exists r, has_rule pe pp (PContainer DkNamed) (di_attrs i) r /\ object_schema pe pp ev E false r fs cx m cx'.
Proof. exact struct_described. Qed.
Print Assumptions C08_struct_settings_verbatim.

Definition twice_described : derive_input ty :=
  item [] "S" (DaStruct (FNamed [fld [opg_attr [described "a"]; opg_attr [described "a"]] "x" i32])).
Example C08_case : ~ attributes_acceptable yes yes twice_described /\ ~ odd_name twice_described /\
  ~ unsupported yes yes twice_described /\ (exists es, ex_derive twice_described = DErr es) /\
  m_description m_point = Some (u "A point") /\
  said yes yes (PContainer DkNamed) (di_attrs i_point) (SDescription (u "A point")).
Proof.
  split.
  { intros H. specialize (H PField [opg_attr [described "a"]; opg_attr [described "a"]]).
    destruct H as (its & Hw & _ & Hr);
      [refine (aa_field twice_described _ (fld [opg_attr [described "a"]; opg_attr [described "a"]] "x" i32) eq_refl _); now left|].
    rewrite (AttrFacts.written_fun _ _ _ Hw (items_written_ok [opg_attr [described "a"]; opg_attr [described "a"]] _ eq_refl)) in Hr. apply Hr.
    exists [], FromOpg, (described "a"), [], FromOpg, (described "a"), [], (SDescription (u "a")), (SDescription (u "a")).
    repeat split; constructor. }
  split.
  { intros H. inversion H as [? ? H1|? ? ? ? H1|fs k f H1 H2 H3]; try discriminate. injection H1 as <-.
    destruct k as [|[|k]]; cbn in H2; try discriminate. injection H2 as <-. apply H3.
    exists [], 120%N, []. repeat split; [constructor|discriminate]. }
  split.
  { intros H. inversion H; discriminate. }
  split; [eexists; reflexivity|]. split; [reflexivity|]. decide_said.
Qed.

(** ** C09: unknown attributes *)
Theorem C09_unknown_opg_rejected : forall pe pp uni ev i pos l its n,
  attrs_at i pos l -> written l its -> In (FromOpg, n) its -> unknown_opg pos n ->
  (forall td, derive pe pp uni ev i <> DOk td) /\
  (~ odd_name i -> exists es, derive pe pp uni ev i = DErr es /\ es <> []).
Proof. exact unknown_opg_rejected. Qed.
Print Assumptions C09_unknown_opg_rejected.

Theorem C09_unknown_serde_changes_nothing : forall pe pp uni ev (i1 i2 : derive_input ty),
  input_rel without_unknown i1 i2 -> derive pe pp uni ev i1 = derive pe pp uni ev i2.
Proof. exact derive_without_unknown. Qed.
Print Assumptions C09_unknown_serde_changes_nothing.

Definition with_unknown : derive_input ty :=
  item [serde_attr [word_item "deny_unknown_fields"; str_value "rename_all" "camelCase"]] "S"
    (DaStruct (FNamed [fld [serde_attr [str_value "alias" "b"]] "a" i32])).
Definition with_known : derive_input ty :=
  item [serde_attr [str_value "rename_all" "camelCase"]] "S" (DaStruct (FNamed [fld [serde_attr []] "a" i32])).
Definition misspelt : derive_input ty :=
  item [] "S" (DaStruct (FNamed [fld [opg_attr [word_item "nulable"]] "a" i32])).
Example C09_case : input_rel without_unknown with_unknown with_known /\ (exists td, ex_derive with_known = DOk td) /\
  attrs_at misspelt PField [opg_attr [word_item "nulable"]] /\ unknown_opg PField (word_item "nulable") /\
  (exists es, ex_derive misspelt = DErr es).
Proof.
  split.
  { constructor.
    - eexists _, _. split; [apply items_written_ok; reflexivity|]. split; [apply items_written_ok; reflexivity|].
      cbn. apply du_drop; [|repeat constructor]. apply us_meta. cbn. intuition (subst; discriminate).
    - repeat constructor. eexists _, _. split; [apply items_written_ok; reflexivity|]. split; [apply items_written_ok; reflexivity|].
      cbn. apply du_drop; [|repeat constructor]. apply us_meta. cbn. intuition (subst; discriminate). }
  split; [eexists; reflexivity|]. split; [refine (aa_field misspelt _ (fld [opg_attr [word_item "nulable"]] "a" i32) eq_refl _); now left|].
  split; [|eexists; reflexivity]. constructor. cbn. intuition (subst; discriminate).
Qed.
