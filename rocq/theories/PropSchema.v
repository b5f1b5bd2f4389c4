(** Properties C33-C37: schema objects. *)
From Verif Require Import Schema SchemaSpec SchemaFacts.

(** Example data. *)
Definition ex_string : model :=
  Model (Some (u "old")) (Single (MType false (TdString
    {| mst_variants := None; mst_data := {| ms_format := Some (u "uuid"); ms_example := None |} |}))).
Definition ex_params : params := Build_params (Some (u "new")) (Some true) None None (Some (u "e")).
Definition ex_obj (ks : list str) (req : list str) : model :=
  Model None (Single (MType false (TdObject
    (MObject (fold_right (fun k acc => bm_insert k Any acc) [] ks) None req)))).

(** C33: every member of the result is the given one where the parameter is given and applies to
    this kind of schema, and the old one otherwise; nothing else changes.  The listed members
    determine a schema ([C33_members_determine_schema]), so this is a complete description. *)
Theorem C33_apply_params_overrides_exactly : forall p m,
  m_description (apply_params p m) = given (p_description p) (m_description m) /\
  kind_of (apply_params p m) = kind_of m /\
  object_of (apply_params p m) = object_of m /\
  items_of (apply_params p m) = items_of m /\
  alternatives_of (apply_params p m) = alternatives_of m /\
  nullable_of (apply_params p m) =
    match nullable_of m with Some _ => given (p_nullable p) (nullable_of m) | None => None end /\
  enum_of (apply_params p m) =
    (match kind_of m with KString => given (p_variants p) (enum_of m) | _ => None end) /\
  format_of (apply_params p m) =
    (match kind_of m with KString | KNumber | KInteger => given (p_format p) (format_of m) | _ => None end) /\
  example_of (apply_params p m) =
    (match kind_of m with KString | KNumber | KInteger => given (p_example p) (example_of m) | _ => None end).
Proof. exact apply_params_facets. Qed.
Print Assumptions C33_apply_params_overrides_exactly.

Theorem C33_members_determine_schema : forall m1 m2,
  m_description m1 = m_description m2 -> kind_of m1 = kind_of m2 -> object_of m1 = object_of m2 ->
  items_of m1 = items_of m2 -> alternatives_of m1 = alternatives_of m2 ->
  nullable_of m1 = nullable_of m2 -> enum_of m1 = enum_of m2 -> format_of m1 = format_of m2 ->
  example_of m1 = example_of m2 -> m1 = m2.
Proof. exact facets_complete. Qed.
Print Assumptions C33_members_determine_schema.

Theorem C33_apply_twice_is_combined : forall p q m,
  apply_params q (apply_params p m) = apply_params (params_then p q) m.
Proof. exact apply_params_twice. Qed.
Print Assumptions C33_apply_twice_is_combined.

Theorem C33_no_params_no_change : forall m, apply_params params_default m = m.
Proof. exact apply_params_default. Qed.
Print Assumptions C33_no_params_no_change.

Example C33_case :
  m_description (apply_params ex_params ex_string) = Some (u "new") /\
  nullable_of (apply_params ex_params ex_string) = Some true /\
  format_of (apply_params ex_params ex_string) = Some (u "uuid") /\
  example_of (apply_params ex_params ex_string) = Some (u "e").
Proof. repeat split. Qed.

(** C34: success exactly for objects without common property; then the disjoint union. *)
Theorem C34_merge_succeeds_iff_disjoint_objects : forall m1 m2,
  wf_toplevel m2 ->
  (snd (try_merge m1 m2) = true <->
   exists o1 o2, object_of m1 = Some o1 /\ object_of m2 = Some o2 /\ disjoint_properties o1 o2).
Proof. exact try_merge_ok_iff. Qed.
Print Assumptions C34_merge_succeeds_iff_disjoint_objects.

Theorem C34_merge_result_is_union : forall m1 m2 o1 o2,
  wf_toplevel m1 -> wf_toplevel m2 ->
  object_of m1 = Some o1 -> object_of m2 = Some o2 -> disjoint_properties o1 o2 ->
  exists o, object_of (fst (try_merge m1 m2)) = Some o /\
    (forall k, bm_get k (mo_properties o) =
       match bm_get k (mo_properties o1) with Some r => Some r | None => bm_get k (mo_properties o2) end) /\
    mo_required o = mo_required o1 ++ mo_required o2 /\
    mo_additional o = mo_additional o1 /\
    wf_object o /\
    m_description (fst (try_merge m1 m2)) = m_description m1 /\
    nullable_of (fst (try_merge m1 m2)) = nullable_of m1.
Proof. exact try_merge_ok_result. Qed.
Print Assumptions C34_merge_result_is_union.

Example C34_case :
  exists o1 o2,
    object_of (ex_obj [u "b"; u "a"] [u "a"]) = Some o1 /\ object_of (ex_obj [u "c"] [u "c"]) = Some o2 /\
    disjoint_properties o1 o2 /\ wf_toplevel (ex_obj [u "b"; u "a"] [u "a"]) /\ wf_toplevel (ex_obj [u "c"] [u "c"]) /\
    snd (try_merge (ex_obj [u "b"; u "a"] [u "a"]) (ex_obj [u "c"] [u "c"])) = true.
Proof.
  eexists; eexists. split; [reflexivity|]. split; [reflexivity|]. split; [|repeat split].
  - refine (proj1 (merge_props_ok _ _ _) _); [|reflexivity]. apply bm_sortedb_true. reflexivity.
  - apply bm_sortedb_true. reflexivity.
  - apply bm_sortedb_true. reflexivity.
Qed.

(** C35 is false of the code: a failed merge leaves the properties preceding the clash. *)
Theorem C35_failed_merge_changes_nothing_refuted :
  exists m1 m2, wf_toplevel m1 /\ wf_toplevel m2 /\
    snd (try_merge m1 m2) = false /\ fst (try_merge m1 m2) <> m1.
Proof.
  exists (ex_obj [u "b"] []), (ex_obj [u "a"; u "b"] []).
  split; [apply bm_sortedb_true; reflexivity|]. split; [apply bm_sortedb_true; reflexivity|].
  split; [reflexivity|discriminate].
Qed.
Print Assumptions C35_failed_merge_changes_nothing_refuted.

(** What is true: own properties, required list, additional properties, description and nullability
    survive; the properties that appear are exactly those of the other preceding the least common
    name [c]; and nothing changes if one of the two is not an object. *)
Theorem C35_failed_merge_partial : forall m1 m2,
  wf_toplevel m2 ->
  snd (try_merge m1 m2) = false ->
  (forall k r, property_of m1 k = Some r -> property_of (fst (try_merge m1 m2)) k = Some r) /\
  (forall o1 o2, object_of m1 = Some o1 -> object_of m2 = Some o2 ->
     exists c, property_of m1 c <> None /\ property_of m2 c <> None /\
       (forall k, kcmp k c = Lt -> property_of m1 k = None \/ property_of m2 k = None) /\
       (forall k, property_of (fst (try_merge m1 m2)) k =
          given (property_of m1 k)
                (match kcmp k c with Lt => property_of m2 k | _ => None end))) /\
  (forall o, object_of m1 = Some o -> exists o', object_of (fst (try_merge m1 m2)) = Some o' /\
     mo_required o' = mo_required o /\ mo_additional o' = mo_additional o) /\
  (object_of m1 = None \/ object_of m2 = None -> fst (try_merge m1 m2) = m1) /\
  m_description (fst (try_merge m1 m2)) = m_description m1 /\
  nullable_of (fst (try_merge m1 m2)) = nullable_of m1.
Proof. exact try_merge_fail_result. Qed.
Print Assumptions C35_failed_merge_partial.

Example C35_case :
  wf_toplevel (ex_obj [u "a"; u "b"] []) /\
  snd (try_merge (ex_obj [u "b"] []) (ex_obj [u "a"; u "b"] [])) = false.
Proof. split; [apply bm_sortedb_true; reflexivity | reflexivity]. Qed.

(** C36 *)
Theorem C36_add_property_all_or_nothing : forall o k r b,
  wf_object o ->
  (bm_get k (mo_properties o) <> None -> add_property o k r b = (o, false)) /\
  (bm_get k (mo_properties o) = None -> exists o',
     add_property o k r b = (o', true) /\ wf_object o' /\
     (forall k', bm_get k' (mo_properties o') =
        if str_eqb k' k then Some r else bm_get k' (mo_properties o)) /\
     mo_required o' = mo_required o ++ (if b then [k] else []) /\
     mo_additional o' = mo_additional o).
Proof. exact add_property_spec. Qed.
Print Assumptions C36_add_property_all_or_nothing.

Example C36_case :
  wf_object (MObject [(u "a", Any)] None [u "a"]) /\
  bm_get (u "b") (mo_properties (MObject [(u "a", Any)] None [u "a"])) = None /\
  bm_get (u "a") (mo_properties (MObject [(u "a", Any)] None [u "a"])) <> None.
Proof. split; [apply bm_sortedb_true; reflexivity|]. split; [reflexivity|discriminate]. Qed.

(** C37: the full property is false, links inside inlined schemas are not checked. *)
Definition ex_deep_dangling : bmap str model :=
  [(u "A", Model None (Single (MType false (TdArray (Inline
     (Model None (Single (MType false (TdArray (Link (u "B"))))))))))) ].

Theorem C37_verify_finds_every_dangling_link_refuted :
  exists schemas, bm_sorted schemas /\ verify_schemas schemas = None /\ ~ links_closed schemas.
Proof.
  exists ex_deep_dangling. split; [apply bm_sortedb_true; reflexivity|]. split; [reflexivity|].
  intros H.
  eapply (H (u "A") _ (u "B")); [reflexivity| |reflexivity].
  eexists; split; [constructor|]. eapply occ_inline; constructor.
Qed.
Print Assumptions C37_verify_finds_every_dangling_link_refuted.

(** Exactly: Ok iff every link standing directly in a registered schema resolves. *)
Theorem C37_verify_ok_iff_direct_links_resolve_partial : forall schemas,
  bm_sorted schemas ->
  (verify_schemas schemas = None <->
   forall k m l, bm_get k schemas = Some m -> child (Link l) m -> bm_get l schemas <> None).
Proof. exact verify_schemas_ok. Qed.
Print Assumptions C37_verify_ok_iff_direct_links_resolve_partial.

(** The reported link dangles, and it stands in the first schema, in key order, that has one. *)
Theorem C37_verify_reports_a_dangling_link : forall schemas l,
  bm_sorted schemas ->
  verify_schemas schemas = Some l ->
  bm_get l schemas = None /\
  exists k m, bm_get k schemas = Some m /\ child (Link l) m /\
    forall k' m' l', kcmp k' k = Lt -> bm_get k' schemas = Some m' -> child (Link l') m' ->
                     bm_get l' schemas <> None.
Proof. exact verify_schemas_err. Qed.
Print Assumptions C37_verify_reports_a_dangling_link.

(** It never complains about closed components. *)
Theorem C37_verify_accepts_closed : forall schemas,
  bm_sorted schemas -> links_closed schemas -> verify_schemas schemas = None.
Proof. exact verify_closed. Qed.
Print Assumptions C37_verify_accepts_closed.

Example C37_case :
  bm_sorted [(u "A", Model None (OneOf [Link (u "A"); Link (u "Z")]))] /\
  verify_schemas [(u "A", Model None (OneOf [Link (u "A"); Link (u "Z")]))] = Some (u "Z").
Proof. split; [apply bm_sortedb_true; reflexivity|reflexivity]. Qed.
