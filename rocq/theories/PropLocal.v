(** What a declaration documents does not depend on the other declarations: C71. *)
From Verif Require Import Attr Ast Derive Schema Gen GenSpec SerSpec Api ApiSpec Conformance ApiExamples LocalFacts PropGen.
Local Open Scope string_scope. Local Open Scope list_scope.

(** * C71: Extending an API description changes nothing that was documented before *)

(** The entry of a path (its template, parameters, operations and callbacks) depends on its own declaration only:
    wherever and among whatever else it is declared, the documents have the same entry for it, at its place. *)
Theorem C71_path_depends_on_itself : forall E reason seg a a' d d' i j pd,
  describes E reason seg a d -> describes E reason seg a' d' ->
  nth_error (api_paths a) i = Some pd -> nth_error (api_paths a') j = Some pd ->
  exists e, nth_error (og_paths d) i = Some e /\ nth_error (og_paths d') j = Some e.
Proof. exact path_local. Qed.
(** Sections added at the end keep the paths, the servers and every component schema. *)
Theorem C71_appending_only_adds : forall E reason seg a more d d',
  describes E reason seg a d -> describes E reason seg (a ++ more) d' ->
  (exists ps, og_paths d' = og_paths d ++ ps) /\ (exists ss, og_servers d' = og_servers d ++ ss) /\
  (forall n m, bm_get n (cx_schemas (og_components d)) = Some m -> bm_get n (cx_schemas (og_components d')) = Some m).
Proof. exact appended. Qed.
(** Added anywhere, if no two types share a name: every component schema stays. *)
Theorem C71_components_stay_partial : forall E reason seg a a' d d',
  describes E reason seg a d -> describes E reason seg a' d' ->
  (forall t, names_type seg a t -> names_type seg a' t) ->
  (forall ts, (forall t, In t ts <-> names_type seg a' t) -> names_unambiguous E (map (fun t => SMention t false) ts)) ->
  forall n m, bm_get n (cx_schemas (og_components d)) = Some m -> bm_get n (cx_schemas (og_components d')) = Some m.
Proof. exact components_more. Qed.
(** FINDING: otherwise a path added in front may replace the schema that the link of another path leads to. *)
Theorem C71_components_stay_refuted : exists E reason seg a pd d d' n m,
  describes E reason seg [ScPaths a] d /\ describes E reason seg [ScPaths (pd :: a)] d' /\
  bm_get n (cx_schemas (og_components d)) = Some m /\ bm_get n (cx_schemas (og_components d')) <> Some m.
Proof.
  exists ex_env, test_reason, small_seg, [small_path [PvMethod GET [OpBody (BodyType (TNamed 0))]]], (small_path [PvMethod GET [OpBody (BodyType (TNamed 3))]]).
  eexists _, _, (u "Point"), _. split; [exists 20; vm_compute; reflexivity|]. split; [exists 20; vm_compute; reflexivity|]. split; [vm_compute; reflexivity|]. vm_compute. discriminate.
Qed.
Example C71_case : exists d d' e,
  let pd := small_path [PvMethod GET [OpBody (BodyType (TNamed 3))]] in
  let pd2 := small_path [PvMethod POST [OpBody (BodyType (TNamed 1)); OpResponse 200 None RsUnit]] in
  describes ex_env test_reason small_seg [ScPaths [pd]] d /\
  describes ex_env test_reason small_seg ([ScPaths [pd]] ++ [ScTags [(u "t", None)]; ScPaths [pd2]]) d' /\
  nth_error (og_paths d) 0 = Some e /\ List.length (og_paths d') = 2 /\ List.length (cx_schemas (og_components d)) < List.length (cx_schemas (og_components d')).
Proof.
  do 3 eexists. split; [exists 20; vm_compute; reflexivity|]. split; [exists 20; vm_compute; reflexivity|]. split; [vm_compute; reflexivity|]. split; [reflexivity|].
  vm_compute. auto with arith.
Qed.
Print Assumptions C71_path_depends_on_itself.
Print Assumptions C71_appending_only_adds.
Print Assumptions C71_components_stay_partial.
Print Assumptions C71_components_stay_refuted.
