(** Properties C24-C32 and C38: schema generation. *)
From Verif Require Import Schema SchemaSpec SchemaFacts Gen GenSpec GenFacts GenFacts2 GenFacts3 GenFacts4.
From Coq Require Import Permutation.

(** ** Example types *)
Definition ex_struct (name : str) (inline : bool) (fields : list (str * rcode * bool)) : typedef :=
  {| td_ident := name; td_inline := inline; td_body := McModel None (DcSingle false (TcObject fields)) |}.
Definition ex_field (n : str) (t : ty) : str * rcode * bool := (n, RcMention t false params_default, true).

(** 0: struct Point { x: i32 }
    1: struct Line { a: Point, b: Box<Point>, tags: Vec<String> }
    2: struct Node { next: Vec<Node> }
    3: another module's struct Point { name: String }
    4: enum Choice { Left(i32), Right(String) } (untagged)
    5: struct Both { a: Point, b: Option<Point> } *)
Definition ex_env : env := fun id =>
  match id with
  | 0 => ex_struct (u "Point") false [ex_field (u "x") (TPrim PI32)]
  | 1 => ex_struct (u "Line") false
           [ex_field (u "a") (TNamed 0); ex_field (u "b") (TWrap WBox (TNamed 0));
            ex_field (u "tags") (TSeq KVec (TPrim PString))]
  | 2 => ex_struct (u "Node") false [ex_field (u "next") (TSeq KVec (TNamed 2))]
  | 3 => ex_struct (u "Point") false [ex_field (u "name") (TPrim PString)]
  | 4 => {| td_ident := u "Choice"; td_inline := false;
            td_body := McModel None (DcOneOf [RcMention (TPrim PI32) false params_default;
                                              RcMention (TPrim PString) false params_default]) |}
  | 5 => ex_struct (u "Both") false [ex_field (u "a") (TNamed 0); ex_field (u "b") (TOption (TNamed 0))]
  | _ => ex_struct (u "Unused") false []
  end.

Definition ex_call (t : ty) : mention_call := {| mc_ty := t; mc_inline := false; mc_params := params_default |}.

(** the schema and components obtained with ample fuel *)
Definition ex_schema (t : ty) : res (model * components) := get_schema ex_env 20 t cx_new.
Definition ex_after (l : list mention_call) : components :=
  match mention_all ex_env 20 l cx_new with Ok cx => cx | Fuel => cx_new end.

(** sites reachable from Line *)
Definition ex_line_sites : list site :=
  [SCall (TNamed 1); SMention (TNamed 1) false; SMention (TNamed 0) false; SMention (TWrap WBox (TNamed 0)) false;
   SCall (TNamed 0); SMention (TSeq KVec (TPrim PString)) false; SMention (TPrim PI32) false;
   SMention (TPrim PString) false].

Lemma ex_visited roots l :
  forallb (fun s => existsb (fun s' => if site_eq_dec s s' then true else false) l) roots = true ->
  forallb (fun s => forallb (fun s1 => existsb (fun s' => if site_eq_dec s1 s' then true else false) l)
                      (sites_of ex_env (site_ty s))) l = true ->
  forall s, visited ex_env roots s -> In s l.
Proof. exact (visited_in_list ex_env roots l). Qed.

(** ** C24: generation never leaves a dangling link *)
Theorem C24_mention_leaves_no_dangling_link : forall E t inline p cx r cx',
  links_closed (cx_schemas cx) -> mention_returns E t inline p cx r cx' ->
  links_closed (cx_schemas cx') /\ (forall l, occurs l r -> registered cx' l).
Proof. exact mention_no_dangling. Qed.
Print Assumptions C24_mention_leaves_no_dangling_link.

Theorem C24_schema_leaves_no_dangling_link : forall E t cx m cx',
  links_closed (cx_schemas cx) -> schema_returns E t cx m cx' ->
  links_closed (cx_schemas cx') /\ (forall l, occurs_in l m -> registered cx' l).
Proof. exact schema_no_dangling. Qed.
Print Assumptions C24_schema_leaves_no_dangling_link.

Theorem C24_history_leaves_no_dangling_link : forall E calls cx,
  mentions_return E calls cx_new cx -> links_closed (cx_schemas cx).
Proof. exact history_no_dangling. Qed.
Print Assumptions C24_history_leaves_no_dangling_link.

Example C24_case : exists m cx, schema_returns ex_env (TNamed 1) cx_new m cx /\
  occurs_in (u "Point") m /\ registered cx (u "Point") /\ ~ registered cx (u "Line").
Proof.
  do 2 eexists. split; [exists 20; vm_compute; reflexivity|]. repeat split.
  - eexists. split; [eapply ch_prop with (k := u "a"); left; reflexivity | constructor].
  - vm_compute. discriminate.
  - vm_compute. tauto.
Qed.

(** ** C25: registered components are never removed or changed *)
Theorem C25_registered_components_never_change : forall E cx cx',
  cx_steps E cx cx' ->
  (forall name m, bm_get name (cx_schemas cx) = Some m -> bm_get name (cx_schemas cx') = Some m) /\
  (forall name s, bm_get name (cx_security cx) = Some s -> bm_get name (cx_security cx') = Some s).
Proof. exact cx_steps_extends. Qed.
Print Assumptions C25_registered_components_never_change.

Theorem C25_add_model_first_wins : forall name m cx,
  bm_get name (cx_schemas (add_model name m cx)) =
    (match bm_get name (cx_schemas cx) with Some old => Some old | None => Some m end).
Proof. exact add_model_first. Qed.
Print Assumptions C25_add_model_first_wins.

Theorem C25_security_scheme_first_wins : forall name s cx,
  fst (mention_security_scheme name s cx) = name /\
  bm_get name (cx_security (snd (mention_security_scheme name s cx))) =
    (match bm_get name (cx_security cx) with Some old => Some old | None => Some s end).
Proof. exact security_first. Qed.
Print Assumptions C25_security_scheme_first_wins.

Example C25_case : exists cx cx', cx_steps ex_env cx cx' /\
  registered cx (u "Point") /\ ~ registered cx (u "Line") /\ registered cx' (u "Line") /\
  (exists s, bm_get (u "key") (cx_security cx') = Some s).
Proof.
  exists (ex_after [ex_call (TNamed 0)]).
  eexists. split.
  - eapply steps_cons; [eapply step_mention with (t := TNamed 1) (i := false) (p := params_default); exists 20; vm_compute; reflexivity|].
    eapply steps_cons; [eapply step_add with (name := u "Point") (m := describe_boolean)|].
    eapply steps_cons; [eapply step_security with (name := u "key") (s := Http (Basic None))|].
    apply steps_nil.
  - repeat split; try (vm_compute; discriminate); try (vm_compute; tauto). eexists. vm_compute. reflexivity.
Qed.

(** ** C26: a type's schema does not depend on the context *)
Theorem C26_schema_context_independent : forall E t cx1 m1 cx1' cx2 m2 cx2',
  schema_returns E t cx1 m1 cx1' -> schema_returns E t cx2 m2 cx2' -> m1 = m2.
Proof. exact schema_returns_ctx_free. Qed.
Print Assumptions C26_schema_context_independent.

Theorem C26_reference_context_independent : forall E t inline p cx1 r1 cx1' cx2 r2 cx2',
  mention_returns E t inline p cx1 r1 cx1' -> mention_returns E t inline p cx2 r2 cx2' -> r1 = r2.
Proof. exact mention_returns_ctx_free. Qed.
Print Assumptions C26_reference_context_independent.

Example C26_case : exists m cx1 cx2, schema_returns ex_env (TNamed 1) cx_new m cx1 /\
  schema_returns ex_env (TNamed 1) (ex_after [ex_call (TNamed 3)]) m cx2 /\ cx1 <> cx2.
Proof.
  do 3 eexists. split; [exists 20; vm_compute; reflexivity|].
  split; [exists 20; vm_compute; reflexivity|]. discriminate.
Qed.

(** ** C27: order independence *)

(** False in general: with a shared name, the first mention wins. *)
Theorem C27_order_independent_refuted : exists E calls1 calls2 cx1 cx2,
  Permutation calls1 calls2 /\
  mentions_return E calls1 cx_new cx1 /\ mentions_return E calls2 cx_new cx2 /\ cx1 <> cx2.
Proof.
  exists ex_env, [ex_call (TNamed 0); ex_call (TNamed 3)], [ex_call (TNamed 3); ex_call (TNamed 0)].
  do 2 eexists. split; [constructor|].
  split; [exists 20; vm_compute; reflexivity|]. split; [exists 20; vm_compute; reflexivity|]. discriminate.
Qed.
Print Assumptions C27_order_independent_refuted.

(** ... also when the two mentions are [T] and [Option<T>]. *)
Theorem C27_order_independent_option_refuted : exists E calls1 calls2 cx1 cx2,
  Permutation calls1 calls2 /\ names_unique E (call_sites calls1) /\
  mentions_return E calls1 cx_new cx1 /\ mentions_return E calls2 cx_new cx2 /\ cx1 <> cx2.
Proof.
  exists ex_env, [ex_call (TNamed 0); ex_call (TOption (TNamed 0))], [ex_call (TOption (TNamed 0)); ex_call (TNamed 0)].
  do 2 eexists. split; [constructor|]. split.
  - intros t1 t2 [H1 N1] [H2 N2] _.
    assert (Hin : forall t, type_name ex_env t <> None ->
      visited ex_env (call_sites [ex_call (TNamed 0); ex_call (TOption (TNamed 0))]) (SMention t false) -> owner t = Some 0).
    { intros t Hn Hv.
      apply (ex_visited _ [SMention (TNamed 0) false; SMention (TOption (TNamed 0)) false; SCall (TNamed 0);
               SMention (TPrim PI32) false]) in Hv; [|reflexivity..].
      cbn in Hv. destruct Hv as [[= <-]|[[= <-]|[[=]|[[= <-]|[]]]]]; auto. now elim Hn. }
    now rewrite (Hin t1), (Hin t2).
  - split; [exists 20; vm_compute; reflexivity|]. split; [exists 20; vm_compute; reflexivity|]. discriminate.
Qed.
Print Assumptions C27_order_independent_option_refuted.

(** Whenever no name is shared among the types linked, any order (indeed any calls mentioning the
    same types, whatever their parameters and multiplicity) leads to the same components. *)
Theorem C27_order_independent_partial : forall E calls1 calls2 cx,
  names_unambiguous E (call_sites calls1) ->
  Permutation calls1 calls2 ->
  mentions_return E calls1 cx_new cx -> mentions_return E calls2 cx_new cx.
Proof. exact history_permutation. Qed.
Print Assumptions C27_order_independent_partial.

Theorem C27_same_mentions_same_components_partial : forall E calls1 calls2 cx,
  names_unambiguous E (call_sites calls1) ->
  (forall t inline, (exists p, In {| mc_ty := t; mc_inline := inline; mc_params := p |} calls1) <->
                    (exists p, In {| mc_ty := t; mc_inline := inline; mc_params := p |} calls2)) ->
  mentions_return E calls1 cx_new cx -> mentions_return E calls2 cx_new cx.
Proof. exact history_same_mentions. Qed.
Print Assumptions C27_same_mentions_same_components_partial.

Lemma ex_line_unambiguous : names_unambiguous ex_env (call_sites [ex_call (TNamed 1); ex_call (TNamed 0)]).
Proof.
  intros t1 t2 [H1 N1] [H2 N2] Heq.
  apply (ex_visited _ ex_line_sites) in H1; [|reflexivity..].
  apply (ex_visited _ ex_line_sites) in H2; [|reflexivity..].
  cbn in H1, H2.
  repeat (destruct H1 as [[= <-]|H1] || destruct H1 as [[=]|H1]); try tauto;
  repeat (destruct H2 as [[= <-]|H2] || destruct H2 as [[=]|H2]); try tauto; cbn in *; try congruence;
  try (now elim N1); try (now elim N2); discriminate.
Qed.

Example C27_case : exists cx,
  names_unambiguous ex_env (call_sites [ex_call (TNamed 1); ex_call (TNamed 0)]) /\
  mentions_return ex_env [ex_call (TNamed 1); ex_call (TNamed 0)] cx_new cx /\
  registered cx (u "Point") /\ registered cx (u "Line").
Proof.
  eexists. split; [exact ex_line_unambiguous|]. split; [exists 20; vm_compute; reflexivity|].
  split; vm_compute; discriminate.
Qed.

(** ** C28: termination *)

(** [l] lists all types that [t] contains: Rust programs have finitely many types. *)
Theorem C28_returns_iff_not_recursive : forall E t l,
  (forall t', contains E t t' -> In t' l) ->
  names_unique E [SCall t] ->
  ((exists m cx', schema_returns E t cx_new m cx') <-> ~ recursive E t).
Proof. exact returns_iff_not_recursive. Qed.
Print Assumptions C28_returns_iff_not_recursive.

Theorem C28_recursive_types_never_return : forall E t,
  names_unique E [SCall t] -> recursive E t -> schema_diverges E t cx_new.
Proof. exact recursive_diverges. Qed.
Print Assumptions C28_recursive_types_never_return.

Theorem C28_non_recursive_types_return_everywhere : forall E t l,
  (forall t', contains E t t' -> In t' l) -> ~ recursive E t ->
  forall cx, exists m cx', schema_returns E t cx m cx'.
Proof. exact not_recursive_returns_everywhere. Qed.
Print Assumptions C28_non_recursive_types_return_everywhere.

Lemma ex_node_unique : names_unique ex_env [SCall (TNamed 2)].
Proof.
  intros t1 t2 [H1 N1] [H2 N2] _.
  apply (ex_visited _ [SCall (TNamed 2); SMention (TSeq KVec (TNamed 2)) false; SMention (TNamed 2) false]) in H1; [|reflexivity..].
  apply (ex_visited _ [SCall (TNamed 2); SMention (TSeq KVec (TNamed 2)) false; SMention (TNamed 2) false]) in H2; [|reflexivity..].
  cbn in H1, H2. destruct H1 as [[=]|[[= <-]|[[= <-]|[]]]]; try (now elim N1).
  destruct H2 as [[=]|[[= <-]|[[= <-]|[]]]]; try (now elim N2). reflexivity.
Qed.

Example C28_case_recursive : names_unique ex_env [SCall (TNamed 2)] /\ recursive ex_env (TNamed 2).
Proof.
  split; [exact ex_node_unique|]. left.
  eapply cont_more with (t1 := TSeq KVec (TNamed 2)).
  - exists (SMention (TSeq KVec (TNamed 2)) false). cbn. auto.
  - apply cont_one. exists (SMention (TNamed 2) false). cbn. auto.
Qed.

Example C28_case_finite : forall t', contains ex_env (TNamed 1) t' -> In t' (map site_ty ex_line_sites).
Proof.
  intros t' H. apply (contains_visited ex_env) in H as (s & Hs & <-).
  apply in_map. apply (ex_visited _ ex_line_sites) in Hs; [exact Hs|reflexivity..].
Qed.

Example C28_case_returns : exists m cx', schema_returns ex_env (TNamed 1) cx_new m cx'.
Proof. do 2 eexists. exists 20. vm_compute. reflexivity. Qed.

(** ** C29: a link leads to the schema of the type mentioned *)

(** False in general: two types of the same identifier. *)
Theorem C29_link_leads_to_own_schema_refuted : exists E calls cx t name m m' cx1 cx2,
  mentions_return E calls cx_new cx /\
  mention_returns E t false params_default cx (Link name) cx1 /\
  schema_returns E t cx m cx2 /\
  bm_get name (cx_schemas cx1) = Some m' /\ m' <> m.
Proof.
  exists ex_env, [ex_call (TNamed 0)], (ex_after [ex_call (TNamed 0)]), (TNamed 3), (u "Point").
  do 4 eexists. split; [exists 20; vm_compute; reflexivity|].
  split; [exists 20; vm_compute; reflexivity|].
  split; [exists 20; vm_compute; reflexivity|].
  split; [vm_compute; reflexivity|]. discriminate.
Qed.
Print Assumptions C29_link_leads_to_own_schema_refuted.

(** Whenever names are unambiguous: after any history of mentions, every type linked from it (directly
    or in the schema of another) is registered under its name with its own schema, which is also
    what generating it again in the final context gives; and nothing else is registered. *)
Theorem C29_links_lead_to_own_schema_partial : forall E calls cx t name,
  names_unambiguous E (call_sites calls) -> mentions_return E calls cx_new cx ->
  linked E (call_sites calls) t -> type_name E t = Some name ->
  exists m, bm_get name (cx_schemas cx) = Some m /\ forall cx0, exists cx1, schema_returns E t cx0 m cx1.
Proof. exact links_lead_to_own_schema. Qed.
Print Assumptions C29_links_lead_to_own_schema_partial.

Theorem C29_exactly_the_linked_types_are_registered_partial : forall E calls cx name,
  names_unambiguous E (call_sites calls) -> mentions_return E calls cx_new cx ->
  (registered cx name <-> exists t, linked E (call_sites calls) t /\ type_name E t = Some name).
Proof. exact registered_iff_linked. Qed.
Print Assumptions C29_exactly_the_linked_types_are_registered_partial.

(** Without any assumption on names: what is registered under a name is the schema of some type of
    that name that is linked from the history. *)
Theorem C29_registered_is_a_linked_schema_partial : forall E calls cx name m,
  mentions_return E calls cx_new cx -> bm_get name (cx_schemas cx) = Some m ->
  exists t cx0 cx1, linked E (call_sites calls) t /\ type_name E t = Some name /\ schema_returns E t cx0 m cx1.
Proof. exact registered_has_source. Qed.
Print Assumptions C29_registered_is_a_linked_schema_partial.

(** One mention, no assumption on names: if the name is free, it ends up leading to the schema. *)
Theorem C29_fresh_link_leads_to_own_schema : forall E t p cx name cx',
  ~ registered cx name -> mention_returns E t false p cx (Link name) cx' ->
  exists m cx1, schema_returns E t cx m cx1 /\ bm_get name (cx_schemas cx') = Some m.
Proof. exact fresh_link_own_schema. Qed.
Print Assumptions C29_fresh_link_leads_to_own_schema.

Example C29_case :
  linked ex_env (call_sites [ex_call (TNamed 1); ex_call (TNamed 0)]) (TWrap WBox (TNamed 0)) /\
  type_name ex_env (TWrap WBox (TNamed 0)) = Some (u "Point").
Proof.
  split; [|reflexivity]. split; [|discriminate].
  eapply vis_step with (s := SMention (TNamed 1) false).
  - constructor. now left.
  - cbn. auto.
Qed.

(** ** C30: Option *)

(** The schema of [Option<T>] is that of [T], with the same effect on the components; only the
    nullable mark is set, and only if [T]'s schema is of a single type (not a oneOf). *)
Theorem C30_option_sets_nullable_of_single_types_partial : forall E t cx m' cx',
  schema_returns E (TOption t) cx m' cx' <->
  exists m, schema_returns E t cx m cx' /\
    m_description m' = m_description m /\ kind_of m' = kind_of m /\ object_of m' = object_of m /\
    items_of m' = items_of m /\ alternatives_of m' = alternatives_of m /\
    enum_of m' = enum_of m /\ format_of m' = format_of m /\ example_of m' = example_of m /\
    nullable_of m' = (match nullable_of m with Some _ => Some true | None => None end).
Proof. exact option_schema. Qed.
Print Assumptions C30_option_sets_nullable_of_single_types_partial.

Theorem C30_option_is_nullable_refuted : exists E t m cx,
  schema_returns E (TOption t) cx_new m cx /\ nullable_of m <> Some true.
Proof.
  exists ex_env, (TOption (TNamed 4)). do 2 eexists. split; [exists 20; vm_compute; reflexivity|]. vm_compute. discriminate.
Qed.
Print Assumptions C30_option_is_nullable_refuted.

(** Through a link, nullability depends on what was mentioned first: field [b: Option<Point>] of Both
    refers to a component that is not nullable. *)
Theorem C30_linked_option_is_nullable_refuted : exists E cx m,
  mentions_return E [ex_call (TNamed 5)] cx_new cx /\
  (exists d o, bm_get (u "Both") (cx_schemas cx) = Some d /\ object_of d = Some o /\
               bm_get (u "b") (mo_properties o) = Some (Link (u "Point"))) /\
  bm_get (u "Point") (cx_schemas cx) = Some m /\ nullable_of m = Some false.
Proof.
  exists ex_env. do 2 eexists. split; [exists 20; vm_compute; reflexivity|].
  split; [do 2 eexists; repeat split; vm_compute; reflexivity|]. split; vm_compute; reflexivity.
Qed.
Print Assumptions C30_linked_option_is_nullable_refuted.

Example C30_case : exists m cx, schema_returns ex_env (TOption (TNamed 0)) cx_new m cx /\ nullable_of m = Some true.
Proof. do 2 eexists. split; [exists 20; vm_compute; reflexivity|]. reflexivity. Qed.

(** ** C31: wrappers are transparent *)
Theorem C31_wrappers_are_transparent : forall E w t,
  type_name E (TWrap w t) = type_name E t /\
  (forall cx m cx', schema_returns E (TWrap w t) cx m cx' <-> schema_returns E t cx m cx') /\
  (forall inline p cx r cx', mention_returns E (TWrap w t) inline p cx r cx' <-> mention_returns E t inline p cx r cx').
Proof. exact wrappers_transparent. Qed.
Print Assumptions C31_wrappers_are_transparent.

Example C31_case : exists r cx,
  mention_returns ex_env (TWrap WBox (TWrap WRef (TNamed 1))) false params_default cx_new r cx /\ r = Link (u "Line").
Proof. do 2 eexists. split; [exists 20; vm_compute; reflexivity|reflexivity]. Qed.

(** ** C32: inline mentions carry the parameters, links never do *)
Theorem C32_named_mention_is_a_link : forall E t p cx name,
  type_name E t = Some name ->
  forall r cx', mention_returns E t false p cx r cx' <->
    r = Link name /\
    (registered cx name /\ cx' = cx \/
     ~ registered cx name /\ exists m cx1, schema_returns E t cx m cx1 /\ cx' = cx_insert_schema name m cx1).
Proof. exact named_mention. Qed.
Print Assumptions C32_named_mention_is_a_link.

Theorem C32_link_ignores_params : forall E t p q cx r cx' name,
  type_name E t = Some name ->
  (mention_returns E t false p cx r cx' <-> mention_returns E t false q cx r cx').
Proof. exact link_ignores_params. Qed.
Print Assumptions C32_link_ignores_params.

Theorem C32_inline_mention_applies_params : forall E t inline p cx r cx',
  inline = true \/ type_name E t = None ->
  (mention_returns E t inline p cx r cx' <->
   exists m, schema_returns E t cx m cx' /\ r = Inline (apply_params p m)).
Proof. exact inline_mention. Qed.
Print Assumptions C32_inline_mention_applies_params.

Example C32_case : exists m cx,
  mention_returns ex_env (TNamed 0) true (Build_params (Some (u "here")) None None None None) cx_new (Inline m) cx /\
  m_description m = Some (u "here") /\ ~ registered cx (u "Point").
Proof. do 2 eexists. split; [exists 20; vm_compute; reflexivity|]. split; [reflexivity|vm_compute; tauto]. Qed.

(** ** C38: generated components verify *)
Theorem C38_generated_components_verify : forall E calls cx,
  mentions_return E calls cx_new cx ->
  verify_schemas (cx_schemas cx) = None /\ links_closed (cx_schemas cx).
Proof. exact history_verifies. Qed.
Print Assumptions C38_generated_components_verify.

Example C38_case : verify_schemas (cx_schemas (ex_after [ex_call (TNamed 1); ex_call (TNamed 5)])) = None /\
  bm_keys (cx_schemas (ex_after [ex_call (TNamed 1); ex_call (TNamed 5)])) = [u "Both"; u "Line"; u "Point"].
Proof. split; vm_compute; reflexivity. Qed.
