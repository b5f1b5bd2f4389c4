(** The property theorems of PropGen.v, assembled. *)
From Verif Require Import Schema SchemaSpec SchemaFacts Gen GenSpec GenFacts GenFacts2 GenFacts3.
From Coq Require Import Permutation.

Fixpoint ty_eq_dec (t1 t2 : ty) : {t1 = t2} + {t1 <> t2}.
Proof. repeat decide equality. Defined.
Definition site_eq_dec (s1 s2 : site) : {s1 = s2} + {s1 <> s2}.
Proof. decide equality; try apply ty_eq_dec; decide equality. Defined.

Section Props.
  Variable E : env.

  Lemma visited_in_list roots l :
    forallb (fun s => existsb (fun s' => if site_eq_dec s s' then true else false) l) roots = true ->
    forallb (fun s => forallb (fun s1 => existsb (fun s' => if site_eq_dec s1 s' then true else false) l)
                        (sites_of E (site_ty s))) l = true ->
    forall s, visited E roots s -> In s l.
  Proof.
    intros H1 H2.
    assert (Hex : forall s, existsb (fun s' => if site_eq_dec s s' then true else false) l = true -> In s l).
    { intros s H. apply existsb_exists in H as (s' & Hin & Hs). destruct (site_eq_dec s s'); congruence. }
    rewrite forallb_forall in H1, H2. induction 1 as [s Hs | s s' Hv IH Hs']; auto.
    apply H2 in IH. rewrite forallb_forall in IH. auto.
  Qed.

  Lemma contains_visited t t' : contains E t t' -> exists s, visited E [SCall t] s /\ site_ty s = t'.
  Proof.
    intros H. assert (Hgen : forall s0, visited E [SCall t] s0 -> forall t', contains E (site_ty s0) t' ->
      exists s, visited E [SCall t] s /\ site_ty s = t').
    { clear. intros s0 Hv t' H. remember (site_ty s0) as t0 eqn:Et. revert s0 Hv Et.
      induction H as [t0 t' (s & Hs & <-) | t0 t1 t' (s & Hs & <-) Hc IH]; intros s0 Hv ->.
      - exists s. split; auto. eapply vis_step; eauto.
      - apply (IH s); auto. eapply vis_step; eauto. }
    apply (Hgen (SCall t)); auto. constructor. now left.
  Qed.

  Lemma mention_no_dangling t i p cx r cx' : links_closed (cx_schemas cx) -> mention_returns E t i p cx r cx' ->
    links_closed (cx_schemas cx') /\ (forall l, occurs l r -> registered cx' l).
  Proof.
    intros Hc [f H]. split.
    - eapply mention_closed; eauto.
    - eapply mention_links'; eauto.
  Qed.

  Lemma schema_no_dangling t cx m cx' : links_closed (cx_schemas cx) -> schema_returns E t cx m cx' ->
    links_closed (cx_schemas cx') /\ (forall l, occurs_in l m -> registered cx' l).
  Proof.
    intros Hc [f H]. split.
    - eapply get_schema_closed; eauto.
    - eapply get_schema_links; eauto.
  Qed.

  Lemma history_no_dangling calls cx : mentions_return E calls cx_new cx -> links_closed (cx_schemas cx).
  Proof. intros [f H]. eapply mention_all_closed; eauto using closed_new. Qed.

  Lemma history_verifies calls cx : mentions_return E calls cx_new cx ->
    verify_schemas (cx_schemas cx) = None /\ links_closed (cx_schemas cx).
  Proof.
    intros [f H]. pose proof (mention_all_closed _ _ _ _ _ H closed_new) as Hc. split; auto.
    apply verify_closed; auto. apply (mention_all_wf _ _ _ _ _ H wf_new).
  Qed.

  Lemma add_model_first name m cx : bm_get name (cx_schemas (add_model name m cx)) =
    match bm_get name (cx_schemas cx) with Some old => Some old | None => Some m end.
  Proof.
    unfold add_model, bm_mem. destruct (bm_get name (cx_schemas cx)) eqn:Eg; auto.
    cbn. now rewrite bm_get_insert_eq.
  Qed.

  Lemma security_first name s cx :
    fst (mention_security_scheme name s cx) = name /\
    bm_get name (cx_security (snd (mention_security_scheme name s cx))) =
      match bm_get name (cx_security cx) with Some old => Some old | None => Some s end.
  Proof.
    unfold mention_security_scheme, bm_mem. cbn. split; auto.
    destruct (bm_get name (cx_security cx)) eqn:Eg; auto. cbn. now rewrite bm_get_insert_eq.
  Qed.

  Lemma history_permutation calls1 calls2 cx : names_unambiguous E (call_sites calls1) ->
    Permutation calls1 calls2 ->
    mentions_return E calls1 cx_new cx -> mentions_return E calls2 cx_new cx.
  Proof.
    intros Hu Hp. apply history_order_free; auto. intros s.
    assert (Hps : Permutation (call_sites calls1) (call_sites calls2)) by now apply Permutation_map.
    split; apply Permutation_in; auto. now symmetry.
  Qed.

  Lemma history_same_mentions calls1 calls2 cx : names_unambiguous E (call_sites calls1) ->
    (forall t inline, (exists p, In {| mc_ty := t; mc_inline := inline; mc_params := p |} calls1) <->
                      (exists p, In {| mc_ty := t; mc_inline := inline; mc_params := p |} calls2)) ->
    mentions_return E calls1 cx_new cx -> mentions_return E calls2 cx_new cx.
  Proof.
    intros Hu Hs. apply history_order_free; auto. intros s.
    assert (Hgen : forall calls, In s (call_sites calls) <->
      exists t i, s = SMention t i /\ exists p, In {| mc_ty := t; mc_inline := i; mc_params := p |} calls).
    { intros calls. unfold call_sites. rewrite in_map_iff. split.
      - intros ([t i p] & <- & Hin). cbn. eauto 6.
      - intros (t & i & -> & p & Hin). eexists; split; [|exact Hin]. reflexivity. }
    rewrite !Hgen. split; intros (t & i & He & Hp); exists t, i; split; auto; apply Hs; auto.
  Qed.

  Lemma returns_iff_not_recursive t l : (forall t', contains E t t' -> In t' l) ->
    names_unique E [SCall t] ->
    ((exists m cx', schema_returns E t cx_new m cx') <-> ~ recursive E t).
  Proof.
    intros Hf Hu. split.
    - intros (m & cx' & [f H]) Hr. now rewrite (recursive_diverges E t Hu Hr f) in H.
    - intros Hr. eapply not_recursive_returns; eauto.
  Qed.

  Lemma not_recursive_returns_everywhere t l : (forall t', contains E t t' -> In t' l) -> ~ recursive E t ->
    forall cx, exists m cx', schema_returns E t cx m cx'.
  Proof. intros Hf Hr cx. eapply not_recursive_returns; eauto. Qed.

  Lemma links_lead_to_own_schema calls cx t name :
    names_unambiguous E (call_sites calls) -> mentions_return E calls cx_new cx ->
    linked E (call_sites calls) t -> type_name E t = Some name ->
    exists m, bm_get name (cx_schemas cx) = Some m /\ forall cx0, exists cx1, schema_returns E t cx0 m cx1.
  Proof.
    intros Hu H Hl Hn. destruct (history_exact E _ _ Hu H) as (_ & Hm & _).
    destruct (Hm _ _ Hl Hn) as (m & H1 & _ & H2). eauto.
  Qed.

  Lemma registered_iff_linked calls cx name :
    names_unambiguous E (call_sites calls) -> mentions_return E calls cx_new cx ->
    (registered cx name <-> exists t, linked E (call_sites calls) t /\ type_name E t = Some name).
  Proof. intros Hu H. now destruct (history_exact E _ _ Hu H) as (Hd & _). Qed.

  Lemma registered_has_source calls cx name m :
    mentions_return E calls cx_new cx -> bm_get name (cx_schemas cx) = Some m ->
    exists t cx0 cx1, linked E (call_sites calls) t /\ type_name E t = Some name /\ schema_returns E t cx0 m cx1.
  Proof. intros [f H]. rewrite mention_all_exec in H. eapply exec_roots_source; eauto. Qed.

  Lemma fresh_link_own_schema t p cx name cx' :
    ~ registered cx name -> mention_returns E t false p cx (Link name) cx' ->
    exists m cx1, schema_returns E t cx m cx1 /\ bm_get name (cx_schemas cx') = Some m.
  Proof.
    intros Hn H. rewrite mention_returns_iff in H. destruct (link_name E t false) as [n|].
    - destruct H as [[= ->] [[Hr _]|[_ (m & cx1 & Hs & ->)]]]; [contradiction|].
      exists m, cx1. split; auto. cbn. apply bm_get_insert_eq.
    - destruct H as (m & _ & [=]).
  Qed.

  Lemma option_schema t cx m' cx' :
    schema_returns E (TOption t) cx m' cx' <->
    exists m, schema_returns E t cx m cx' /\
      m_description m' = m_description m /\ kind_of m' = kind_of m /\ object_of m' = object_of m /\
      items_of m' = items_of m /\ alternatives_of m' = alternatives_of m /\
      enum_of m' = enum_of m /\ format_of m' = format_of m /\ example_of m' = example_of m /\
      nullable_of m' = match nullable_of m with Some _ => Some true | None => None end.
  Proof.
    rewrite option_returns.
    assert (Hf : forall m, m_description (apply_params nullable_params m) = m_description m /\
      kind_of (apply_params nullable_params m) = kind_of m /\
      object_of (apply_params nullable_params m) = object_of m /\
      items_of (apply_params nullable_params m) = items_of m /\
      alternatives_of (apply_params nullable_params m) = alternatives_of m /\
      enum_of (apply_params nullable_params m) = enum_of m /\
      format_of (apply_params nullable_params m) = format_of m /\
      example_of (apply_params nullable_params m) = example_of m /\
      nullable_of (apply_params nullable_params m) = match nullable_of m with Some _ => Some true | None => None end).
    { intros [d [ [n [s|s|s| |r|o] ] |l|l|l] ]; cbn; repeat split; destruct s as [? ?]; reflexivity || (destruct s; reflexivity). }
    split.
    - intros (m & H & ->). exists m. split; auto.
    - intros (m & H & H1 & H2 & H3 & H4 & H5 & H6 & H7 & H8 & H9). exists m. split; auto.
      destruct (Hf m) as (F1 & F2 & F3 & F4 & F5 & F6 & F7 & F8 & F9).
      apply facets_complete; congruence.
  Qed.

  Lemma wrappers_transparent w t :
    type_name E (TWrap w t) = type_name E t /\
    (forall cx m cx', schema_returns E (TWrap w t) cx m cx' <-> schema_returns E t cx m cx') /\
    (forall inline p cx r cx', mention_returns E (TWrap w t) inline p cx r cx' <-> mention_returns E t inline p cx r cx').
  Proof.
    split; [reflexivity|]. split; [intros; apply wrap_returns|]. intros i p cx r cx'.
    rewrite !mention_returns_iff. unfold link_name. cbn [type_name].
    destruct (if i then None else type_name E t) as [n|].
    - setoid_rewrite wrap_returns. reflexivity.
    - setoid_rewrite wrap_returns. reflexivity.
  Qed.

  Lemma named_mention t p cx name : type_name E t = Some name ->
    forall r cx', mention_returns E t false p cx r cx' <->
      r = Link name /\
      (registered cx name /\ cx' = cx \/
       ~ registered cx name /\ exists m cx1, schema_returns E t cx m cx1 /\ cx' = cx_insert_schema name m cx1).
  Proof. intros Hn r cx'. rewrite mention_returns_iff. unfold link_name. now rewrite Hn. Qed.

  Lemma link_ignores_params t p q cx r cx' name : type_name E t = Some name ->
    (mention_returns E t false p cx r cx' <-> mention_returns E t false q cx r cx').
  Proof. intros Hn. now rewrite !(named_mention t _ _ _ Hn). Qed.

  Lemma inline_mention t inline p cx r cx' : inline = true \/ type_name E t = None ->
    (mention_returns E t inline p cx r cx' <->
     exists m, schema_returns E t cx m cx' /\ r = Inline (apply_params p m)).
  Proof.
    intros H. rewrite mention_returns_iff. unfold link_name.
    destruct H as [->| ->]; [reflexivity|]. destruct inline; reflexivity.
  Qed.
End Props.
