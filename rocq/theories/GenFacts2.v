(** Proofs about schema generation: invariants of the components. *)
From Verif Require Import Schema SchemaSpec SchemaFacts Gen GenSpec GenFacts.

Section Inv.
  Variable E : env.

  (** ** A principle for state invariants *)
  Section Principle.
    Variable R : components -> components -> Prop.
    Hypothesis R_refl : forall cx, R cx cx.
    Hypothesis R_trans : forall cx1 cx2 cx3, R cx1 cx2 -> R cx2 cx3 -> R cx1 cx3.
    Hypothesis R_insert : forall n t f m cx cx', bm_get n (cx_schemas cx) = None -> R cx cx' ->
      get_schema E f t cx = Ok (m, cx') -> R cx (cx_insert_schema n m cx').

    Lemma mention_inv f t i p cx r cx' :
      (forall t cx m cx', get_schema E f t cx = Ok (m, cx') -> R cx cx') ->
      mention_schema E (get_schema E f) t i p cx = Ok (r, cx') -> R cx cx'.
    Proof.
      intros IH. rewrite mention_schema_eq. destruct (link_name E t i) as [n|].
      - unfold bm_mem. destruct (bm_get n (cx_schemas cx)) eqn:Eg; intros H; binds; auto.
        eapply R_insert; eauto.
      - intros H; binds; eauto.
    Qed.

    Lemma exec_site_inv f s cx cx' :
      (forall t cx m cx', get_schema E f t cx = Ok (m, cx') -> R cx cx') ->
      exec_site E (get_schema E f) s cx = Ok cx' -> R cx cx'.
    Proof.
      intros IH. destruct s as [t i|t]; cbn; intros H; binds.
      - eapply mention_inv; eauto.
      - eauto.
    Qed.

    Lemma get_schema_inv f : forall t cx m cx', get_schema E f t cx = Ok (m, cx') -> R cx cx'.
    Proof.
      induction f as [|f IH]; intros t cx m cx' H; [discriminate|].
      apply get_schema_sites in H. eapply exec_sites_inv in H; eauto.
      intros s _ cx1 cx2. now apply exec_site_inv.
    Qed.

    Lemma mention_all_inv f l : forall cx cx', mention_all E f l cx = Ok cx' -> R cx cx'.
    Proof.
      induction l as [|c l IH]; intros cx cx'; cbn; intros H; binds; auto.
      eapply R_trans; [|eapply IH; eassumption]. eapply mention_inv; [|eassumption]. intros; eapply get_schema_inv; eauto.
    Qed.
  End Principle.

  (** ** Nothing registered is lost or changed *)

  Definition grows (cx cx' : components) : Prop :=
    extends cx cx' /\ cx_security cx = cx_security cx'.

  Lemma extends_refl cx : extends cx cx.
  Proof. split; auto. Qed.
  Lemma extends_trans cx1 cx2 cx3 : extends cx1 cx2 -> extends cx2 cx3 -> extends cx1 cx3.
  Proof. intros [H1 H2] [H3 H4]. split; auto. Qed.

  Lemma extends_registered cx cx' n : extends cx cx' -> registered cx n -> registered cx' n.
  Proof.
    intros [H _]. unfold registered. destruct (bm_get n (cx_schemas cx)) eqn:Eg; [|congruence].
    intros _. rewrite (H _ _ Eg). discriminate.
  Qed.

  Lemma extends_insert n m cx cx' :
    bm_get n (cx_schemas cx) = None -> extends cx cx' -> extends cx (cx_insert_schema n m cx').
  Proof.
    intros Hn [H1 H2]. split; auto. cbn. intros k m' Hk.
    rewrite bm_get_insert_neq; auto. intros ->. congruence.
  Qed.

  Lemma get_schema_grows f t cx m cx' : get_schema E f t cx = Ok (m, cx') -> grows cx cx'.
  Proof.
    apply get_schema_inv.
    - split; auto using extends_refl.
    - intros cx1 cx2 cx3 [H1 H2] [H3 H4]. split; eauto using extends_trans, eq_trans.
    - intros n t' f' m' cx1 cx2 Hn [H1 H2] _. split; auto using extends_insert.
  Qed.

  Lemma mention_grows f t i p cx r cx' : mention_schema E (get_schema E f) t i p cx = Ok (r, cx') -> grows cx cx'.
  Proof.
    apply mention_inv.
    - split; auto using extends_refl.
    - intros n t' f' m' cx1 cx2 Hn [H1 H2] _. split; auto using extends_insert.
    - intros. eapply get_schema_grows; eauto.
  Qed.

  Lemma exec_site_grows f s cx cx' : exec_site E (get_schema E f) s cx = Ok cx' -> grows cx cx'.
  Proof.
    apply exec_site_inv.
    - split; auto using extends_refl.
    - intros n t' f' m' cx1 cx2 Hn [H1 H2] _. split; auto using extends_insert.
    - intros. eapply get_schema_grows; eauto.
  Qed.

  Lemma exec_sites_grows f l cx cx' : exec_sites E (get_schema E f) l cx = Ok cx' -> grows cx cx'.
  Proof.
    apply exec_sites_inv.
    - split; auto using extends_refl.
    - intros cx1 cx2 cx3 [H1 H2] [H3 H4]. split; eauto using extends_trans, eq_trans.
    - intros. eapply exec_site_grows; eauto.
  Qed.

  Lemma wf_insert n m cx : wf_cx cx -> wf_cx (cx_insert_schema n m cx).
  Proof. intros [H1 H2]. split; cbn; auto. now apply bm_insert_sorted. Qed.

  Lemma get_schema_wf f t cx m cx' : get_schema E f t cx = Ok (m, cx') -> wf_cx cx -> wf_cx cx'.
  Proof.
    apply (get_schema_inv (fun a b => wf_cx a -> wf_cx b)); auto.
    intros n t' f' m' cx1 cx2 _ H _ Hw. now apply wf_insert, H.
  Qed.

  Lemma mention_wf f t i p cx r cx' : mention_schema E (get_schema E f) t i p cx = Ok (r, cx') -> wf_cx cx -> wf_cx cx'.
  Proof.
    apply (mention_inv (fun a b => wf_cx a -> wf_cx b)); auto.
    - intros n t' f' m' cx1 cx2 _ H _ Hw. now apply wf_insert, H.
    - intros. eapply get_schema_wf; eauto.
  Qed.

  (** any history of calls *)
  Lemma cx_step_extends cx cx' : cx_step E cx cx' -> extends cx cx'.
  Proof.
    destruct 1 as [t i p cx r cx' [f H] | t cx m cx' [f H] | name m cx | name s cx].
    - now apply mention_grows in H as [H _].
    - now apply get_schema_grows in H as [H _].
    - unfold add_model, bm_mem. destruct (bm_get name (cx_schemas cx)) eqn:Eg.
      + apply extends_refl.
      + apply extends_insert; auto using extends_refl.
    - cbn. unfold bm_mem. destruct (bm_get name (cx_security cx)) eqn:Eg.
      + apply extends_refl.
      + split; auto. cbn. intros k s' Hk. rewrite bm_get_insert_neq; auto. intros ->. congruence.
  Qed.

  Lemma cx_steps_extends cx cx' : cx_steps E cx cx' -> extends cx cx'.
  Proof. induction 1; eauto using extends_refl, extends_trans, cx_step_extends. Qed.

  Lemma cx_step_wf cx cx' : cx_step E cx cx' -> wf_cx cx -> wf_cx cx'.
  Proof.
    destruct 1 as [t i p cx r cx' [f H] | t cx m cx' [f H] | name m cx | name s cx].
    - eapply mention_wf; eauto.
    - eapply get_schema_wf; eauto.
    - unfold add_model. destruct (bm_mem name (cx_schemas cx)); auto using wf_insert.
    - cbn. destruct (bm_mem name (cx_security cx)); auto. intros [H1 H2]. split; cbn; auto.
      now apply bm_insert_sorted.
  Qed.

  Lemma cx_steps_wf cx cx' : cx_steps E cx cx' -> wf_cx cx -> wf_cx cx'.
  Proof. induction 1; eauto using cx_step_wf. Qed.

  (** ** Every link of a returned schema is registered *)

  Lemma bm_insert_In' {V} (k : str) (v : V) m k0 v0 : In (k0, v0) (bm_insert k v m) -> v0 = v \/ In (k0, v0) m.
  Proof. intros H. apply bm_insert_In in H as [[_ ->]|H]; auto. Qed.

  Lemma child_object r d n p a q :
    child r (Model d (Single (MType n (TdObject (MObject p a q))))) <->
    (exists k, In (k, r) p) \/ a = Some r.
  Proof.
    split.
    - inversion 1; subst; eauto.
    - intros [[k Hk]| ->]; [eapply ch_prop; eauto | constructor].
  Qed.

  Lemma merge_props_In p q k r : In (k, r) (fst (merge_props p q)) -> In (k, r) p \/ In (k, r) q.
  Proof.
    revert p; induction q as [|[k' r'] q IH]; intros p; cbn [merge_props]; auto.
    destruct (bm_mem k' p); cbn [fst]; auto. intros H. apply IH in H as [H|H]; [|right; now right].
    apply bm_insert_In in H as [[-> ->]|H]; auto. right. now left.
  Qed.

  Lemma child_merge r m1 m2 : child r (fst (try_merge m1 m2)) -> child r m1 \/ child r m2.
  Proof.
    destruct m1 as [d1 [ [n1 [s1|s1|s1| |r1| [p1 a1 q1] ] ] | l1 | l1 | l1 ] ]; cbn; auto.
    destruct m2 as [d2 [ [n2 [s2|s2|s2| |r2| [p2 a2 q2] ] ] | l2 | l2 | l2 ] ]; cbn; auto.
    pose proof (merge_props_In p1 p2) as Hin.
    destruct (merge_props p1 p2) as [p' [|]]; cbn in *; rewrite !child_object.
    - intros [[k Hk]|Ha]; auto. apply Hin in Hk as [Hk|Hk]; eauto.
    - intros [[k Hk]|Ha]; auto. apply Hin in Hk as [Hk|Hk]; eauto.
  Qed.

  Lemma tag_model_no_links l tag v id n : ~ occurs_in l (tag_model tag v id n).
  Proof.
    intros (r & Hc & Ho). unfold tag_model, mk_single in Hc. cbn in Hc.
    apply child_object in Hc as [[k [Hk|[]]]|Hk]; [|discriminate]. injection Hk as <- <-.
    inversion Ho; subst. inversion H0.
  Qed.

  Lemma occurs_in_merge_tag l m tag v id n :
    occurs_in l (fst (try_merge m (tag_model tag v id n))) -> occurs_in l m.
  Proof.
    intros (r & Hc & Ho). apply child_merge in Hc as [Hc|Hc].
    - exists r; auto.
    - exfalso. eapply tag_model_no_links. exists r. eauto.
  Qed.

  Lemma occurs_inline l m : occurs l (Inline m) <-> occurs_in l m.
  Proof.
    split.
    - inversion 1; subst. exists r; auto.
    - intros (r & H1 & H2). econstructor; eauto.
  Qed.

  Lemma prim_no_links l p : ~ occurs_in l (prim_schema p).
  Proof. intros (r & Hc & _). destruct p; inversion Hc. Qed.

  Lemma const_no_links l d n c : ~ occurs_in l (Model d (Single (MType n (const_td c)))).
  Proof. intros (r & Hc & _). destruct c; inversion Hc. Qed.

  Definition links_registered (gs : ty -> components -> res (model * components)) : Prop :=
    forall t cx m cx', gs t cx = Ok (m, cx') -> forall l, occurs_in l m -> registered cx' l.

  Section EvalLinks.
    Variable gs : ty -> components -> res (model * components).
    Hypothesis gs_links : links_registered gs.
    Hypothesis gs_mention_ext : forall t i p cx r cx', mention_schema E gs t i p cx = Ok (r, cx') -> extends cx cx'.
    Hypothesis gs_ext : forall l cx cx', exec_sites E gs l cx = Ok cx' -> extends cx cx'.

    Lemma mention_links t i p cx r cx' :
      mention_schema E gs t i p cx = Ok (r, cx') -> forall l, occurs l r -> registered cx' l.
    Proof.
      rewrite mention_schema_eq. destruct (link_name E t i) as [n|].
      - unfold bm_mem. destruct (bm_get n (cx_schemas cx)) eqn:Eg; intros H; binds; intros l Hl; inversion Hl; subst.
        + unfold registered. congruence.
        + unfold registered, cx_insert_schema. cbn. rewrite bm_get_insert_eq. discriminate.
      - intros H; binds. intros l Hl. rewrite occurs_inline, occurs_in_apply_params in Hl. eapply gs_links; eauto.
    Qed.

    Lemma eval_vec_links {A} (f : A -> components -> res (model_ref * components)) l :
      (forall a cx r cx', f a cx = Ok (r, cx') -> extends cx cx') ->
      Forall (fun a => forall cx r cx', f a cx = Ok (r, cx') -> forall l, occurs l r -> registered cx' l) l ->
      forall cx rs cx', eval_vec f l cx = Ok (rs, cx') ->
        extends cx cx' /\ forall r n, In r rs -> occurs n r -> registered cx' n.
    Proof.
      intros Hext. induction 1 as [|a l Ha Hl IH]; intros cx rs cx'; cbn; intros H; binds.
      - split; [apply extends_refl|]. intros ? ? [].
      - match goal with A : f a _ = Ok _, B : eval_vec f l _ = Ok _ |- _ =>
          pose proof (Hext _ _ _ _ A) as X1; destruct (IH _ _ _ B) as [X2 X3]; pose proof (Ha _ _ _ A) as X4 end.
        split; [eapply extends_trans; eauto|].
        intros r n [<-|Hin] Ho; eauto using extends_registered.
    Qed.

    Lemma eval_r_ext c cx r cx' : eval_r E gs c cx = Ok (r, cx') -> extends cx cx'.
    Proof.
      intros H. apply (gs_ext (sites_r c)). rewrite <- (proj1 (eval_state E gs)). now rewrite H.
    Qed.

    Lemma eval_links :
      (forall c cx r cx', eval_r E gs c cx = Ok (r, cx') -> forall l, occurs l r -> registered cx' l) /\
      (forall c cx m cx', eval_m E gs c cx = Ok (m, cx') -> forall l, occurs_in l m -> registered cx' l) /\
      (forall c cx d cx', eval_d E gs c cx = Ok (d, cx') -> forall l o, occurs_in l (Model o d) -> registered cx' l) /\
      (forall c cx td cx', eval_t E gs c cx = Ok (td, cx') ->
         forall l o n, occurs_in l (Model o (Single (MType n td))) -> registered cx' l).
    Proof.
      apply code_ind.
      - intros cx r cx' H. rewrite er_any in H. binds. intros l Hl. inversion Hl.
      - intros c IH cx r cx' H. rewrite er_inline in H. binds. intros l Hl. apply occurs_inline in Hl. eauto.
      - intros t i p cx r cx' H. rewrite er_mention in H. eapply mention_links; eauto.
      - intros c tag v id n IH cx r cx' H. rewrite er_tagged in H. binds.
        intros l Hl. rewrite occurs_inline in Hl; apply occurs_in_merge_tag in Hl. eauto.
      - intros t p cx r cx' H. rewrite em_with in H. binds. intros l Hl.
        rewrite occurs_in_apply_params in Hl. eapply gs_links; eauto.
      - intros d c IH cx r cx' H. rewrite em_model in H. binds. intros l Hl. eauto.
      - intros l Hl cx r cx' H. rewrite ed_oneof in H. binds. intros n o (r & Hc & Ho). inversion Hc; subst.
        match goal with A : eval_vec _ _ _ = Ok _ |- _ =>
          destruct (eval_vec_links (eval_r E gs) l eval_r_ext Hl _ _ _ A) as [_ X] end. eauto.
      - intros n c IH cx r cx' H. rewrite ed_single in H. binds. intros l o Hl. eauto.
      - intros c cx r cx' H. rewrite et_const in H. binds. intros l o n Hl. exfalso. eapply const_no_links; eauto.
      - intros c IH cx r cx' H. rewrite et_array in H. binds. intros l o n (r & Hc & Ho). inversion Hc; subst. eauto.
      - intros l Hl cx td cx' H. rewrite et_object in H. apply bind_Ok in H as ([[pr rq] cx1] & H & H1). binds.
        assert (Hs : forall pr0 rq0 cx,
                  (forall k r n, In (k, r) pr0 -> occurs n r -> registered cx n) ->
                  forall pr rq cx', eval_stmts (eval_r E gs) l pr0 rq0 cx = Ok ((pr, rq), cx') ->
                  forall k r n, In (k, r) pr -> occurs n r -> registered cx' n).
        { clear - Hl gs_ext. induction Hl as [|[[k c] b] l Hc Hl IH]; intros pr0 rq0 cx H0 pr rq cx'; cbn [eval_stmts];
            intros H; binds; auto. cbn in Hc.
          match goal with A : eval_r _ _ _ _ = Ok _ |- _ =>
            pose proof (eval_r_ext _ _ _ _ A) as X1; pose proof (Hc _ _ _ A) as X2 end.
          eapply IH; [|eassumption]. intros k0 r0 n0 Hin Ho. apply bm_insert_In' in Hin as [->|Hin]; eauto using extends_registered. }
        intros n o nl (r & Hc & Ho). apply child_object in Hc as [[k Hk]|Hk]; [|discriminate].
        eapply Hs; eauto. intros ? ? ? [].
      - intros c IH cx r cx' H. rewrite et_dict in H. binds. intros l o n (r & Hc & Ho).
        apply child_object in Hc as [[k []]|Hk]. injection Hk as <-. eauto.
    Qed.
  End EvalLinks.

  Lemma get_schema_links f : links_registered (get_schema E f).
  Proof.
    induction f as [|f IH]; intros t cx m cx' H; [discriminate|]. cbn [get_schema] in H.
    assert (Hext : forall l cx cx', exec_sites E (get_schema E f) l cx = Ok cx' -> extends cx cx')
      by (intros l0 c0 c0' Hx; now apply exec_sites_grows in Hx as [? _]).
    assert (Hm : forall t i p cx r cx', mention_schema E (get_schema E f) t i p cx = Ok (r, cx') -> extends cx cx')
      by (intros t0 i0 p0 c0 r0 c0' Hx; now apply mention_grows in Hx as [? _]).
    destruct t; cbn [schema_step] in H.
    - binds. intros l Hl. exfalso. eapply prim_no_links; eauto.
    - eapply IH; eauto.
    - unfold get_schema_with_params in H. binds. intros l Hl. rewrite occurs_in_apply_params in Hl. eapply IH; eauto.
    - binds. intros nm (r & Hc & Ho). unfold mk_single in Hc. inversion Hc; subst. apply occurs_inline in Ho as (r & Hc' & Ho).
      inversion Hc'; subst.
      match goal with A : eval_vec _ _ _ = Ok _ |- _ => eapply eval_vec_links in A as [_ A] end; [eauto| |].
      + cbn. intros. eapply Hm; eauto.
      + apply Forall_forall. intros. eapply mention_links; eauto.
    - binds. intros nm (r & Hc & Ho). inversion Hc; subst. eapply mention_links; eauto.
    - binds. intros nm (r & Hc & Ho). apply child_object in Hc as [[k0 []]|Hk]. injection Hk as <-.
      eapply mention_links; eauto.
    - eapply (proj1 (proj2 (eval_links _ IH Hext))); eauto.
  Qed.

  Lemma mention_links' f t i p cx r cx' :
    mention E f t i p cx = Ok (r, cx') -> forall l, occurs l r -> registered cx' l.
  Proof. apply mention_links, get_schema_links. Qed.

  (** ** Closed components stay closed *)

  Lemma closed_insert n m cx : links_closed (cx_schemas cx) ->
    (forall l, occurs_in l m -> registered cx l) -> links_closed (cx_schemas (cx_insert_schema n m cx)).
  Proof.
    intros Hc Hm k m' l. cbn. intros Hk Hl.
    assert (Hreg : registered cx l).
    { destruct (str_eq_dec k n) as [->|Hne].
      - rewrite bm_get_insert_eq in Hk. injection Hk as <-. auto.
      - rewrite bm_get_insert_neq in Hk by assumption. eapply Hc; eauto. }
    destruct (str_eq_dec l n) as [->|Hne].
    - rewrite bm_get_insert_eq. discriminate.
    - rewrite bm_get_insert_neq by assumption. exact Hreg.
  Qed.

  Lemma get_schema_closed f t cx m cx' : get_schema E f t cx = Ok (m, cx') ->
    links_closed (cx_schemas cx) -> links_closed (cx_schemas cx').
  Proof.
    apply (get_schema_inv (fun a b => links_closed (cx_schemas a) -> links_closed (cx_schemas b))); auto.
    intros n t' f' m' cx1 cx2 _ H Hs Hc. apply closed_insert; auto. eapply get_schema_links; eauto.
  Qed.

  Lemma mention_closed f t i p cx r cx' : mention_schema E (get_schema E f) t i p cx = Ok (r, cx') ->
    links_closed (cx_schemas cx) -> links_closed (cx_schemas cx').
  Proof.
    apply (mention_inv (fun a b => links_closed (cx_schemas a) -> links_closed (cx_schemas b))); auto.
    - intros n t' f' m' cx1 cx2 _ H Hs Hc. apply closed_insert; auto. eapply get_schema_links; eauto.
    - intros. eapply get_schema_closed; eauto.
  Qed.

  Lemma mention_all_closed f l cx cx' : mention_all E f l cx = Ok cx' ->
    links_closed (cx_schemas cx) -> links_closed (cx_schemas cx').
  Proof.
    apply (mention_all_inv (fun a b => links_closed (cx_schemas a) -> links_closed (cx_schemas b))); auto.
    intros n t' f' m' cx1 cx2 _ H Hs Hc. apply closed_insert; auto. eapply get_schema_links; eauto.
  Qed.

  Lemma mention_all_wf f l cx cx' : mention_all E f l cx = Ok cx' -> wf_cx cx -> wf_cx cx'.
  Proof.
    apply (mention_all_inv (fun a b => wf_cx a -> wf_cx b)); auto.
    intros n t' f' m' cx1 cx2 _ H _ Hw. now apply wf_insert, H.
  Qed.

  Lemma mention_all_grows f l cx cx' : mention_all E f l cx = Ok cx' -> grows cx cx'.
  Proof.
    apply mention_all_inv.
    - split; auto using extends_refl.
    - intros cx1 cx2 cx3 [H1 H2] [H3 H4]. split; eauto using extends_trans, eq_trans.
    - intros n t' f' m' cx1 cx2 Hn [H1 H2] _. split; auto using extends_insert.
  Qed.

  Lemma closed_new : links_closed (cx_schemas cx_new).
  Proof. intros k m l H. discriminate. Qed.
  Lemma wf_new : wf_cx cx_new.
  Proof. split; constructor. Qed.
End Inv.
