(** Generated schemas are accepted by OpenAPI if the generated code is neat. *)
From Verif Require Import Schema SchemaSpec SchemaFacts Gen GenSpec GenFacts GenFacts2 GenFacts5 TidySpec.

(** tidy, and all required names are properties *)
Definition required_known (m : model) : Prop :=
  match m with Model _ (Single (MType _ (TdObject (MObject p _ r)))) => forall k, In k r -> bm_get k p <> None | _ => True end.
Definition good (m : model) : Prop := tidy m /\ required_known m.
Definition good_cx (cx : components) : Prop := forall n m, In (n, m) (cx_schemas cx) -> component_name n /\ tidy m.

Lemma tidy_make m : tidy_toplevel m -> (forall r, child r m -> tidy_ref r) -> tidy m.
Proof. intros H1 H2. constructor; [exact H1|]. intros m' Hc. exact (H2 _ Hc). Qed.
Lemma tidy_child m r : tidy m -> child r m -> tidy_ref r.
Proof. intros [_ H] Hc. destruct r; cbn; auto. Qed.
Lemma good_apply p m : p_variants p <> Some [] -> good m -> good (apply_params p m).
Proof.
  intros Hp [Ht Hr]. split.
  - apply tidy_make.
    + destruct Ht as [Ht _]. destruct m as [d [[n [s|s|s| |r|[p1 a1 q1]]]|l|l|l]]; cbn in *; auto.
      destruct (p_variants p) as [l|]; cbn; auto.
    + intros r Hc. rewrite child_apply_params in Hc. eapply tidy_child; eauto.
  - destruct m as [d [[n [s|s|s| |r|[p1 a1 q1]]]|l|l|l]]; cbn in *; auto.
Qed.
Lemma NoDup_rev' (l : list str) x : NoDup l -> ~ In x l -> NoDup (l ++ [x]).
Proof. intros H1 H2. apply NoDup_Add with (a := x) (l := l ++ []); [apply (Add_app x l [])|]. rewrite app_nil_r. now split. Qed.
Lemma good_merge m tag v id n : good m -> good (fst (try_merge m (tag_model tag v id n))).
Proof.
  intros [Ht Hr].
  assert (Hg : tidy (tag_model tag v id n)).
  { apply tidy_make; [repeat constructor; intros []|].
    intros r Hc. unfold tag_model, mk_single in Hc. apply child_object in Hc as [[k [[= _ <-]|[]]]|Hc]; [|discriminate].
    apply tidy_make; [discriminate|]. intros r Hc. inversion Hc. }
  assert (Hc : forall r, child r (fst (try_merge m (tag_model tag v id n))) -> tidy_ref r).
  { intros r Hc. apply child_merge in Hc as [Hc|Hc]; [exact (tidy_child _ _ Ht Hc)|exact (tidy_child _ _ Hg Hc)]. }
  enough (tidy_toplevel (fst (try_merge m (tag_model tag v id n))) /\ required_known (fst (try_merge m (tag_model tag v id n)))) as [H1 H2]
    by (split; [now apply tidy_make|exact H2]).
  clear Hc Hg. destruct Ht as [Ht _].
  destruct m as [d [[b [s|s|s| |r|[p1 a1 q1]]]|l|l|l]]; try (split; assumption).
  cbn [required_known tidy_toplevel] in *. unfold tag_model, mk_single. cbn [try_merge m_data object_merge mo_properties].
  cbn [bm_insert merge_props]. destruct (bm_mem tag p1) eqn:Em.
  - cbn. auto.
  - assert (Hn : bm_get tag p1 = None) by (unfold bm_mem in Em; now destruct (bm_get tag p1)).
    cbn [merge_props fst mo_required tidy_toplevel required_known]. split.
    + apply (NoDup_rev' q1 tag); [exact Ht|]. intros Hk. now apply Hr in Hk.
    + intros k Hk. destruct (str_eq_dec k tag) as [->|Hne]; [now rewrite bm_get_insert_eq|]. rewrite bm_get_insert_neq by assumption.
      apply in_app_or in Hk as [Hk|[<-|[]]]; [now apply Hr|congruence].
Qed.

Definition neat_own (E : env) (t : ty) : Prop := match t with TTuple ts => ts <> [] | TNamed id => neat_m (td_body (E id)) | _ => True end.
Section Run.
  Variable E : env.
  (** a set of types with neat code, closed under what descriptions refer to *)
  Variable P : ty -> Prop.
  Hypothesis P_neat : forall t, P t -> neat_own E t.
  (** an invariant of the components *)
  Variable Q : components -> Prop.
  Hypothesis Q_insert : forall t n m cx, P t -> type_name E t = Some n -> tidy m -> Q cx -> Q (cx_insert_schema n m cx).
  Hypothesis P_closed : forall t s, P t -> In s (sites_of E t) -> P (site_ty s).

  Definition good_gs (gs : ty -> components -> res (model * components)) : Prop :=
    forall t cx m cx', P t -> Q cx -> gs t cx = Ok (m, cx') -> good m /\ Q cx'.
  Section Eval.
    Variable gs : ty -> components -> res (model * components).
    Hypothesis gs_good : good_gs gs.
    Lemma mention_good t i p cx r cx' : P t -> p_variants p <> Some [] -> Q cx ->
      mention_schema E gs t i p cx = Ok (r, cx') -> tidy_ref r /\ Q cx'.
    Proof.
      intros Ht Hp Hx. rewrite mention_schema_eq. destruct (link_name E t i) as [n|] eqn:El.
      - assert (Hn : type_name E t = Some n) by (unfold link_name in El; destruct i; [discriminate|exact El]).
        destruct (bm_mem n (cx_schemas cx)); intros H; binds; [split; [exact I|exact Hx]|].
        split; [exact I|]. edestruct gs_good as [[Hm _] Hc]; [exact Ht|exact Hx|eassumption|].
        now apply (Q_insert t).
      - intros H; binds. edestruct gs_good as [Hm Hc]; [exact Ht|exact Hx|eassumption|]. split; [|exact Hc].
        apply (good_apply p) in Hm; [apply Hm|exact Hp].
    Qed.
    Lemma eval_vec_good {A} (f : A -> components -> res (model_ref * components)) l :
      Forall (fun a => forall cx r cx', Q cx -> f a cx = Ok (r, cx') -> tidy_ref r /\ Q cx') l ->
      forall cx rs cx', Q cx -> eval_vec f l cx = Ok (rs, cx') ->
      (forall r, In r rs -> tidy_ref r) /\ Q cx' /\ (l <> [] -> rs <> []).
    Proof.
      induction 1 as [|a l Ha Hl IH]; intros cx rs cx' Hx; cbn; intros H; binds; [split; [intros r []|split; [exact Hx|congruence]]|].
      edestruct Ha as [H1 H2]; [exact Hx|eassumption|]. edestruct IH as (H3 & H4 & _); [exact H2|eassumption|].
      split; [|split; [exact H4|discriminate]]. intros r [<-|Hin]; auto.
    Qed.
    Lemma eval_good :
      (forall c cx r cx', neat_r c -> (forall s, In s (sites_r c) -> P (site_ty s)) -> Q cx ->
         eval_r E gs c cx = Ok (r, cx') -> tidy_ref r /\ Q cx') /\
      (forall c cx m cx', neat_m c -> (forall s, In s (sites_m c) -> P (site_ty s)) -> Q cx ->
         eval_m E gs c cx = Ok (m, cx') -> good m /\ Q cx') /\
      (forall c cx d cx', neat_d c -> (forall s, In s (sites_d c) -> P (site_ty s)) -> Q cx ->
         eval_d E gs c cx = Ok (d, cx') -> (forall o, good (Model o d)) /\ Q cx') /\
      (forall c cx td cx', neat_t c -> (forall s, In s (sites_t c) -> P (site_ty s)) -> Q cx ->
         eval_t E gs c cx = Ok (td, cx') -> (forall o n, good (Model o (Single (MType n td)))) /\ Q cx').
    Proof.
      apply code_ind.
      - intros cx r cx' _ _ Hx H. rewrite er_any in H. binds. now split.
      - intros c IH cx r cx' Hn Hs Hx H. rewrite er_inline in H. binds.
        edestruct IH as [[H1 _] H2]; [exact Hn|exact Hs|exact Hx|eassumption|]. now split.
      - intros t i p cx r cx' Hn Hs Hx H. rewrite er_mention in H. eapply mention_good; eauto. apply (Hs (SMention t i)). now left.
      - intros c tag v id n IH cx r cx' Hn Hs Hx H. rewrite er_tagged in H. binds.
        edestruct IH as [H1 H2]; [exact Hn|exact Hs|exact Hx|eassumption|]. split; [|exact H2]. apply (good_merge _ tag v id n) in H1. apply H1.
      - intros t p cx r cx' Hn Hs Hx H. rewrite em_with in H. binds.
        edestruct gs_good as [H1 H2]; [apply (Hs (SCall t)); now left|exact Hx|eassumption|]. split; [|exact H2]. now apply good_apply.
      - intros d c IH cx r cx' Hn Hs Hx H. rewrite em_model in H. binds.
        edestruct IH as [H1 H2]; [exact Hn|exact Hs|exact Hx|eassumption|]. now split.
      - intros l Hl cx r cx' [Hn Hn'] Hs Hx H. rewrite ed_oneof in H. binds.
        assert (Hf : Forall (fun a => forall cx r cx', Q cx -> eval_r E gs a cx = Ok (r, cx') -> tidy_ref r /\ Q cx') l).
        { clear - Hl Hn' Hs. induction Hl as [|c l Hc Hl IH]; constructor.
          - intros cx r cx'. apply Hc; [apply Hn'|]. intros s Hi. apply Hs. cbn. apply in_or_app. now left.
          - apply IH; [apply Hn'|]. intros s Hi. apply Hs. cbn. apply in_or_app. now right. }
        edestruct (eval_vec_good _ _ Hf) as (H1 & H2 & H3); [exact Hx|eassumption|]. split; [|exact H2]. intros o. split; [|exact I].
        apply tidy_make; [now apply H3|]. intros r Hc. inversion Hc; subst. auto.
      - intros n c IH cx r cx' Hn Hs Hx H. rewrite ed_single in H. binds.
        edestruct IH as [H1 H2]; [exact Hn|exact Hs|exact Hx|eassumption|]. now split.
      - intros c cx r cx' Hn _ Hx H. rewrite et_const in H. binds. split; [|exact Hx]. intros o n.
        split; [|destruct c; exact I]. apply tidy_make; [destruct c; exact Hn|]. intros r Hc. destruct c; inversion Hc.
      - intros c IH cx r cx' Hn Hs Hx H. rewrite et_array in H. binds.
        edestruct IH as [H1 H2]; [exact Hn|exact Hs|exact Hx|eassumption|]. split; [|exact H2]. intros o n.
        split; [|exact I]. apply tidy_make; [exact I|]. intros r Hc. inversion Hc; subst. exact H1.
      - intros l Hl cx td cx' [Hn Hn'] Hs Hx H. rewrite et_object in H. apply bind_Ok in H as ([[pr rq] cx1] & H & H1). binds.
        assert (Hg : forall pr0 rq0 cx, Q cx -> (forall k r, In (k, r) pr0 -> tidy_ref r) -> (forall k, In k rq0 -> bm_get k pr0 <> None) ->
                  NoDup (rq0 ++ map (fun s => fst (fst s)) (filter snd l)) ->
                  forall pr rq cx', eval_stmts (eval_r E gs) l pr0 rq0 cx = Ok ((pr, rq), cx') ->
                  Q cx' /\ (forall k r, In (k, r) pr -> tidy_ref r) /\ (forall k, In k rq -> bm_get k pr <> None) /\ NoDup rq).
        { clear - Hl Hn' Hs. induction Hl as [|[[k c] b] l Hc Hl IH]; intros pr0 rq0 cx Hx H0 H1 H2 pr rq cx'; cbn [eval_stmts];
            intros H; binds; [rewrite app_nil_r in H2; auto|]. cbn [fst snd] in *. cbn [fold_right] in Hn'. destruct Hn' as [Hn1 Hn2].
          assert (Hs1 : forall s, In s (sites_r c) -> P (site_ty s)) by (intros s Hi; apply Hs; cbn; apply in_or_app; now left).
          match goal with H : eval_r _ _ _ _ = Ok _ |- _ => destruct (Hc _ _ _ Hn1 Hs1 Hx H) as [Ha Hb] end.
          eapply IH; [exact Hn2|intros s Hi; apply Hs; cbn; apply in_or_app; now right|exact Hb| | | |eassumption].
          - intros k0 r0 Hin. apply bm_insert_In' in Hin as [->|Hin]; eauto.
          - intros k0 Hk. destruct (str_eq_dec k0 k) as [->|Hne]; [now rewrite bm_get_insert_eq|]. rewrite bm_get_insert_neq by assumption.
            apply H1. destruct b; [|exact Hk]. apply in_app_or in Hk as [Hk|[<-|[]]]; [exact Hk|congruence].
          - destruct b; cbn [filter snd map fst] in H2; [rewrite <- app_assoc; exact H2|exact H2]. }
        destruct (Hg [] [] cx Hx ltac:(intros ? ? []) ltac:(intros ? []) Hn _ _ _ H) as (G1 & G2 & G3 & G4).
        split; [|exact G1]. intros o n. split; [|exact G3]. apply tidy_make; [exact G4|].
        intros r Hc. apply child_object in Hc as [[k Hk]|Hk]; [eauto|discriminate].
      - intros c IH cx r cx' Hn Hs Hx H. rewrite et_dict in H. binds.
        edestruct IH as [H1 H2]; [exact Hn|exact Hs|exact Hx|eassumption|]. split; [|exact H2]. intros o n.
        split; [|intros k []]. apply tidy_make; [constructor|]. intros r Hc. apply child_object in Hc as [[k []]|Hk]. injection Hk as <-. exact H1.
    Qed.
    Lemma step_good : good_gs (schema_step E gs).
    Proof.
      intros t cx m cx' Ht Hx H. pose proof (P_neat t Ht) as Hn.
      assert (Hs : forall s, In s (sites_of E t) -> P (site_ty s)) by (intros s; now apply P_closed).
      destruct t as [p|w t|t|ts|k t|k t|id]; cbn [schema_step sites_of neat_own] in *.
      - binds. split; [|exact Hx]. split; [apply tidy_make; [destruct p; try exact I; discriminate|]; intros r Hc; destruct p; inversion Hc|destruct p; exact I].
      - eapply gs_good; [|exact Hx|exact H]. apply (Hs (SCall t)). now left.
      - unfold get_schema_with_params in H. binds. edestruct gs_good as [H1 H2]; [apply (Hs (SCall t)); now left|exact Hx|eassumption|].
        split; [|exact H2]. apply good_apply; [discriminate|exact H1].
      - binds. match goal with H : eval_vec _ _ _ = Ok _ |- _ => rename H into Hv end.
        apply eval_vec_good in Hv as (H1 & H2 & H3); [|clear Hv|exact Hx].
        + split; [|exact H2]. split; [|exact I]. apply tidy_make; [exact I|]. intros r Hc. unfold mk_single in Hc. inversion Hc; subst.
          apply tidy_make; [now apply H3|]. intros r Hc'. inversion Hc'; subst. auto.
        + apply Forall_forall. intros t Hi c r c' Hx' Hm. apply (mention_good t false params_default c r c'); [|discriminate|exact Hx'|exact Hm].
          apply (Hs (SMention t false)). apply in_map_iff. eauto.
      - binds. edestruct mention_good as [H1 H2]; [apply (Hs (SMention t false)); now left| |exact Hx|eassumption|]; [discriminate|].
        split; [|exact H2]. split; [|exact I]. apply tidy_make; [exact I|]. intros r Hc. unfold mk_single in Hc. inversion Hc; subst. exact H1.
      - binds. edestruct mention_good as [H1 H2]; [apply (Hs (SMention t false)); now left| |exact Hx|eassumption|]; [discriminate|].
        split; [|exact H2]. split; [|intros k' []]. apply tidy_make; [constructor|]. intros r Hc. unfold mk_single in Hc.
        apply child_object in Hc as [[k' []]|Hk]. injection Hk as <-. exact H1.
      - destruct eval_good as (_ & Hm & _). eapply Hm; eauto.
    Qed.
  End Eval.
  Lemma get_schema_good f : good_gs (get_schema E f).
  Proof. induction f as [|f IH]; [intros t cx m cx' _ _ H; discriminate|]. now apply step_good. Qed.
End Run.

(** the set of types a type's description is made of *)
Definition reached (E : env) (t t' : ty) : Prop := t' = t \/ contains E t t'.
Lemma contains_step E t t1 t2 : contains E t t1 -> refers_to E t1 t2 -> contains E t t2.
Proof. induction 1 as [t t1 H|t t0 t1 H Hc IH]; intros Hr; [eapply cont_more; [exact H|now constructor]|eapply cont_more; eauto]. Qed.
Lemma reached_closed E t t' s : reached E t t' -> In s (sites_of E t') -> reached E t (site_ty s).
Proof.
  intros Hr Hs. assert (H : refers_to E t' (site_ty s)) by (exists s; now split).
  right. destruct Hr as [->|Hr]; [now constructor|now apply contains_step with t'].
Qed.
Lemma good_cx_insert n m cx : component_name n -> tidy m -> good_cx cx -> good_cx (cx_insert_schema n m cx).
Proof. intros Hn Hm Hx k m0 Hin. cbn in Hin. apply bm_insert_In in Hin as [[-> ->]|Hin]; [now split|now apply Hx]. Qed.
Theorem schema_tidy E t cx m cx' : neat E t -> schema_returns E t cx m cx' -> tidy m /\ (good_cx cx -> good_cx cx').
Proof.
  intros Hn [f H]. pose proof (fun t' s Ht' Hs => reached_closed E t t' s Ht' Hs) as Hc.
  assert (Ht : reached E t t) by now left.
  assert (Ho : forall t', reached E t t' -> neat_own E t') by (intros t' Hr; apply (Hn t' Hr)).
  assert (Hi : forall t' n m cx, reached E t t' -> type_name E t' = Some n -> tidy m -> good_cx cx -> good_cx (cx_insert_schema n m cx)).
  { intros t' n m0 cx0 Hr En. apply good_cx_insert. now apply (Hn t' Hr). }
  split.
  - apply (get_schema_good E (reached E t) Ho (fun _ => True) ltac:(auto) Hc f t cx m cx' Ht I H).
  - intros Hx. apply (get_schema_good E (reached E t) Ho good_cx Hi Hc f t cx m cx' Ht Hx H).
Qed.
Theorem mention_tidy E t i p cx r cx' : neat E t -> p_variants p <> Some [] -> mention_returns E t i p cx r cx' ->
  tidy_ref r /\ (good_cx cx -> good_cx cx').
Proof.
  intros Hn Hp [f H]. unfold mention in H. pose proof (fun t' s Ht' Hs => reached_closed E t t' s Ht' Hs) as Hc.
  assert (Ht : reached E t t) by now left.
  assert (Ho : forall t', reached E t t' -> neat_own E t') by (intros t' Hr; apply (Hn t' Hr)).
  assert (Hi : forall t' n m cx, reached E t t' -> type_name E t' = Some n -> tidy m -> good_cx cx -> good_cx (cx_insert_schema n m cx)).
  { intros t' n m0 cx0 Hr En. apply good_cx_insert. now apply (Hn t' Hr). }
  split.
  - eapply (mention_good E (reached E t) (fun _ => True) ltac:(auto)); [|exact Ht|exact Hp|exact I|exact H]. now apply get_schema_good.
  - intros Hx. eapply (mention_good E (reached E t) good_cx Hi); [|exact Ht|exact Hp|exact Hx|exact H].
    apply get_schema_good; [exact Ho|exact Hi|exact Hc].
Qed.
