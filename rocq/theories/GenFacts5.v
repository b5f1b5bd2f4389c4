(** Proofs about schema generation: the maps of generated schemas. *)
From Verif Require Import Schema SchemaSpec SchemaFacts Gen GenSpec GenFacts GenFacts2 SerSpec.

Section Wf.
  Variable E : env.

  Lemma wf_model_intro m : wf_toplevel m -> (forall r, child r m -> wf_ref r) -> wf_model m.
  Proof. intros H1 H2. constructor; [exact H1|]. intros m' Hc. exact (H2 _ Hc). Qed.
  Lemma wf_model_ref m r : wf_model m -> child r m -> wf_ref r.
  Proof. intros [_ H] Hc. destruct r; cbn; auto. Qed.
  Lemma wf_apply_params p m : wf_model m -> wf_model (apply_params p m).
  Proof.
    intros Hm. destruct (apply_params_facets p m) as (_ & _ & Ho & _). apply wf_model_intro.
    - destruct Hm as [Ht _]. unfold wf_toplevel in *. now rewrite Ho.
    - intros r Hc. rewrite child_apply_params in Hc. eapply wf_model_ref; eauto.
  Qed.
  Lemma wf_try_merge m1 m2 : wf_model m1 -> wf_model m2 -> wf_model (fst (try_merge m1 m2)).
  Proof.
    intros H1 H2. apply wf_model_intro.
    - destruct H1 as [H1 _]. clear H2. revert H1.
      destruct m1 as [d1 [[n1 [s1|s1|s1| |r1|[p1 a1 q1]]]|l1|l1|l1]]; try (intros Hs; exact Hs).
      destruct m2 as [d2 [[n2 [s2|s2|s2| |r2|[p2 a2 q2]]]|l2|l2|l2]]; try (intros Hs; exact Hs).
      unfold wf_toplevel. cbn. unfold wf_object. cbn. intros Hs. pose proof (merge_props_sorted p1 p2 Hs) as Hm.
      destruct (merge_props p1 p2) as [p' [|]]; exact Hm.
    - intros r Hc. apply child_merge in Hc as [Hc|Hc]; [exact (wf_model_ref _ _ H1 Hc)|exact (wf_model_ref _ _ H2 Hc)].
  Qed.
  Lemma wf_tag_model tag v id n : wf_model (tag_model tag v id n).
  Proof.
    apply wf_model_intro.
    - unfold wf_toplevel. cbn. unfold wf_object. cbn. repeat constructor. intros k [].
    - intros r Hc. unfold tag_model, mk_single in Hc. apply child_object in Hc as [[k [[= _ <-]|[]]]|Hc]; [|discriminate].
      apply wf_model_intro; [exact I|]. intros r Hc. inversion Hc.
  Qed.
  Lemma wf_prim p : wf_model (prim_schema p).
  Proof. apply wf_model_intro; [destruct p; exact I|]. intros r Hc. destruct p; inversion Hc. Qed.

  Definition wf_gs (gs : ty -> components -> res (model * components)) : Prop :=
    forall t cx m cx', gs t cx = Ok (m, cx') -> wf_model m.
  Section Eval.
    Variable gs : ty -> components -> res (model * components).
    Hypothesis gs_wf : wf_gs gs.
    Lemma mention_wf_ref t i p cx r cx' : mention_schema E gs t i p cx = Ok (r, cx') -> wf_ref r.
    Proof.
      rewrite mention_schema_eq. destruct (link_name E t i) as [n|].
      - destruct (bm_mem n (cx_schemas cx)); intros H; binds; exact I.
      - intros H; binds. cbn. apply wf_apply_params. eapply gs_wf; eauto.
    Qed.
    Lemma eval_vec_wf {A} (f : A -> components -> res (model_ref * components)) l :
      Forall (fun a => forall cx r cx', f a cx = Ok (r, cx') -> wf_ref r) l ->
      forall cx rs cx', eval_vec f l cx = Ok (rs, cx') -> forall r, In r rs -> wf_ref r.
    Proof.
      induction 1 as [|a l Ha Hl IH]; intros cx rs cx'; cbn; intros H; binds; [intros r []|].
      intros r [<-|Hin]; [eapply Ha; eauto|eapply IH; eauto].
    Qed.
    Lemma eval_wf :
      (forall c cx r cx', eval_r E gs c cx = Ok (r, cx') -> wf_ref r) /\
      (forall c cx m cx', eval_m E gs c cx = Ok (m, cx') -> wf_model m) /\
      (forall c cx d cx', eval_d E gs c cx = Ok (d, cx') -> forall o, wf_model (Model o d)) /\
      (forall c cx td cx', eval_t E gs c cx = Ok (td, cx') -> forall o n, wf_model (Model o (Single (MType n td)))).
    Proof.
      apply code_ind.
      - intros cx r cx' H. rewrite er_any in H. binds. exact I.
      - intros c IH cx r cx' H. rewrite er_inline in H. binds. cbn. eauto.
      - intros t i p cx r cx' H. rewrite er_mention in H. eapply mention_wf_ref; eauto.
      - intros c tag v id n IH cx r cx' H. rewrite er_tagged in H. binds. cbn. apply wf_try_merge; [eauto|apply wf_tag_model].
      - intros t p cx r cx' H. rewrite em_with in H. binds. apply wf_apply_params. eapply gs_wf; eauto.
      - intros d c IH cx r cx' H. rewrite em_model in H. binds. eauto.
      - intros l Hl cx r cx' H. rewrite ed_oneof in H. binds. intros o. apply wf_model_intro; [exact I|].
        intros r Hc. inversion Hc; subst. eapply eval_vec_wf; eauto.
      - intros n c IH cx r cx' H. rewrite ed_single in H. binds. intros o. eauto.
      - intros c cx r cx' H. rewrite et_const in H. binds. intros o n. apply wf_model_intro; [destruct c; exact I|].
        intros r Hc. destruct c; inversion Hc.
      - intros c IH cx r cx' H. rewrite et_array in H. binds. intros o n. apply wf_model_intro; [exact I|].
        intros r Hc. inversion Hc; subst. eauto.
      - intros l Hl cx td cx' H. rewrite et_object in H. apply bind_Ok in H as ([[pr rq] cx1] & H & H1). binds.
        assert (Hs : forall pr0 rq0 cx, bm_sorted pr0 -> (forall k r, In (k, r) pr0 -> wf_ref r) ->
                  forall pr rq cx', eval_stmts (eval_r E gs) l pr0 rq0 cx = Ok ((pr, rq), cx') ->
                  bm_sorted pr /\ forall k r, In (k, r) pr -> wf_ref r).
        { clear - Hl. induction Hl as [|[[k c] b] l Hc Hl IH]; intros pr0 rq0 cx S0 H0 pr rq cx'; cbn [eval_stmts];
            intros H; binds; auto. cbn in Hc.
          eapply IH; [| |eassumption].
          - now apply bm_insert_sorted.
          - intros k0 r0 Hin. apply bm_insert_In' in Hin as [->|Hin]; eauto. }
        destruct (Hs [] [] cx (bms_nil) ltac:(intros ? ? []) _ _ _ H) as [S1 S2].
        intros o n. apply wf_model_intro; [exact S1|].
        intros r Hc. apply child_object in Hc as [[k Hk]|Hk]; [eauto|discriminate].
      - intros c IH cx r cx' H. rewrite et_dict in H. binds. intros o n. apply wf_model_intro; [constructor|].
        intros r Hc. apply child_object in Hc as [[k []]|Hk]. injection Hk as <-. eauto.
    Qed.
    Lemma schema_step_wf : wf_gs (schema_step E gs).
    Proof.
      intros t cx m cx' H. destruct t; cbn [schema_step] in H.
      - binds. apply wf_prim.
      - eapply gs_wf; eauto.
      - unfold get_schema_with_params in H. binds. apply wf_apply_params. eapply gs_wf; eauto.
      - binds. apply wf_model_intro; [exact I|]. intros r Hc. unfold mk_single in Hc. inversion Hc; subst.
        apply wf_model_intro; [exact I|]. intros r Hc'. inversion Hc'; subst.
        eapply eval_vec_wf; [|eassumption|eassumption]. apply Forall_forall. intros. eapply mention_wf_ref; eauto.
      - binds. apply wf_model_intro; [exact I|]. intros r Hc. unfold mk_single in Hc. inversion Hc; subst. eapply mention_wf_ref; eauto.
      - binds. apply wf_model_intro; [constructor|]. intros r Hc. unfold mk_single in Hc. apply child_object in Hc as [[k' []]|Hk].
        injection Hk as <-. eapply mention_wf_ref; eauto.
      - destruct eval_wf as (_ & Hm & _). eapply Hm; eauto.
    Qed.
  End Eval.
  Lemma get_schema_wf_model f : wf_gs (get_schema E f).
  Proof. induction f as [|f IH]; [intros t cx m cx' H; discriminate|]. now apply schema_step_wf. Qed.
  Lemma mention_returns_wf t i p cx r cx' : mention_returns E t i p cx r cx' -> wf_ref r.
  Proof. intros [f H]. unfold mention in H. eapply mention_wf_ref; [apply get_schema_wf_model|exact H]. Qed.
  Lemma mention_wf_components f t i p cx r cx' : mention_schema E (get_schema E f) t i p cx = Ok (r, cx') -> wf_components cx -> wf_components cx'.
  Proof.
    assert (Hi : forall n f m t cx cx', (wf_components cx -> wf_components cx') -> get_schema E f t cx = Ok (m, cx') ->
              wf_components cx -> wf_components (cx_insert_schema n m cx')).
    { intros n f0 m t0 c c' H Hg Hw. destruct (H Hw) as [H1 H2]. split; [now apply wf_insert|]. cbn. intros k m0 Hin.
      apply bm_insert_In in Hin as [[_ ->]|Hin]; [|eauto]. eapply get_schema_wf_model; eauto. }
    assert (Hg : forall f t cx m cx', get_schema E f t cx = Ok (m, cx') -> wf_components cx -> wf_components cx').
    { intros f0 t0 c m c'. apply (get_schema_inv E (fun a b => wf_components a -> wf_components b)); auto.
      intros n t1 f1 m1 c1 c2 _ H H1. eapply Hi; eauto. }
    apply (mention_inv E (fun a b => wf_components a -> wf_components b)); auto.
    - intros n t1 f1 m1 c1 c2 _ H H1. eapply Hi; eauto.
    - intros. eapply Hg; eauto.
  Qed.
  Lemma mention_all_wf_components f l : forall cx cx', mention_all E f l cx = Ok cx' -> wf_components cx -> wf_components cx'.
  Proof.
    induction l as [|c l IH]; intros cx cx'; cbn; intros H Hw; binds; auto.
    eapply IH; [eassumption|]. eapply mention_wf_components; eauto.
  Qed.
End Wf.
