(** Documents of describe_api! conform to OpenAPI. *)
From Verif Require Import Attr AttrSpec Ast Derive DeriveSpec Schema SchemaSpec Gen GenSpec GenFacts GenFacts4 GenFacts5 SerSpec SerFacts4 ApiSpec ApiFacts ApiFacts2 ApiFacts3 ApiFacts5 ApiFacts7 ApiFacts8
  TidySpec OpenApiFacts TidyFacts TidyFacts2.

Lemma declare_mem {K V} `{Ord K} (k : K) (es : list (K * V)) : (exists v, In (k, v) es) -> bm_get k (declare es) <> None.
Proof.
  induction es as [|e es IH] using rev_ind; intros [v Hv]; [destruct Hv|]. rewrite declare_app. destruct (kcmp k (fst e)) eqn:Ec.
  - apply kcmp_eq in Ec. rewrite Ec, bm_get_insert_eq. discriminate.
  - rewrite bm_get_insert_neq; [|intros ->; rewrite (proj2 (kcmp_eq (fst e) (fst e)) eq_refl) in Ec; discriminate]. apply IH. exists v.
    apply in_app_or in Hv as [Hv|[->|[]]]; [exact Hv|]. rewrite (proj2 (kcmp_eq _ _) eq_refl) in Ec. discriminate.
  - rewrite bm_get_insert_neq; [|intros ->; rewrite (proj2 (kcmp_eq (fst e) (fst e)) eq_refl) in Ec; discriminate]. apply IH. exists v.
    apply in_app_or in Hv as [Hv|[->|[]]]; [exact Hv|]. rewrite (proj2 (kcmp_eq _ _) eq_refl) in Ec. discriminate.
Qed.

Lemma mention_all_good E l : forall f cx cx', (forall c, In c l -> neat E (mc_ty c) /\ p_variants (mc_params c) <> Some []) ->
  mention_all E f l cx = Ok cx' -> good_cx cx -> good_cx cx'.
Proof.
  induction l as [|c l IH]; intros f cx cx' Hl H Hx; cbn in H; binds; [exact Hx|].
  eapply IH; [intros c' Hc'; apply Hl; now right|eassumption|]. destruct (Hl c) as [H1 H2]; [now left|].
  eapply mention_tidy; [exact H1|exact H2|exists f; eassumption|exact Hx].
Qed.

Section Docs.
  Variables (E : env) (reason : N -> option str) (seg : list tree -> option segment) (a : api) (d : opg).
  Hypothesis Hd : describes E reason seg a d.
  Hypothesis Hp : presentable a.
  Hypothesis Hn : forall t r, names_type seg a t -> refers E t r -> tidy_ref r.
  Hypothesis Hcomp : forall n m, In (n, m) (cx_schemas (og_components d)) -> component_name n /\ tidy m.

  Lemma raw_wf r : raw_response a r -> wf_ref r.
  Proof. intros H. now apply Hp. Qed.
  Lemma paths_ref_tidy r : paths_ref r (og_paths d) -> tidy_ref r.
  Proof.
    intros Hr. destruct (paths_ref_source _ _ _ _ _ _ (describes_means _ _ _ _ _ Hd) Hr) as [Hraw|(t & Ht & Hev)].
    - now apply Hp.
    - apply (Hn t); [now apply type_events|exact Ht].
  Qed.
  Lemma described_tidy : distinct_paths (og_paths d) -> tidy_document d.
  Proof.
    intros Hdist. pose proof (describes_means _ _ _ _ _ Hd) as Ha. destruct Hp as (H1 & H2 & H3 & H4).
    assert (Hpar : forall q e, param_means E q e -> tidy_ref (match pr_schema (snd e) with Some r => r | None => Any end) -> tidy_parameter (snd e)).
    { intros q [n x] (_ & Hin & _ & _ & _ & r & Hr & _) Ht. cbn [snd] in *. rewrite Hr in Ht. split; [eauto|]. rewrite Hin. destruct q; discriminate. }
    split; [|split; [|split; [split; [exact Hdist|split]|split]]].
    - destruct Ha as (_ & _ & _ & Hf). intros Hx. rewrite Hx in Hf. inversion Hf as [Hy|]. apply H1. unfold api_paths. now rewrite <- Hy.
    - intros p v Hi. destruct (has_path_declared _ _ _ _ _ p v Ha) as (pd & _ & Hm); [exists (og_paths d); split; [constructor|exact Hi]|].
      destruct Hm as ((segs & up & ps & Hs & Hg & _) & _). cbn in Hg. intros ->. inversion Hg; subst. inversion Hs as [Hx|]. symmetry in Hx. now apply split_url_nonempty in Hx.
    - intros p v Hv k q Hq. destruct (has_path_declared _ _ _ _ _ _ _ Ha Hv) as (pd & _ & Hm).
      assert (Ht : tidy_ref (match pr_schema q with Some r => r | None => Any end)).
      { destruct (pr_schema q) as [r|] eqn:Er; [|exact I]. apply paths_ref_tidy. left. exists p, v. split; [exact Hv|]. now apply prf_parameter with k q. }
      destruct Hm as ((segs & up & ps & _ & _ & Hup & Hps & Hdecl) & _). cbn in Hdecl. rewrite Hdecl in Hq. apply declare_In in Hq.
      apply in_app_or in Hq as [Hq|Hq].
      + destruct (Forall2_In_r _ _ _ _ Hup Hq) as (s & _ & Hs). destruct Hs as (Hin & Hreq & _ & _ & r & Hr & _). rewrite Hr in Ht. split; [eauto|auto].
      + destruct (Forall2_In_r _ _ _ _ Hps Hq) as (s & _ & Hs). exact (Hpar _ _ Hs Ht).
    - intros o Ho. destruct (has_operation_declared _ _ _ _ _ _ Ha Ho) as (l & Hl & Hm). destruct (H2 _ Hl) as [(c0 & de0 & s0 & Hr0) Hcode].
      destruct Hm as (_ & _ & _ & _ & _ & _ & Hb & (rs & Hrs & Hrd) & (ps & Hps & Hpd) & _).
      assert (Href : forall r, operation_ref r o -> tidy_ref r) by (intros r Hr; apply paths_ref_tidy; right; eauto).
      split; [|split; [|split]].
      + intros k q Hq. rewrite Hpd in Hq. pose proof Hq as Hq'. apply declare_In in Hq. destruct (Forall2_In_r _ _ _ _ Hps Hq) as (s & _ & Hs).
        apply (Hpar _ _ Hs). cbn [snd]. destruct (pr_schema q) as [r|] eqn:Er; [|exact I]. apply Href. apply orf_parameter with k q; [now rewrite Hpd|exact Er].
      + intros b Hbo. split; [|apply Href; now apply orf_body with b].
        destruct (last_of _ l) as [bd|]; [|congruence]. destruct Hb as (x & Hx & Hb). assert (x = b) by congruence. subst x.
        destruct bd as [pl|t]; destruct Hb as (-> & _); discriminate.
      + intros Hnil. assert (Hin : In (c0, de0, s0) (flat_map (fun p => match p with OpResponse c d s => [(c, d, s)] | _ => [] end) l)).
        { apply in_flat_map. exists (OpResponse c0 de0 s0). split; [exact Hr0|now left]. }
        destruct (Forall2_In_l _ _ _ _ Hrs Hin) as ([c r] & Hcr & (Hc & _)). cbn in Hc. subst c.
        assert (Hg : bm_get c0 (declare rs) <> None) by (apply declare_mem; exists r; exact Hcr). rewrite <- Hrd, Hnil in Hg. now apply Hg.
      + intros c r Hr. rewrite Hrd in Hr. pose proof Hr as Hr'. apply declare_In in Hr. destruct (Forall2_In_r _ _ _ _ Hrs Hr) as ([[c1 de] s] & Hi & Hmean).
        destruct Hmean as (Hc & _). cbn in Hc. subst c1. apply in_flat_map in Hi as (q & Hq & Hi). destruct q; cbn in Hi; try contradiction.
        destruct Hi as [[= -> -> ->]|[]]. split; [now apply (Hcode c de s)|]. intros sc Hsc. apply Href. apply orf_response with c r; [now rewrite Hrd|exact Hsc].
    - exact Hcomp.
    - intros n s Hi. assert (Hw : wf_opg d) by (eapply described_wf; [exact Hd|exact raw_wf]). destruct Hw as (_ & _ & [_ Hsec] & _).
      apply bm_sorted_In_get in Hi; [|exact Hsec]. apply H3. rewrite (scheme_value _ _ _ _ _ _ Hd) in Hi.
      destruct (last_of (event_declares n) (ev_api seg a)) as [s'|] eqn:El.
      + injection Hi as ->. left. apply last_of_In in El as (x & Hx & Hs). destruct x as [| |n' s'|n' s']; try discriminate. cbn in Hs.
        destruct (str_eqb n n') eqn:En; [|discriminate]. apply str_eqb_eq in En. injection Hs as ->. subst n'. now apply declare_events in Hx.
      + right. apply first_of_In in Hi as (x & Hx & Hs). destruct x as [| |n' s'|n' s']; try discriminate. cbn in Hs.
        destruct (str_eqb n n') eqn:En; [|discriminate]. apply str_eqb_eq in En. injection Hs as ->. subst n'. now apply use_events in Hx.
  Qed.
  Lemma described_conforms : distinct_paths (og_paths d) -> conforms (ser_opg d).
  Proof.
    intros Hdist. apply conforms_iff; [|now apply described_tidy]. eapply described_wf; [exact Hd|exact raw_wf].
  Qed.
End Docs.

Theorem describable_schema pe pp uni ev D E t cx m cx' :
  describable pe pp uni ev D E t -> schema_returns E t cx m cx' -> is_schema (ser_model m).
Proof.
  intros Hd Hs. destruct Hs as [f Hs]. apply is_schema_iff; [eapply get_schema_wf_model; exact Hs|].
  apply describable_neat in Hd. now apply (schema_tidy _ _ _ _ _ Hd (ex_intro _ f Hs)).
Qed.
Theorem describable_components pe pp uni ev D E calls cx :
  (forall c, In c calls -> describable pe pp uni ev D E (mc_ty c) /\ p_variants (mc_params c) <> Some []) -> mentions_return E calls cx_new cx ->
  forall n m, In (n, m) (cx_schemas cx) -> component_name n /\ is_schema (ser_model m).
Proof.
  intros Hd [f Hs] n m Hi. assert (Hg : good_cx cx).
  { eapply mention_all_good; [|exact Hs|intros ? ? []]. intros c Hc. destruct (Hd c Hc) as [H1 H2]. split; [eapply describable_neat; exact H1|exact H2]. }
  destruct (Hg _ _ Hi) as [H1 H2]. split; [exact H1|]. apply is_schema_iff; [|exact H2].
  assert (Hw : wf_components cx) by (eapply mention_all_wf_components; [exact Hs|split; [split; constructor|intros ? ? []]]).
  eapply Hw, Hi.
Qed.
Theorem describable_conforms pe pp uni ev D E reason seg a d :
  describes E reason seg a d -> presentable a -> distinct_paths (og_paths d) ->
  (forall t, names_type seg a t -> describable pe pp uni ev D E t) -> conforms (ser_opg d).
Proof.
  intros Hd Hp Hx Ht. assert (Hn : forall t, names_type seg a t -> neat E t) by (intros t H; eapply describable_neat; apply Ht, H).
  eapply described_conforms; eauto.
  - intros t r H (cx & cx' & Hr). now apply (mention_tidy _ _ _ _ _ _ _ (Hn t H)) in Hr.
  - destruct (components_of_types _ _ _ _ _ Hd) as (ts & cx & Hts & [f Hm] & Es). rewrite Es.
    apply (mention_all_good E (map default_call ts) f cx_new cx); auto; [|intros ? ? []].
    intros c Hc. apply in_map_iff in Hc as (t & <- & H). cbn. split; [apply Hn; now apply Hts|discriminate].
Qed.
