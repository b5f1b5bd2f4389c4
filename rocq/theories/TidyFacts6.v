(** Exactly which documents of describe_api! conform to OpenAPI, if nothing is said twice. *)
From Verif Require Import Attr AttrSpec Ast Derive DeriveSpec Schema SchemaSpec Gen GenSpec GenFacts GenFacts4 GenFacts5 SerSpec SerFacts4 ApiSpec ApiFacts ApiFacts2 ApiFacts3 ApiFacts5 ApiFacts7 ApiFacts8 LocalFacts
  TidySpec OpenApiFacts TidyFacts TidyFacts2 TidyFacts3 TidyFacts4 TidyFacts5.

Lemma last_once {X K} `{Ord K} (key : X -> K) l x : alike key l -> In x l -> last_with key (key x) l = Some x.
Proof.
  intros Ho Hi. destruct (last_with key (key x) l) as [y|] eqn:El.
  - apply last_with_In in El as [Hy Hk]. f_equal. now apply Ho.
  - exfalso. rewrite last_with_None in El. now apply (El x).
Qed.
Lemma last_of_one {X A} (sel : X -> option A) l a : (exists x, In x l /\ sel x = Some a) -> (forall x b, In x l -> sel x = Some b -> b = a) -> last_of sel l = Some a.
Proof.
  intros (x & Hx & Hs) Ho. destruct (last_of sel l) as [b|] eqn:El.
  - apply last_of_In in El as (y & Hy & Hb). f_equal. eauto.
  - rewrite last_of_None in El. rewrite (El x Hx) in Hs. discriminate.
Qed.

Lemma prim_neat E p : neat E (TPrim p).
Proof.
  assert (H : forall t, ~ refers_to E (TPrim p) t) by (intros t Hc; cbn in Hc; firstorder).
  assert (Hc : forall t, ~ contains E (TPrim p) t) by (intros t Ht; inversion Ht; subst; eapply H; eassumption).
  intros t [->|Ht]; [split; [exact I|discriminate]|destruct (Hc t Ht)].
Qed.

Section Docs.
  Variables (E : env) (reason : N -> option str) (seg : list tree -> option segment) (a : api) (d : opg).
  Hypothesis Hd : describes E reason seg a d.
  Hypothesis Ho : said_once seg a.
  Notation cbm := (callback_means E reason seg).
  Notation pm := (path_means E reason seg cbm).
  Notation om := (op_means E reason cbm).

  Lemma means_sorted p v : has_path (og_paths d) p v -> (forall r, raw_response a r -> wf_ref r) -> wf_path_value v.
  Proof. intros H Hw. exact (proj1 (proj1 (proj2 (described_wf _ _ _ _ _ Hd Hw))) _ _ H). Qed.
  Lemma method_shown pd p v m l : declares_path a pd -> pm pd (p, v) -> In (PvMethod m l) (pd_props pd) -> exists o, bm_get m (pv_operations v) = Some o /\ om l o.
  Proof.
    intros Hp Hm Hi. pose proof (methods_last E reason seg pd p v m Hm) as H.
    assert (Hl : In (m, l) (methods_of pd)) by (apply in_flat_map; exists (PvMethod m l); split; [exact Hi|now left]).
    change m with (fst (m, l)) in H at 1. rewrite (last_once _ _ _ (proj1 (proj1 Ho _ Hp)) Hl) in H. exact H.
  Qed.
  Lemma declared_shown ds : declared_within (api_paths a) ds -> exists l, within (og_paths d) l /\ Forall2 pm ds l.
  Proof.
    induction 1 as [|ds pd m l cs t n ds' Hw (l0 & H1 & H2) Hi Hm Hc Hn].
    - exists (og_paths d). split; [constructor|]. exact (api_paths_means _ _ _ _ _ (describes_means _ _ _ _ _ Hd)).
    - destruct (Forall2_In_l _ _ _ _ H2 Hi) as ([p v] & Hpv & Hp). assert (Hdp : declares_path a pd) by (exists ds; now split).
      destruct (method_shown _ _ _ _ _ Hdp Hp Hm) as (o & Hg & Hop). pose proof (callbacks_last E reason seg l o n Hop) as H.
      assert (Hin : In (CbIdent n ds') (callbacks_of l)) by (apply in_flat_map; exists (OpCallbacks cs t); split; assumption).
      assert (Hdo : declares_operation a l) by (exists pd, m; now split). destruct (proj1 (proj2 Ho) _ Hdo) as (_ & _ & Hcb & _).
      change n with (cd_name (CbIdent n ds')) in H at 1. rewrite (last_once _ _ _ Hcb Hin) in H. destruct H as (c & Hk & Hcm).
      exists (cb_paths c). split; [|now inversion Hcm]. eapply wi_callback; [exact H1|exact Hpv|eapply bm_get_In; exact Hg|eapply bm_get_In; exact Hk].
  Qed.
  Lemma path_shown pd : declares_path a pd -> exists p v, has_path (og_paths d) p v /\ pm pd (p, v).
  Proof.
    intros (ds & Hw & Hi). destruct (declared_shown _ Hw) as (l & H1 & H2). destruct (Forall2_In_l _ _ _ _ H2 Hi) as ([p v] & Hpv & Hp).
    exists p, v. split; [exists l; now split|exact Hp].
  Qed.
  Lemma operation_shown l : declares_operation a l -> exists o, has_operation (og_paths d) o /\ om l o.
  Proof.
    intros (pd & m & Hp & Hi). destruct (path_shown _ Hp) as (p & v & Hv & Hm). destruct (method_shown _ _ _ _ _ Hp Hm Hi) as (o & Hg & Hop).
    exists o. split; [|exact Hop]. exists p, v, m. split; [exact Hv|eapply bm_get_In; exact Hg].
  Qed.
  Lemma param_shown l q n x t : params_once l -> In q l -> param_type q t -> param_means E q (n, x) -> t = TPrim PString \/ exists r, pr_schema x = Some r /\ refers E t r.
  Proof.
    intros [_ Hs] Hq Ht (_ & _ & _ & _ & _ & r & Hr & Href). specialize (Hs q Hq). unfold last_or in Href.
    destruct q as [n' pl|n' t0 pl]; cbn [pd_params pd_type] in *; destruct Ht as [->|Ht]; cbn [pd_params pd_type] in *.
    - now left.
    - right. exists r. split; [exact Hr|]. rewrite (last_of_one _ pl t) in Href; [exact Href|exists (PpSchema t); now split|].
      intros y b Hy Hb. destruct y; try discriminate. injection Hb as ->. now apply Hs.
    - right. exists r. split; [exact Hr|]. destruct (last_of _ pl) as [t1|] eqn:El; [|exact Href]. apply last_of_In in El as (y & Hy & Hb).
      destruct y; try discriminate. injection Hb as ->. now rewrite <- (Hs _ Hy).
    - right. exists r. split; [exact Hr|]. rewrite (last_of_one _ pl t) in Href; [exact Href|exists (PpSchema t); now split|].
      intros y b Hy Hb. destruct y; try discriminate. injection Hb as ->. rewrite (Hs _ Hy). symmetry. now apply Hs.
  Qed.
  Lemma template_shown pd n t : declares_path a pd -> template_parameter seg pd n t -> exists r, paths_ref r (og_paths d) /\ refers E t r.
  Proof.
    intros Hp Ht. destruct (path_shown _ Hp) as (p & v & Hv & Hm). pose proof (path_parameter_exact E reason seg pd p v n Hm) as H.
    destruct (proj1 Ho _ Hp) as (_ & _ & Hn). destruct (Hn n t Ht) as [Hout Hone]. destruct (last_with pd_name n (path_params_of pd)) as [q|] eqn:El.
    - exfalso. apply last_with_In in El as [Hq Hk]. now apply (Hout q).
    - destruct H as [H1 H2]. destruct (H1 t Ht) as (x & Hx & _). destruct (H2 x Hx) as (_ & _ & _ & _ & t' & r & Ht' & Hr & Href).
      rewrite (Hone _ Ht'). exists r. split; [|exact Href]. left. exists p, v. split; [exact Hv|]. apply prf_parameter with n x; [eapply bm_get_In; exact Hx|exact Hr].
  Qed.
  Lemma response_shown l o c de s : declares_operation a l -> om l o -> In (OpResponse c de s) l -> exists x, In (c, x) (op_responses o) /\ response_means E reason (c, de, s) (c, x).
  Proof.
    intros Hl Hop Hi. pose proof (responses_last E reason seg l o c Hop) as H. destruct (proj1 (proj2 Ho) _ Hl) as (Hr & _).
    assert (Hin : In (c, de, s) (responses_of l)) by (apply in_flat_map; exists (OpResponse c de s); split; [exact Hi|now left]).
    change c with ((fun r : N * option str * response_schema => fst (fst r)) (c, de, s)) in H at 1.
    rewrite (last_once (fun r : N * option str * response_schema => fst (fst r)) _ _ Hr Hin) in H. destruct H as (x & Hx & Hmean). exists x. split; [eapply bm_get_In; exact Hx|exact Hmean].
  Qed.
  Lemma type_shown t : names_type seg a t -> t = TPrim PString \/ exists r, paths_ref r (og_paths d) /\ refers E t r.
  Proof.
    intros Ht. destruct Ht as [pd g text n H1 H2 H3 H4|pd g n H1 H2 H3|pd l q H1 H2 H3 H4|ops l q H1 H2 H3 H4|ops b H1 H2 H3|ops c de s H1 H2 H3].
    - right. apply (template_shown pd n t H1). exists g. split; [exact H2|]. right. eauto.
    - right. apply (template_shown pd n t H1). exists g. split; [exact H2|]. now left.
    - destruct (path_shown _ H1) as (p & v & Hv & Hm). pose proof (path_parameter_exact E reason seg pd p v (pd_name q) Hm) as H.
      destruct (proj1 Ho _ H1) as (_ & Hps & _). assert (Hq : In q (path_params_of pd)) by (apply In_path_params; eauto).
      rewrite (last_once _ _ _ (proj1 Hps) Hq) in H. destruct H as (x & Hx & Hmean).
      destruct (param_shown _ _ _ _ _ Hps Hq H4 Hmean) as [->|(r & Hr & Href)]; [now left|right]. exists r. split; [|exact Href].
      left. exists p, v. split; [exact Hv|]. apply prf_parameter with (pd_name q) x; [eapply bm_get_In; exact Hx|exact Hr].
    - destruct (operation_shown _ H1) as (o & Hop & Hm). pose proof (parameters_last E reason seg ops o (pd_name q) Hm) as H.
      destruct (proj1 (proj2 Ho) _ H1) as (_ & Hps & _). assert (Hq : In q (params_of ops)) by (apply in_flat_map; exists (OpParameters l); now split).
      rewrite (last_once _ _ _ (proj1 Hps) Hq) in H. destruct H as (x & Hx & Hmean).
      destruct (param_shown _ _ _ _ _ Hps Hq H4 Hmean) as [->|(r & Hr & Href)]; [now left|right]. exists r. split; [|exact Href].
      right. exists o. split; [exact Hop|]. apply orf_parameter with (pd_name q) x; [eapply bm_get_In; exact Hx|exact Hr].
    - right. destruct (operation_shown _ H1) as (o & Hop & Hm). destruct (proj1 (proj2 Ho) _ H1) as (_ & _ & _ & Hb & Hbs).
      destruct Hm as (_ & _ & _ & _ & _ & _ & Hbody & _). rewrite (last_of_one _ ops b) in Hbody;
        [|exists (OpBody b); now split|intros y c Hy Hc; destruct y; try discriminate; injection Hc as ->; now apply Hb].
      destruct Hbody as (x & Hx & Hmean). exists (rb_schema x). split; [right; exists o; split; [exact Hop|now apply orf_body with x]|].
      destruct b as [pl|t0]; cbn in H3, Hmean.
      + destruct Hmean as (_ & _ & t1 & Hl & Href). rewrite (last_of_one _ pl t) in Hl; [now injection Hl as ->|exists (BpSchema t); now split|].
        intros y b Hy Hc. destruct y; try discriminate. injection Hc as ->. now apply (Hbs pl).
      + subst t0. apply Hmean.
    - right. destruct (operation_shown _ H1) as (o & Hop & Hm). destruct (response_shown _ _ _ _ _ H1 Hm H2) as (x & Hx & Hmean).
      destruct Hmean as (_ & _ & Hs). cbn [snd] in Hs. destruct s as [| |t0|r0]; cbn in H3; try contradiction; subst; destruct Hs as (r & Hr & Href); exists r;
        (split; [right; exists o; split; [exact Hop|now apply orf_response with c x]|exact Href]).
  Qed.
  Lemma scheme_shown n s : declares_scheme a n s \/ uses_scheme a n s -> bm_get n (cx_security (og_components d)) = Some s.
  Proof.
    intros Hs. destruct Ho as (_ & _ & Hone). rewrite (scheme_value _ _ _ _ _ _ Hd). destruct (last_of (event_declares n) (ev_api seg a)) as [s'|] eqn:El.
    - f_equal. apply (Hone n); [|exact Hs]. left. apply last_of_In in El as (x & Hx & Hb). destruct x as [| |n' s1|n' s1]; try discriminate. cbn in Hb.
      destruct (str_eqb n n') eqn:En; [|discriminate]. apply str_eqb_eq in En. injection Hb as ->. subst n'. now apply declare_events in Hx.
    - destruct (first_of (event_uses n) (ev_api seg a)) as [s'|] eqn:Ef.
      + f_equal. apply (Hone n); [|exact Hs]. right. apply first_of_In in Ef as (x & Hx & Hb). destruct x as [| |n' s1|n' s1]; try discriminate. cbn in Hb.
        destruct (str_eqb n n') eqn:En; [|discriminate]. apply str_eqb_eq in En. injection Hb as ->. subst n'. now apply use_events in Hx.
      + exfalso. destruct Hs as [Hs|Hs].
        * apply (declare_events seg) in Hs. rewrite last_of_None in El. specialize (El _ Hs). cbn in El. now rewrite str_eqb_refl in El.
        * apply (use_events seg) in Hs. apply first_of_None with (x := EvUse n s) in Ef; [|exact Hs]. cbn in Ef. now rewrite str_eqb_refl in Ef.
  Qed.

  Hypothesis Hraw : forall r, raw_response a r -> wf_ref r.
  Lemma tidy_presentable : tidy_document d -> presentable a.
  Proof.
    intros (H1 & _ & (_ & H2 & H3) & _ & H5). pose proof (describes_means _ _ _ _ _ Hd) as Ha. split; [|split; [|split]].
    - intros Hx. apply H1. pose proof (api_paths_means _ _ _ _ _ Ha) as Hf. rewrite Hx in Hf. now inversion Hf.
    - intros l Hl. destruct (operation_shown _ Hl) as (o & Hop & Hm). destruct (H3 _ Hop) as (_ & _ & Hne & Hc). split.
      + destruct Hm as (_ & _ & _ & _ & _ & _ & _ & (rs & Hrs & Hrd) & _). destruct (flat_map _ l) as [|[[c de] s] rest] eqn:Ef in Hrs.
        * inversion Hrs; subst rs. now rewrite Hrd in Hne.
        * assert (Hin : In (c, de, s) (flat_map (fun p => match p with OpResponse c d s => [(c, d, s)] | _ => [] end) l)) by (rewrite Ef; now left).
          apply in_flat_map in Hin as (q & Hq & Hi). destruct q; cbn in Hi; try contradiction. destruct Hi as [[= -> -> ->]|[]]. eauto.
      + intros c de s Hi. destruct (response_shown _ _ _ _ _ Hl Hm Hi) as (x & Hx & _). now apply (Hc c x).
    - intros n s Hs. apply (H5 n s). apply bm_get_In. now apply scheme_shown.
    - intros r Hr. split; [now apply Hraw|]. destruct Hr as (l & c & de & Hl & Hi). destruct (operation_shown _ Hl) as (o & Hop & Hm).
      destruct (response_shown _ _ _ _ _ Hl Hm Hi) as (x & Hx & (_ & _ & Hs)). cbn in Hs. destruct (H3 _ Hop) as (_ & _ & _ & Hc). now apply (Hc c x Hx).
  Qed.
End Docs.

Section Iff.
  Variables (pe pp : str -> bool) (uni : N -> bool) (ev : str -> str) (D : tid -> derive_input ty) (E : env).
  Variables (reason : N -> option str) (seg : list tree -> option segment) (a : api) (d : opg) (ts : list ty).
  Notation sites := (map (fun t => SMention t false) ts).
  Theorem described_iff : describes E reason seg a d -> said_once seg a -> (forall r, raw_response a r -> wf_ref r) ->
    (forall t, In t ts <-> names_type seg a t) -> names_unambiguous E sites ->
    (forall s id, visited E sites s -> site_ty s = TNamed id -> derive pe pp uni ev (D id) = DOk (E id) /\ fields_apart pe pp (D id)) ->
    (conforms (ser_opg d) <->
     presentable a /\ distinct_paths (og_paths d) /\
     (forall s, visited E sites s -> match site_ty s with TNamed id => input_filled pe pp (D id) | TTuple ts => ts <> [] | _ => True end) /\
     (forall t n, linked E sites t -> type_name E t = Some n -> component_name n)).
  Proof.
    intros Hd Ho Hraw Hts Hu Hder. assert (Hw : wf_opg d) by (eapply described_wf; [exact Hd|exact Hraw]). rewrite (conforms_iff d Hw).
    destruct (components_of_types _ _ _ _ _ Hd) as (ts0 & cx & Hts0 & Hret & Es).
    assert (Hsame : forall s, In s (call_sites (map default_call ts0)) <-> In s sites).
    { intros s. rewrite call_sites_default. apply same_sites. intros t. now rewrite Hts0, Hts. }
    assert (Hvis : forall s, visited E (call_sites (map default_call ts0)) s <-> visited E sites s).
    { intros s. split; induction 1; try (constructor; now apply Hsame); eapply vis_step; eassumption. }
    assert (Hlink : forall t, linked E (call_sites (map default_call ts0)) t <-> linked E sites t) by (intros t; unfold linked; now rewrite Hvis).
    assert (Hiff := types_iff pe pp uni ev D E (map default_call ts0) cx Hret).
    assert (Hv : forall c, In c (map default_call ts0) -> p_variants (mc_params c) = None) by (intros c Hc; apply in_map_iff in Hc as (t & <- & _); reflexivity).
    specialize (Hiff Hv (fun s id Hs He => proj1 (Hder s id (proj1 (Hvis s) Hs) He))).
    assert (Hu0 : names_unambiguous E (call_sites (map default_call ts0))) by (eapply unambiguous_same; [|exact Hu]; intros s; symmetry; apply Hsame).
    specialize (Hiff Hu0 (fun s id Hs He => proj2 (Hder s id (proj1 (Hvis s) Hs) He))).
    rewrite (accepted_iff E _ cx Hret) in Hiff. split.
    - intros Ht. pose proof (tidy_presentable _ _ _ _ _ Hd Ho Hraw Ht) as Hp. destruct Ht as (_ & _ & Htp & Htc). split; [exact Hp|]. split; [apply Htp|].
      destruct Hiff as [Hiff _]. destruct Hiff as [H1 H2].
      + split; [rewrite <- Es; apply Htc|]. intros c cx0 r cx1 Hc Hr. apply in_map_iff in Hc as (t & <- & Ht). cbn in Hr. apply Hts0 in Ht.
        destruct (type_shown _ _ _ _ _ Hd Ho t Ht) as [->|(r' & Hpr & Href)].
        * eapply proj1, mention_tidy; [apply (prim_neat E PString)| |exact Hr]. discriminate.
        * assert (r = r') by (eapply refers_one; [eexists _, _; exact Hr|exact Href]). subst r'.
          destruct Htp as (_ & H3 & H4). destruct Hpr as [(p & v & Hv0 & [k q Hq Hqr])|(o & Hop & Hor)].
          -- destruct (H3 _ _ Hv0 _ _ Hq) as [(r1 & Hr1 & Ht1) _]. congruence.
          -- destruct (H4 _ Hop) as (G1 & G2 & _ & G4). destruct Hor as [k q Hq Hqr|b Hb Hbr|c s Hc Hs].
             ++ destruct (G1 _ _ Hq) as [(r1 & Hr1 & Ht1) _]. congruence.
             ++ subst r. now apply G2.
             ++ now apply (G4 c s Hc).
      + split; [intros s Hs; apply H1; now apply Hvis|intros t n Hl; apply H2; now apply Hlink].
    - intros (Hp & Hdist & H1 & H2). destruct Hiff as [_ Hiff]. destruct Hiff as [H3 H4].
      + split; [intros s Hs; apply H1; now apply Hvis|intros t n Hl; apply H2; now apply Hlink].
      + apply (described_tidy E reason seg a d Hd Hp); [| |exact Hdist].
        * intros t r Ht (c0 & c1 & Hr). apply (H4 (default_call t) c0 r c1); [|exact Hr]. apply in_map_iff. exists t. split; [reflexivity|now apply Hts0].
        * rewrite Es. exact H3.
  Qed.
End Iff.
