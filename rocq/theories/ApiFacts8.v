(** Facts about describe_api!, continued. *)
From Verif Require Import ApiSpec ApiFacts ApiFacts2 ApiFacts3 ApiFacts4 ApiFacts5 ApiFacts6 ApiFacts7 SchemaFacts GenFacts GenFacts2 GenFacts3 GenFacts4 SerFacts SerFacts2 SerFacts3 SerFacts4.
Local Open Scope string_scope. Local Open Scope list_scope.
Local Opaque bm_insert.

Section Props.
  Variable E : env.
  Variable reason : N -> option str.
  Variable seg : list tree -> option segment.
  Notation cbm := (callback_means E reason seg).
  Notation pm := (path_means E reason seg cbm).
  Notation om := (op_means E reason cbm).

  Lemma In_path_params pd q : In q (path_params_of pd) <-> exists l, In (PvParameters l) (pd_props pd) /\ In q l.
  Proof.
    unfold path_params_of. rewrite in_flat_map. split.
    - intros (x & Hx & Hq). destruct x; try (now destruct Hq). eauto.
    - intros (l & Hl & Hq). exists (PvParameters l). now split.
  Qed.
  Lemma path_parameters_exact a d p v : describes E reason seg a d -> has_path (og_paths d) p v ->
    exists pd, declares_path a pd /\ pm pd (p, v) /\
    forall n, (In (PeParameter n) p <-> exists t, template_parameter seg pd n t) /\
      match last_with pd_name n (path_params_of pd) with
      | Some q => exists x, bm_get n (pv_parameters v) = Some x /\ param_means E q (n, x)
      | None =>
          (forall t, template_parameter seg pd n t -> exists x, bm_get n (pv_parameters v) = Some x /\ pr_in x = InPath /\ pr_required x = true) /\
          (forall x, bm_get n (pv_parameters v) = Some x ->
             pr_in x = InPath /\ pr_required x = true /\ pr_deprecated x = false /\ pr_description x = None /\
             exists t r, template_parameter seg pd n t /\ pr_schema x = Some r /\ refers E t r)
      end.
  Proof.
    intros Hd Hp. destruct (has_path_declared _ _ _ _ _ _ _ (describes_means _ _ _ _ _ Hd) Hp) as (pd & H1 & H2).
    exists pd. split; [exact H1|]. split; [exact H2|]. intros n. split; [now apply template_path with (E := E) (reason := reason) (v := v)|].
    now apply path_parameter_exact with (reason := reason) (p := p).
  Qed.
  Lemma path_parameters_declared a d p v n : describes E reason seg a d -> has_path (og_paths d) p v -> In (PeParameter n) p ->
    (forall pd q, declares_path a pd -> In q (path_params_of pd) -> pd_name q <> n) ->
    exists x, bm_get n (pv_parameters v) = Some x /\ pr_in x = InPath /\ pr_required x = true.
  Proof.
    intros Hd Hp Hn Hq. destruct (path_parameters_exact _ _ _ _ Hd Hp) as (pd & H1 & _ & H3). destruct (H3 n) as [Hi Hl].
    apply Hi in Hn. destruct Hn as [t Ht]. destruct (last_with pd_name n (path_params_of pd)) as [q|] eqn:El.
    - apply last_with_In in El. destruct El as [El1 El2]. exfalso. exact (Hq pd q H1 El1 El2).
    - exact (proj1 Hl t Ht).
  Qed.
  Lemma path_parameters_emitted a d p v n : describes E reason seg a d -> In (p, v) (og_paths d) -> In (PeParameter n) p ->
    (forall pd q, declares_path a pd -> In q (path_params_of pd) -> pd_name q <> n) ->
    exists w, emits_path (ser_opg d) p w /\ emits_path_parameter w n.
  Proof.
    intros Hd Hp Hn Hq. exists (ser_path_value v). split; [now apply emitted_path|].
    destruct (path_parameters_declared a d p v n Hd) as (x & H1 & H2 & H3); [now exists (og_paths d); split; [constructor|]|exact Hn|exact Hq|].
    eapply emitted_path_parameter; eassumption.
  Qed.

  Lemma refs_resolve_all a d s : describes E reason seg a d -> (forall r, ~ raw_response a r) -> has_ref s (ser_opg d) ->
    exists n l w, s = u "#/components/schemas/" ++ n /\ at_ ["components"; "schemas"] (ser_opg d) = Some (VMap l) /\ lookup n l = Some w.
  Proof.
    intros Hd Hr Hs. destruct (refs_resolve _ _ _ _ _ _ Hd Hs) as (n & -> & [(l & w & H1 & H2)|(r & H & _)]); [|now apply Hr in H].
    exists n, l, w. auto.
  Qed.

  Lemma described_order a d : describes E reason seg a d ->
    map sv_url (og_servers d) = flat_map (fun s => match s with ScServers l => map fst l | _ => [] end) a /\
    List.length (og_paths d) = List.length (api_paths a) /\ Forall2 pm (api_paths a) (og_paths d).
  Proof.
    intros Hd. apply describes_means in Hd. assert (Hf := api_paths_means _ _ _ _ _ Hd). split; [|split; [|exact Hf]].
    - destruct Hd as (_ & _ & -> & _). rewrite map_map. cbn. clear. induction a as [|s a IH]; [reflexivity|]. cbn. rewrite map_app, IH.
      now destruct s.
    - clear -Hf. induction Hf; cbn; congruence.
  Qed.

  Lemma response_description_given a d o c x : describes E reason seg a d -> has_operation (og_paths d) o -> bm_get c (op_responses o) = Some x ->
    exists l given s, declares_operation a l /\ In (OpResponse c given s) l /\
      rs_description x = match given with Some t => t | None => match reason c with Some t => t | None => [] end end.
  Proof.
    intros Hd Ho Hx. destruct (has_operation_declared _ _ _ _ _ _ (describes_means _ _ _ _ _ Hd) Ho) as (l & Hl & Hm).
    pose proof (responses_last E reason seg l o c Hm) as Hr. destruct (last_with response_code c (responses_of l)) as [[[c' g] s]|] eqn:El; [|congruence].
    apply last_with_In in El. destruct El as [Hi Hc]. cbn in Hc. subst c'. destruct Hr as (x' & Hx' & _ & Hdesc & _). cbn in Hdesc.
    assert (x' = x) by congruence. subst x'. unfold responses_of in Hi. apply in_flat_map in Hi. destruct Hi as (q & Hq & Hi).
    destruct q; try (now destruct Hi). destruct Hi as [[= -> -> ->]|[]]. exists l, g, s. split; [exact Hl|]. split; [exact Hq|].
    destruct g as [t|]; [exact Hdesc|]. destruct (reason c); exact Hdesc.
  Qed.
  Lemma operation_parameter_means a d o n x : describes E reason seg a d -> has_operation (og_paths d) o -> bm_get n (op_parameters o) = Some x ->
    exists l q, declares_operation a l /\ In q (params_of l) /\ param_means E q (n, x).
  Proof.
    intros Hd Ho Hx. destruct (has_operation_declared _ _ _ _ _ _ (describes_means _ _ _ _ _ Hd) Ho) as (l & Hl & Hm).
    pose proof (parameters_last E reason seg l o n Hm) as Hr. destruct (last_with pd_name n (params_of l)) as [q|] eqn:El; [|congruence].
    apply last_with_In in El. destruct El as [Hi Hc]. destruct Hr as (x' & Hx' & Hp). assert (x' = x) by congruence. subst x'. eauto.
  Qed.
  Lemma callbacks_keep a d o k c : describes E reason seg a d -> has_operation (og_paths d) o -> bm_get k (op_callbacks o) = Some c ->
    exists l cs t, declares_operation a l /\ In (OpCallbacks cs t) l /\
      ((exists ds, In (CbIdent k ds) cs /\ Forall2 pm ds (cb_paths c)) \/ (exists ds, In (CbLit k ds) cs /\ cb_paths c = [])).
  Proof.
    intros Hd Ho Hx. destruct (has_operation_declared _ _ _ _ _ _ (describes_means _ _ _ _ _ Hd) Ho) as (l & Hl & Hm).
    pose proof (callbacks_last E reason seg l o k Hm) as Hr. destruct (last_with cd_name k (callbacks_of l)) as [q|] eqn:El; [|congruence].
    apply last_with_In in El. destruct El as [Hi Hc]. destruct Hr as (x' & Hx' & Hp). assert (x' = c) by congruence. subst x'.
    unfold callbacks_of in Hi. apply in_flat_map in Hi. destruct Hi as (p & Hpl & Hi). destruct p; try (now destruct Hi).
    exists l. do 2 eexists. split; [exact Hl|]. split; [exact Hpl|]. inversion Hp; subst; cbn.
    - right. eauto.
    - left. eauto.
  Qed.

  Lemma callbacks_declared a d pd m l n ds : describes E reason seg a d -> In pd (api_paths a) -> last_with fst m (methods_of pd) = Some (m, l) ->
    last_with cd_name n (callbacks_of l) = Some (CbIdent n ds) ->
    exists p v o c, In (p, v) (og_paths d) /\ bm_get m (pv_operations v) = Some o /\ bm_get n (op_callbacks o) = Some c /\ Forall2 pm ds (cb_paths c).
  Proof.
    intros Hd Hi Hm Hc. destruct (describes_means _ _ _ _ _ Hd) as (_ & _ & _ & Hf). destruct (Forall2_In_l _ _ _ _ Hf Hi) as ([p v] & Hpv & Hp).
    pose proof (methods_last E reason seg pd p v m Hp) as Ho. rewrite Hm in Ho. destruct Ho as (o & Ho & Hop).
    pose proof (callbacks_last E reason seg l o n Hop) as Hx. rewrite Hc in Hx. destruct Hx as (c & Hx & Hcm). exists p, v, o, c.
    split; [exact Hpv|]. split; [exact Ho|]. split; [exact Hx|]. now inversion Hcm.
  Qed.

  (** ** Urls *)
  Lemma url_elements pd p v gs : pd_url pd = join_url gs -> gs <> [] -> pm pd (p, v) ->
    exists segs, Forall2 (fun g s => g <> [] /\ seg g = Some s) gs segs /\ Forall2 segment_means segs p.
  Proof.
    intros Hu Hg ((segs & up & ps & H1 & H2 & _) & _). rewrite Hu, split_join in H1 by exact Hg. eauto.
  Qed.
  Lemma compiles_rules a : does_not_compile E reason seg a <-> breaks_rule seg a.
  Proof. rewrite does_not_compile_iff. apply compiles_false. Qed.
  Lemma url_rejected a pd gs : declares_path a pd -> pd_url pd = join_url gs -> gs <> [] ->
    (In [] gs \/ exists g, In g gs /\ seg g = None) -> does_not_compile E reason seg a.
  Proof.
    intros Hp Hu Hg H. apply compiles_rules. destruct H as [H|(g & H & Hs)].
    - apply (br_url seg a pd []); [exact Hp|now rewrite Hu, split_join|now left].
    - apply (br_url seg a pd g); [exact Hp|now rewrite Hu, split_join|now right].
  Qed.
  Lemma split_app l l' : exists a b c, split_url l = a ++ [b] /\ split_url l' = c :: tl (split_url l') /\ split_url (l ++ l') = a ++ (b ++ c) :: tl (split_url l').
  Proof.
    destruct (split_url l') as [|c r] eqn:E'; [now apply split_url_nonempty in E'|].
    induction l as [|t l (a & b & c' & H1 & H2 & H3)].
    - exists [], [], c. cbn. now rewrite E'.
    - injection H2 as <-. destruct t as [|s]; cbn.
      + exists ([] :: a), b, c. rewrite H1, H3. auto.
      + destruct a as [|g a].
        * exists [], (s :: b), c. rewrite H1, H3. auto.
        * exists ((s :: g) :: a), b, c. rewrite H1, H3. auto.
  Qed.
  Lemma slashes_rejected a pd url : declares_path a pd ->
    pd_url pd = USlash :: url \/ pd_url pd = url ++ [USlash] \/ (exists url', pd_url pd = url ++ USlash :: USlash :: url') \/ pd_url pd = [] ->
    does_not_compile E reason seg a.
  Proof.
    intros Hp H. apply compiles_rules. apply (br_url seg a pd []); [exact Hp| |now left].
    destruct H as [->|[->|[(url' & ->)| ->]]]; cbn; auto.
    - destruct (split_app url [USlash]) as (x & y & z & H1 & H2 & H3). rewrite H3. apply in_or_app. right. cbn. auto.
    - destruct (split_app url (USlash :: USlash :: url')) as (x & y & z & H1 & H2 & H3). rewrite H3. apply in_or_app. right. cbn. auto.
  Qed.

  (** ** Types *)
  Lemma In_types_of t l : In t (types_of l) <-> In (EvType t) l.
  Proof.
    unfold types_of. rewrite in_flat_map. split.
    - intros (e & He & Ht). destruct e; try (now destruct Ht). destruct Ht as [->|[]]. exact He.
    - intros H. exists (EvType t). split; [exact H|now left].
  Qed.
  Lemma types_written a t : In t (types_of (ev_api seg a)) <-> names_type seg a t.
  Proof. rewrite In_types_of. apply type_events. Qed.
  Lemma components_of_types a d : describes E reason seg a d ->
    exists ts cx, (forall t, In t ts <-> names_type seg a t) /\ mentions_return E (map default_call ts) cx_new cx /\
      cx_schemas (og_components d) = cx_schemas cx.
  Proof.
    intros Hd. destruct (describes_components _ _ _ _ _ Hd) as (cx & H1 & H2 & _). exists (types_of (ev_api seg a)), cx.
    split; [apply types_written|]. now split.
  Qed.
  Lemma call_sites_default ts : call_sites (map default_call ts) = map (fun t => SMention t false) ts.
  Proof. unfold call_sites. rewrite map_map. reflexivity. Qed.
  Lemma same_sites ts ts' : (forall t, In t ts <-> In t ts') -> forall s, In s (map (fun t => SMention t false) ts) <-> In s (map (fun t => SMention t false) ts').
  Proof. intros H s. rewrite !in_map_iff. split; intros (t & Ht & Hi); exists t; (split; [exact Ht|now apply H]). Qed.
  Lemma unambiguous_same l l' : (forall s, In s l <-> In s l') -> names_unambiguous E l -> names_unambiguous E l'.
  Proof. intros H Hu t1 t2 H1 H2. apply Hu; now apply (linked_same E l l' H). Qed.
  Lemma unique_same l l' : (forall s, In s l <-> In s l') -> names_unique E l -> names_unique E l'.
  Proof. intros H Hu t1 t2 H1 H2. apply Hu; now apply (linked_same E l l' H). Qed.

  Lemma components_exact a d ts : describes E reason seg a d -> (forall t, In t ts <-> names_type seg a t) ->
    names_unambiguous E (map (fun t => SMention t false) ts) ->
    (forall n, registered (og_components d) n <-> exists t, linked E (map (fun t => SMention t false) ts) t /\ type_name E t = Some n) /\
    (forall t n, linked E (map (fun t => SMention t false) ts) t -> type_name E t = Some n ->
       exists m, bm_get n (cx_schemas (og_components d)) = Some m /\ forall cx, exists cx', schema_returns E t cx m cx').
  Proof.
    intros Hd Hts Hu. destruct (components_of_types _ _ Hd) as (ts' & cx & Ht' & Hm & Es).
    assert (Hsame : forall s, In s (map (fun t => SMention t false) ts) <-> In s (map (fun t => SMention t false) ts')).
    { apply same_sites. intros t. rewrite Hts, Ht'. reflexivity. }
    pose proof (unambiguous_same _ _ Hsame Hu) as Hu'. rewrite <- call_sites_default in Hu'.
    destruct (history_exact E _ _ Hu' Hm) as (H1 & H2 & _). rewrite call_sites_default in H1, H2. unfold registered in *. rewrite Es. split.
    - intros n. rewrite H1. split; intros (t & Hl & Hn); exists t; (split; [now apply (linked_same E _ _ Hsame)|exact Hn]).
    - intros t n Hl Hn. destruct (H2 t n) as (m & Hm1 & _ & Hm2); [now apply (linked_same E _ _ Hsame)|exact Hn|]. eauto.
  Qed.
  Lemma components_same a a' d d' : describes E reason seg a d -> describes E reason seg a' d' ->
    (forall t, names_type seg a t <-> names_type seg a' t) ->
    (forall ts, (forall t, In t ts <-> names_type seg a t) -> names_unambiguous E (map (fun t => SMention t false) ts)) ->
    cx_schemas (og_components d) = cx_schemas (og_components d').
  Proof.
    intros Hd Hd' Ha Hu. destruct (components_of_types _ _ Hd) as (ts & cx & Ht & Hm & ->).
    destruct (components_of_types _ _ Hd') as (ts' & cx' & Ht' & Hm' & ->).
    assert (Hsame : forall s, In s (call_sites (map default_call ts)) <-> In s (call_sites (map default_call ts'))).
    { rewrite !call_sites_default. apply same_sites. intros t. rewrite Ht, Ht'. apply Ha. }
    assert (Hm2 : mentions_return E (map default_call ts') cx_new cx).
    { apply (history_order_free E (map default_call ts)); [rewrite call_sites_default; now apply Hu|exact Hsame|exact Hm]. }
    destruct Hm2 as [f1 H1], Hm' as [f2 H2].
    apply (mention_all_le E f1 (f1 + f2)) in H1; [|lia]. apply (mention_all_le E f2 (f1 + f2)) in H2; [|lia]. congruence.
  Qed.

  Lemma returned_not_recursive calls cx c : names_unique E (call_sites calls) -> mentions_return E calls cx_new cx -> In c calls -> ~ recursive E (mc_ty c).
  Proof.
    intros Hu [f Hf] Hc Hr. rewrite mention_all_exec in Hf.
    apply (acc_not_recursive E (mc_ty c)); [|exact Hr].
    apply (exec_roots_acc E (call_sites calls) Hu f cx Hf (SMention (mc_ty c) (mc_inline c))).
    apply (in_map (fun c => SMention (mc_ty c) (mc_inline c))), Hc.
  Qed.
  Lemma not_recursive_describes a : ~ does_not_compile E reason seg a -> ~ unnameable seg a ->
    (forall t, names_type seg a t -> ~ recursive E t /\ exists l, forall t', contains E t t' -> In t' l) -> exists d, describes E reason seg a d.
  Proof.
    intros Hc Hp Ht. apply describes_iff. split; [exact Hc|]. split; [intros H; apply Hp, panic_events, H|].
    apply finite_mentions. intros c Hi. apply in_map_iff in Hi. destruct Hi as (t & <- & Hi). apply types_written in Hi. exact (Ht t Hi).
  Qed.
  Lemma describes_when a ts : (forall t, In t ts <-> names_type seg a t) -> names_unique E (map (fun t => SMention t false) ts) ->
    (forall t, In t ts -> exists l, forall t', contains E t t' -> In t' l) ->
    ((exists d, describes E reason seg a d) <-> ~ does_not_compile E reason seg a /\ ~ unnameable seg a /\ forall t, In t ts -> ~ recursive E t).
  Proof.
    intros Hts Hu Hfin. split.
    - intros Hd. pose proof Hd as Hd'. apply describes_iff in Hd'. destruct Hd' as (H1 & H2 & _). split; [exact H1|]. split; [intros H; apply H2, panic_events, H|].
      destruct Hd as [d Hd]. destruct (components_of_types _ _ Hd) as (ts' & cx & Ht' & Hm & _). intros t Ht.
      assert (Hsame : forall s, In s (map (fun t => SMention t false) ts) <-> In s (call_sites (map default_call ts'))).
      { rewrite call_sites_default. apply same_sites. intros t0. rewrite Hts, Ht'. reflexivity. }
      apply (returned_not_recursive (map default_call ts') cx (default_call t)); [exact (unique_same _ _ Hsame Hu)|exact Hm|].
      apply in_map, Ht', Hts, Ht.
    - intros (H1 & H2 & H3). apply not_recursive_describes; [exact H1|exact H2|]. intros t Ht. apply Hts in Ht. split; [now apply H3|now apply Hfin].
  Qed.
  Lemma panicked_unnameable f a : describe_api E f reason seg a = Panicked -> unnameable seg a.
  Proof.
    intros Ed. apply panic_events.
    assert (Hc : forallb (section_compiles seg) a = true).
    { destruct (forallb (section_compiles seg) a) eqn:Ec; [reflexivity|]. apply (rejected_iff E f reason) in Ec. congruence. }
    pose proof (describe_api_components E f reason seg a Hc) as Hd. rewrite Ed in Hd. cbn in Hd. symmetry in Hd. revert Hd. generalize cx_new.
    induction (ev_api seg a) as [|e l IH]; intros cx H; [discriminate|]. destruct e as [t| |n s|n s]; cbn in H.
    - unfold api_mention in H. destruct (mention E f t false params_default cx) as [[r cx1]|]; cbn in H; [|discriminate]. right. eapply IH; eauto.
    - now left.
    - right. eapply IH; eauto.
    - right. eapply IH; eauto.
  Qed.
  Lemma recursive_never a ts t : (forall t, In t ts <-> names_type seg a t) -> names_unique E (map (fun t => SMention t false) ts) ->
    ~ does_not_compile E reason seg a -> ~ unnameable seg a -> In t ts -> recursive E t -> never_returns E reason seg a.
  Proof.
    intros Hts Hu Hc Hp Ht Hr f. destruct (describe_api E f reason seg a) as [d| | |] eqn:Ed; [|reflexivity| |].
    - exfalso. destruct (components_of_types a d (ex_intro _ f Ed)) as (ts' & cx & Ht' & Hm & _).
      assert (Hsame : forall s, In s (map (fun t => SMention t false) ts) <-> In s (call_sites (map default_call ts'))).
      { rewrite call_sites_default. apply same_sites. intros t0. rewrite Hts, Ht'. reflexivity. }
      apply (returned_not_recursive (map default_call ts') cx (default_call t)); [exact (unique_same _ _ Hsame Hu)|exact Hm| |exact Hr].
      apply in_map, Ht', Hts, Ht.
    - exfalso. apply Hp. eapply panicked_unnameable; eassumption.
    - exfalso. apply Hc. apply does_not_compile_iff. now apply rejected_iff in Ed.
  Qed.
  Lemma first_panic (l : list event) : In EvPanic l -> exists l1 l2, l = l1 ++ EvPanic :: l2 /\ ~ In EvPanic l1.
  Proof.
    induction l as [|e l IH]; [intros []|]. intros H. assert (Hd : {e = EvPanic} + {e <> EvPanic}) by (destruct e; (left; reflexivity) || (right; discriminate)).
    destruct Hd as [->|Hn]; [exists [], l; split; [reflexivity|intros []]|].
    destruct H as [H|H]; [congruence|]. destruct (IH H) as (l1 & l2 & -> & H1). exists (e :: l1), l2. split; [reflexivity|]. intros [H2|H2]; auto.
  Qed.
  Lemma unnameable_panics a : ~ does_not_compile E reason seg a -> unnameable seg a ->
    (forall d, ~ describes E reason seg a d) /\
    ((forall t, names_type seg a t -> ~ recursive E t /\ exists l, forall t', contains E t t' -> In t' l) -> panics E reason seg a).
  Proof.
    intros Hc Hp. apply panic_events in Hp. split.
    - intros d Hd. exact (describes_no_panic _ _ _ _ _ Hd Hp).
    - intros Ht. assert (Hw : forall t, In t (types_of (ev_api seg a)) -> names_type seg a t) by apply types_written.
      destruct (first_panic _ Hp) as (l1 & l2 & El & Hn). rewrite El in Hw.
      destruct (finite_mentions E (map default_call (types_of l1))) with (cx := cx_new) as (cx1 & f & Hf).
      { intros c Hi. apply in_map_iff in Hi. destruct Hi as (t & <- & Hi). apply Ht, Hw. unfold types_of. rewrite flat_map_app. apply in_or_app. now left. }
      destruct (events_return E l1 f cx_new cx1 Hn Hf []) as (cx' & Hr & _). exists f.
      assert (Hc' : forallb (section_compiles seg) a = true).
      { destruct (forallb (section_compiles seg) a) eqn:Ec; [reflexivity|]. exfalso. apply Hc. now apply does_not_compile_iff. }
      pose proof (describe_api_components E f reason seg a Hc') as Hd. rewrite El, run_events_app in Hd.
      change (framed [] cx_new) with cx_new in Hr. rewrite Hr in Hd. cbn in Hd.
      destruct (describe_api E f reason seg a); cbn in Hd; congruence.
  Qed.

  (** ** Parameters *)
  Lemma last_none {X A} (sel : X -> option A) l dflt : (forall x, In x l -> sel x = None) -> last_or sel l dflt = dflt.
  Proof. intros H. unfold last_or. now rewrite (proj2 (last_of_None _ _) H). Qed.
  Lemma header_defaults n props x : param_means E (PdHeader n props) (n, x) ->
    pr_in x = InHeader /\
    ((forall b, ~ In (PpRequired b) props) -> pr_required x = true) /\ ((forall b, ~ In (PpDeprecated b) props) -> pr_deprecated x = false) /\
    ((forall s, ~ In (PpDescription s) props) -> pr_description x = None) /\
    ((forall t, ~ In (PpSchema t) props) -> exists r, pr_schema x = Some r /\ refers E (TPrim PString) r).
  Proof.
    intros (_ & H1 & H2 & H3 & H4 & r & H5 & H6). cbn [pd_params pd_type] in *. split; [exact H1|]. split; [|split; [|split]]; intros Hn.
    - rewrite H3. apply last_none. intros y Hy. destruct y; try reflexivity. now apply Hn in Hy.
    - rewrite H4. apply last_none. intros y Hy. destruct y; try reflexivity. now apply Hn in Hy.
    - rewrite H2. apply last_of_None. intros y Hy. destruct y; try reflexivity. now apply Hn in Hy.
    - exists r. split; [exact H5|]. rewrite last_none in H6; [exact H6|]. intros y Hy. destruct y; try reflexivity. now apply Hn in Hy.
  Qed.
  Lemma query_defaults n t props x : param_means E (PdQuery n t props) (n, x) ->
    pr_in x = InQuery /\
    ((forall b, ~ In (PpRequired b) props) -> pr_required x = false) /\ ((forall b, ~ In (PpDeprecated b) props) -> pr_deprecated x = false) /\
    ((forall s, ~ In (PpDescription s) props) -> pr_description x = None) /\
    ((forall t', ~ In (PpSchema t') props) -> exists r, pr_schema x = Some r /\ refers E t r).
  Proof.
    intros (_ & H1 & H2 & H3 & H4 & r & H5 & H6). cbn [pd_params pd_type] in *. split; [exact H1|]. split; [|split; [|split]]; intros Hn.
    - rewrite H3. apply last_none. intros y Hy. destruct y; try reflexivity. now apply Hn in Hy.
    - rewrite H4. apply last_none. intros y Hy. destruct y; try reflexivity. now apply Hn in Hy.
    - rewrite H2. apply last_of_None. intros y Hy. destruct y; try reflexivity. now apply Hn in Hy.
    - exists r. split; [exact H5|]. rewrite last_none in H6; [exact H6|]. intros y Hy. destruct y; try reflexivity. now apply Hn in Hy.
  Qed.
  Lemma last_of_mid {X A} (sel : X -> option A) before p after v : sel p = Some v -> (forall y, In y after -> sel y = None) ->
    last_of sel (before ++ p :: after) = Some v.
  Proof. intros Hp Ha. rewrite last_of_app. cbn. rewrite (proj2 (last_of_None _ _) Ha), Hp. reflexivity. Qed.
  Lemma given_properties q n x before p after : param_means E q (n, x) -> pd_params q = before ++ p :: after ->
    match p with
    | PpRequired b => (forall b', ~ In (PpRequired b') after) -> pr_required x = b
    | PpDeprecated b => (forall b', ~ In (PpDeprecated b') after) -> pr_deprecated x = b
    | PpDescription s => (forall s', ~ In (PpDescription s') after) -> pr_description x = Some s
    | PpSchema t => (forall t', ~ In (PpSchema t') after) -> exists r, pr_schema x = Some r /\ refers E t r
    end.
  Proof.
    intros (_ & H1 & H2 & H3 & H4 & r & H5 & H6) Hq. rewrite Hq in *. unfold last_or in *. destruct p as [s|b|b|t]; intros Hn.
    - rewrite H2. apply last_of_mid; [reflexivity|]. intros y Hy. destruct y; try reflexivity. now apply Hn in Hy.
    - rewrite H3. erewrite last_of_mid; [reflexivity|reflexivity|]. intros y Hy. destruct y; try reflexivity. now apply Hn in Hy.
    - rewrite H4. erewrite last_of_mid; [reflexivity|reflexivity|]. intros y Hy. destruct y; try reflexivity. now apply Hn in Hy.
    - exists r. split; [exact H5|]. erewrite last_of_mid in H6; [exact H6|reflexivity|]. intros y Hy. destruct y; try reflexivity. now apply Hn in Hy.
  Qed.
End Props.

Lemma describe_object_form desc l :
  (forall k, property_of (describe_type (DtObject desc l)) k =
     match last_with (fun e => fst (fst e)) k l with Some e => Some (describe_value_ref (snd e)) | None => None end) /\
  exists o, object_of (describe_type (DtObject desc l)) = Some o /\ mo_additional o = None /\
    mo_required o = map (fun e => fst (fst e)) (filter (fun e => snd (fst e)) l) /\
    m_description (describe_type (DtObject desc l)) = desc.
Proof.
  split; [intros k; apply describe_object_property|]. rewrite describe_object. eexists. repeat split.
Qed.
