(** Facts about describe_api!: when it gives a document, and with which components. *)
From Verif Require Import ApiSpec ApiFacts GenSpec GenFacts GenFacts2 GenFacts3 GenFacts4 SerFacts SerFacts2 SerFacts3 SerFacts4.
Local Open Scope string_scope. Local Open Scope list_scope.
Local Opaque bm_insert.

Definition forget {A} (x : outcome (A * components)) : outcome components :=
  match x with Done (_, cx) => Done cx | NoReturn => NoReturn | Panicked => Panicked | Rejected => Rejected end.

Lemma forget_bind {A B} (x : outcome (A * components)) (f : A * components -> outcome (B * components)) (g : components -> outcome components) :
  (forall a cx, x = Done (a, cx) -> forget (f (a, cx)) = g cx) ->
  forget (obind x f) = obind (forget x) g.
Proof. intros H. destruct x as [[a cx]| | |]; cbn; auto. Qed.

Lemma http_steps l : forall k f d, fold_left (fun st p => http_step p st) l (k, f, d) =
  (match last_of (fun p => match p with HpScheme k => Some k | _ => None end) l with Some k' => Some k' | None => k end,
   match last_of (fun p => match p with HpFormat s => Some s | _ => None end) l with Some f' => Some f' | None => f end,
   match last_of (fun p => match p with HpDescription s => Some s | _ => None end) l with Some d' => Some d' | None => d end).
Proof.
  induction l as [|p l IH]; intros k f d; [reflexivity|]. cbn [fold_left last_of].
  destruct p; cbn [http_step]; rewrite IH; repeat (last_goal; try reflexivity).
Qed.
Lemma key_steps l : forall i n d, fold_left (fun st p => key_step p st) l (i, n, d) =
  (last_or (fun p => match p with KpIn i => Some i | _ => None end) l i,
   match last_of (fun p => match p with KpName s => Some s | _ => None end) l with Some n' => Some n' | None => n end,
   match last_of (fun p => match p with KpDescription s => Some s | _ => None end) l with Some d' => Some d' | None => d end).
Proof.
  induction l as [|p l IH]; intros i n d; [reflexivity|]. rewrite last_or_given. cbn [fold_left last_of].
  destruct p; cbn [key_step]; rewrite IH; repeat (last_goal; try reflexivity).
Qed.
Lemma scheme_of_declared x : scheme_of x = match scheme_declared x with Some y => Done y | None => Rejected end.
Proof.
  destruct x as [n l|n l]; cbn [scheme_of scheme_declared].
  - rewrite http_steps. destruct (last_of (fun p => match p with HpScheme k => Some k | _ => None end) l) as [[]|]; [| |reflexivity];
      repeat (last_goal; try reflexivity).
  - rewrite key_steps. destruct (last_of (fun p => match p with KpName s => Some s | _ => None end) l); [|reflexivity]. repeat (last_goal; try reflexivity).
Qed.

Section Events.
  Variable E : env.
  Variable fuel : nat.
  Variable reason : N -> option str.
  Variable seg : list tree -> option segment.

  Definition declare_scheme (n : str) (s : security_scheme) (cx : components) : components :=
    {| cx_schemas := cx_schemas cx; cx_security := bm_insert n s (cx_security cx) |}.
  Definition run_event (e : event) (cx : components) : outcome components :=
    match e with
    | EvType t => forget (api_mention E fuel t cx)
    | EvPanic => Panicked
    | EvUse n s => Done (snd (mention_security_scheme n s cx))
    | EvDeclare n s => Done (declare_scheme n s cx)
    end.
  Fixpoint run_events (l : list event) (cx : components) : outcome components :=
    match l with [] => Done cx | e :: l' => obind (run_event e cx) (run_events l') end.
  Lemma run_events_app l l' cx : run_events (l ++ l') cx = obind (run_events l cx) (run_events l').
  Proof. revert cx. induction l as [|e l IH]; intros cx; [reflexivity|]. cbn. destruct (run_event e cx); cbn; auto. Qed.
  Lemma run_events_one e cx : run_events [e] cx = run_event e cx.
  Proof. cbn. now destruct (run_event e cx). Qed.

  Lemma forget_list {X S} (f : X -> S -> components -> outcome (S * components)) (ev : X -> list event) l :
    (forall x, In x l -> forall s cx, forget (f x s cx) = run_events (ev x) cx) ->
    forall s cx, forget (exec_list f l s cx) = run_events (flat_map ev l) cx.
  Proof.
    intros H. induction l as [|x l IH]; intros s cx; [reflexivity|].
    cbn [exec_list flat_map]. rewrite run_events_app, <- (H x (or_introl eq_refl) s cx).
    apply forget_bind. intros s1 cx1 _. apply IH. intros y Hy. apply H. now right.
  Qed.

  Lemma ev_mention t cx (B : Type) (f : model_ref * components -> outcome (B * components)) :
    (forall r cx', forget (f (r, cx')) = Done cx') ->
    forget (obind (api_mention E fuel t cx) f) = run_events [EvType t] cx.
  Proof. intros H. rewrite run_events_one. cbn. unfold forget at 1. destruct (api_mention E fuel t cx) as [[r cx']| | |]; cbn; auto. now rewrite <- (H r cx'). Qed.

  Lemma ev_exec_segment s st cx : forget (exec_segment E fuel s st cx) = run_events (ev_segment s) cx.
  Proof.
    destruct st as [p ps]. destruct s as [l|text t|n t]; cbn [exec_segment ev_segment].
    - reflexivity.
    - destruct (type_param_name text); [|reflexivity]. now apply ev_mention.
    - now apply ev_mention.
  Qed.
  Lemma url_compiles_texts url : url_compiles seg url = true ->
    exists gs segs, munch url [] = Some gs /\ texts gs = Some (split_url url) /\ Forall2 (fun g s => seg g = Some s) (split_url url) segs.
  Proof.
    unfold url_compiles. pose proof (munch_split url) as Hm. destruct (munch url []) as [gs|]; [|discriminate]. intros H.
    assert (Ht : exists ts segs, texts gs = Some ts /\ Forall2 (fun g s => seg g = Some s) ts segs).
    { clear Hm. induction gs as [|g gs IH]; [exists [], []; split; [reflexivity|constructor]|]. cbn in H. apply andb_true_iff in H. destruct H as [H1 H2].
      destruct (IH H2) as (ts & segs & Ht & Hs). destruct (group_text g) as [t|] eqn:Eg; [|discriminate].
      destruct (seg t) as [s|] eqn:Es; [|discriminate]. exists (t :: ts), (s :: segs). split; [cbn; now rewrite Eg, Ht|now constructor]. }
    destruct Ht as (ts & segs & Ht & Hs). exists gs. rewrite Ht in Hm. destruct (forallb nonempty (split_url url)); [|discriminate].
    injection Hm as ->. exists segs. now repeat split.
  Qed.
  Lemma ev_exec_url url cx : url_compiles seg url = true -> forget (exec_url E fuel seg url cx) = run_events (ev_url seg url) cx.
  Proof.
    intros H. destruct (url_compiles_texts _ H) as (gs & segs & Hm & Ht & Hs). unfold exec_url, ev_url. rewrite Hm. clear Hm H.
    revert Ht Hs. generalize (split_url url). intros ts Ht Hs. generalize (@nil path_element, @nil (str * op_parameter)). intros st. revert gs Ht st cx.
    induction Hs as [|t s ts segs Es Hs IH]; intros gs Ht st cx; destruct gs as [|g gs]; cbn in Ht;
      try (destruct (group_text g) as [t'|] eqn:Eg; [|discriminate]; destruct (texts gs) as [ts'|] eqn:Et; [|discriminate]); try discriminate.
    - reflexivity.
    - injection Ht as -> ->. cbn [exec_list flat_map]. rewrite run_events_app. rewrite Es, <- (ev_exec_segment s st cx).
      unfold exec_group at 1. rewrite Eg, Es. apply forget_bind. intros st1 cx1 _. now apply IH.
  Qed.

  Lemma ev_exec_param_props l a cx : forget (exec_list (exec_param_prop E fuel) l a cx) = run_events (ev_param_props l) cx.
  Proof.
    apply forget_list. intros p _ s cx0. destruct p; cbn [exec_param_prop]; try reflexivity. now apply ev_mention.
  Qed.
  Lemma ev_exec_param d m cx : forget (exec_param E fuel d m cx) = run_events (ev_param d) cx.
  Proof.
    destruct d as [n l|n t l]; cbn [exec_param ev_param run_events run_event].
    - apply forget_bind. intros r cx1 _. rewrite <- (ev_exec_param_props l
        {| pr_description := None; pr_in := InHeader; pr_required := true; pr_deprecated := false; pr_schema := Some r |} cx1).
      now destruct (exec_list (exec_param_prop E fuel) l _ cx1) as [[a cx2]| | |].
    - apply forget_bind. intros r cx1 _. rewrite <- (ev_exec_param_props l
        {| pr_description := None; pr_in := InQuery; pr_required := false; pr_deprecated := false; pr_schema := Some r |} cx1).
      now destruct (exec_list (exec_param_prop E fuel) l _ cx1) as [[a cx2]| | |].
  Qed.
  Lemma ev_exec_params l m cx : forget (exec_list (exec_param E fuel) l m cx) = run_events (flat_map ev_param l) cx.
  Proof. apply forget_list. intros d _ s cx0. apply ev_exec_param. Qed.
  Lemma forget_map {A B} (x : outcome (A * components)) (f : A -> B) :
    forget (obind x (fun p => let (a, cx) := p in Done (f a, cx))) = forget x.
  Proof. now destruct x as [[a cx]| | |]. Qed.

  Lemma ev_exec_body b cx : op_prop_compiles (fun _ => true) (OpBody b) = true -> forget (exec_body E fuel b cx) = run_events (ev_body b) cx.
  Proof.
    destruct b as [l|t]; cbn [op_prop_compiles exec_body ev_body]; intros Hc; [|now apply ev_mention].
    assert (H : forall st cx, forget (exec_list (exec_body_prop E fuel) l st cx) = run_events (flat_map (fun p => match p with BpSchema t => [EvType t] | _ => [] end) l) cx).
    { intros st cx0. apply forget_list. intros p _ [[d r] s] cx1. destruct p; cbn [exec_body_prop]; try reflexivity. now apply ev_mention. }
    rewrite <- (H (None, true, None) cx). destruct (exec_list (exec_body_prop E fuel) l (None, true, None) cx) as [[[[d r] s] cx1]| | |] eqn:He; try reflexivity.
    apply (exec_steps _ (body_prop_step E)) in He; [|intros; eapply exec_body_prop_means; eauto].
    apply body_prop_steps in He. destruct He as (_ & _ & He). cbn. destruct s as [x|]; [reflexivity|]. exfalso. cbn in He.
    assert (Hl : last_of (fun p => match p with BpSchema t => Some t | _ => None end) l <> None).
    { clear -Hc. induction l as [|p l IH]; [discriminate|]. cbn in Hc |- *. destruct (last_of _ l); [discriminate|].
      destruct p; [discriminate|now apply IH|now apply IH]. }
    destruct (last_of _ l) as [t|]; [|congruence]. destruct He as (r0 & H0 & _). discriminate.
  Qed.
  Lemma ev_exec_response s cx : forget (exec_response_schema E fuel s cx) = run_events (ev_response s) cx.
  Proof. destruct s; cbn [exec_response_schema ev_response]; try reflexivity; now apply ev_mention. Qed.
  Lemma ev_exec_item i m cx : no_roles i = true -> forget (exec_security_item i m cx) = run_events (ev_item i) cx.
  Proof.
    destruct i as [n [|]|n s [|]]; try discriminate; intros _; [reflexivity|].
    cbn [exec_security_item ev_item]. rewrite run_events_one. cbn [run_event]. now destruct (mention_security_scheme n s cx).
  Qed.
  Lemma ev_exec_requirement l o cx : l <> [] -> forallb no_roles l = true -> forget (exec_requirement l o cx) = run_events (flat_map ev_item l) cx.
  Proof.
    intros Hl Hr. assert (H : forget (exec_list exec_security_item l [] cx) = run_events (flat_map ev_item l) cx).
    { apply forget_list. intros i Hi s cx0. apply ev_exec_item. rewrite forallb_forall in Hr. now apply Hr. }
    rewrite <- H. unfold exec_requirement. destruct l as [|i l]; [congruence|]. apply forget_map.
  Qed.

  Section Nested.
    Variable exec_cb : callback_decl -> components -> outcome (callback * components).
    Variable evc : callback_decl -> list event.
    Variable cc : callback_decl -> bool.
    Definition cb_ok (c : callback_decl) : Prop := cc c = true -> forall cx, forget (exec_cb c cx) = run_events (evc c) cx.

    Lemma ev_exec_op_prop p o cx : (forall l t, p = OpCallbacks l t -> forall c, In c l -> cb_ok c) -> op_prop_compiles cc p = true ->
      forget (exec_op_prop E fuel reason exec_cb p o cx) = run_events (ev_op_prop evc p) cx.
    Proof.
      intros Hcb Hc. destruct p as [s|s|s|b|l|l|l t|l|b|c d s]; cbn [exec_op_prop ev_op_prop]; try reflexivity.
      - rewrite <- (ev_exec_params l (op_parameters o) cx). apply forget_map.
      - specialize (Hcb l t eq_refl). cbn [op_prop_compiles] in Hc. apply andb_true_iff in Hc. destruct Hc as [Hc Ht]. revert o cx.
        induction l as [|c l IH]; intros o cx; [reflexivity|]. cbn [forallb] in Hc. apply andb_true_iff in Hc. destruct Hc as [Hc Hl].
        cbn [flat_map]. rewrite run_events_app, <- (Hcb c (or_introl eq_refl) Hc cx). cbn [exec_callbacks]. destruct c as [n ps|n ps].
        + apply andb_true_iff in Ht. destruct Ht as [Hn Ht]. destruct l as [|]; [|discriminate]. destruct t; [discriminate|].
          now destruct (exec_cb (CbLit n ps) cx) as [[cb cx1]| | |].
        + apply forget_bind. intros cb cx1 _. apply IH; auto. intros c Hin. apply Hcb. now right.
      - apply forget_list. intros r Hr s cx0. cbn in Hc. rewrite forallb_forall in Hc. specialize (Hc r Hr). apply andb_true_iff in Hc.
        destruct Hc as [H1 H2]. apply ev_exec_requirement; [|exact H2]. now destruct r.
      - rewrite <- (ev_exec_body b cx Hc). apply forget_map.
      - rewrite <- (ev_exec_response s cx). apply forget_map.
    Qed.
    Lemma ev_exec_path_prop p v cx : (forall m l, p = PvMethod m l -> forall cs t, In (OpCallbacks cs t) l -> forall c, In c cs -> cb_ok c) ->
      path_prop_compiles cc p = true -> forget (exec_path_prop E fuel reason exec_cb p v cx) = run_events (ev_path_prop evc p) cx.
    Proof.
      intros Hcb Hc. destruct p as [s|s|l|m l]; cbn [exec_path_prop ev_path_prop]; try reflexivity.
      - rewrite <- (ev_exec_params l (pv_parameters v) cx). apply forget_map.
      - cbn in Hc. rewrite forallb_forall in Hc.
        assert (H : forget (exec_operation E fuel reason exec_cb l cx) = run_events (flat_map (ev_op_prop evc) l) cx).
        { apply forget_list. intros p Hp s cx0. apply ev_exec_op_prop; [|now apply Hc]. intros cs t -> c Hin. eapply Hcb; eauto. }
        rewrite <- H. apply forget_map.
    Qed.
    Definition path_cbs_ok (d : path_decl) : Prop :=
      forall m l, In (PvMethod m l) (pd_props d) -> forall cs t, In (OpCallbacks cs t) l -> forall c, In c cs -> cb_ok c.
    Lemma ev_exec_path d cx : path_cbs_ok d -> path_compiles seg cc d = true ->
      forget (exec_path E fuel reason seg exec_cb d cx) = run_events (ev_path seg evc d) cx.
    Proof.
      intros Hcb Hc. unfold path_compiles in Hc. apply andb_true_iff in Hc. destruct Hc as [Hu Hp]. rewrite forallb_forall in Hp.
      unfold exec_path, ev_path. rewrite run_events_app, <- (ev_exec_url (pd_url d) cx Hu).
      apply forget_bind. intros [p params] cx1 _.
      assert (H : forget (exec_list (exec_path_prop E fuel reason exec_cb) (pd_props d) (Build_path_value_of None None [] params) cx1) =
                  run_events (flat_map (ev_path_prop evc) (pd_props d)) cx1).
      { apply forget_list. intros q Hq s cx0. apply ev_exec_path_prop; [|now apply Hp]. intros m l ->. exact (Hcb m l Hq). }
      rewrite <- H. apply forget_map.
    Qed.
    Lemma ev_exec_paths ds ps cx : (forall d, In d ds -> path_cbs_ok d) -> forallb (path_compiles seg cc) ds = true ->
      forget (exec_list (exec_path_push E fuel reason seg exec_cb) ds ps cx) = run_events (flat_map (ev_path seg evc) ds) cx.
    Proof.
      intros Hcb Hc. rewrite forallb_forall in Hc. apply forget_list. intros d Hd s cx0. rewrite <- (ev_exec_path d cx0 (Hcb d Hd) (Hc d Hd)).
      apply forget_map.
    Qed.
  End Nested.

  Lemma ev_exec_callback c : cb_ok (exec_callback E fuel reason seg) (ev_callback seg) (callback_compiles seg) c.
  Proof.
    induction c as [c IH] using callback_decl_ind'. intros Hc cx. destruct c as [n l|n l]; [reflexivity|].
    cbn [callback_compiles] in Hc. cbn [exec_callback ev_callback].
    rewrite <- (ev_exec_paths (exec_callback E fuel reason seg) (ev_callback seg) (callback_compiles seg) l [] cx).
    - apply forget_map.
    - intros d Hd m ops Hm cs t Hcs c Hin. eapply IH; eauto.
    - exact Hc.
  Qed.
  Lemma ev_exec_section s d : section_compiles seg s = true ->
    match exec_section E fuel reason seg s d with Done d' => Done (og_components d') | NoReturn => NoReturn | Panicked => Panicked | Rejected => Rejected end
    = run_events (ev_section seg s) (og_components d).
  Proof.
    destruct s as [l|l|l|l|l]; cbn [section_compiles exec_section ev_section]; intros Hc; try reflexivity.
    - destruct (exec_info l); try discriminate. reflexivity.
    - rewrite forallb_forall in Hc.
      assert (H : forall u, forget (exec_list exec_scheme l u (og_components d)) =
        run_events (flat_map (fun d => match scheme_declared d with Some (n, s) => [EvDeclare n s] | None => [] end) l) (og_components d)).
      { intros u. apply forget_list. intros x Hx [] cx0. specialize (Hc x Hx). unfold exec_scheme. rewrite scheme_of_declared in *. destruct (scheme_declared x) as [[n s]|]; [reflexivity|discriminate]. }
      rewrite <- (H tt). now destruct (exec_list exec_scheme l tt (og_components d)) as [[u cx1]| | |].
    - rewrite <- (ev_exec_paths (exec_callback E fuel reason seg) (ev_callback seg) (callback_compiles seg) l (og_paths d) (og_components d)).
      + now destruct (exec_list _ l (og_paths d) (og_components d)) as [[ps cx1]| | |].
      + intros x _ m ops _ cs t _ c _. apply ev_exec_callback.
      + exact Hc.
  Qed.
  Definition components_of (x : outcome opg) : outcome components :=
    match x with Done d => Done (og_components d) | NoReturn => NoReturn | Panicked => Panicked | Rejected => Rejected end.
  Lemma ev_exec_sections a d : forallb (section_compiles seg) a = true ->
    components_of (exec_sections E fuel reason seg a d) = run_events (ev_api seg a) (og_components d).
  Proof.
    revert d. induction a as [|s a IH]; intros d Hc; [reflexivity|]. cbn [forallb] in Hc. apply andb_true_iff in Hc. destruct Hc as [Hs Ha].
    cbn [exec_sections]. unfold ev_api. cbn [flat_map]. rewrite run_events_app, <- (ev_exec_section s d Hs).
    destruct (exec_section E fuel reason seg s d) as [d1| | |]; try reflexivity. cbn. now apply IH.
  Qed.
  Lemma describe_api_components a : forallb (section_compiles seg) a = true ->
    components_of (describe_api E fuel reason seg a) = run_events (ev_api seg a) cx_new.
  Proof. intros H. unfold describe_api. rewrite H. now rewrite ev_exec_sections. Qed.

  Lemma run_events_not_rejected l : forall cx, run_events l cx <> Rejected.
  Proof.
    induction l as [|e l IH]; intros cx; [discriminate|]. cbn. destruct e as [t| |n s|n s]; cbn; try discriminate; try apply IH.
    unfold api_mention. destruct (mention E fuel t false params_default cx) as [[r cx1]|]; cbn; [apply IH|discriminate].
  Qed.
  Lemma rejected_iff a : describe_api E fuel reason seg a = Rejected <-> forallb (section_compiles seg) a = false.
  Proof.
    split.
    - intros H. destruct (forallb (section_compiles seg) a) eqn:Ec; [|reflexivity]. exfalso.
      apply (run_events_not_rejected (ev_api seg a) cx_new). rewrite <- describe_api_components by exact Ec. now rewrite H.
    - intros H. unfold describe_api. now rewrite H.
  Qed.
End Events.

(** ** The schemas do not depend on the security schemes *)
Section Frame.
  Variable E : env.
  Definition framed (sec : bmap str security_scheme) (cx : components) : components := {| cx_schemas := cx_schemas cx; cx_security := sec |}.
  Definition res_map {A B} (f : A -> B) (x : res A) : res B := match x with Ok a => Ok (f a) | Fuel => Fuel end.
  Definition framed_gs (gs : ty -> components -> res (model * components)) : Prop :=
    forall sec t cx, state (gs t (framed sec cx)) = res_map (framed sec) (state (gs t cx)).
  Lemma frame_site gs sec s cx : ctx_free gs -> framed_gs gs -> exec_site E gs s (framed sec cx) = res_map (framed sec) (exec_site E gs s cx).
  Proof.
    intros Hc H. destruct s as [t i|t]; cbn [exec_site].
    - rewrite !mention_schema_eq. specialize (H sec t cx). unfold state in H.
      destruct (link_name E t i) as [n|]; [cbn [framed cx_schemas]; destruct (bm_mem n (cx_schemas cx))|]; cbn; try reflexivity;
        fold (framed sec cx); destruct (gs t cx) as [[m cx1]|] eqn:E1, (gs t (framed sec cx)) as [[m2 cx2]|] eqn:E2; cbn in *; try discriminate; try reflexivity;
        injection H as ->; pose proof (Hc _ _ _ _ _ _ _ E2 E1) as ->; cbn; unfold framed, cx_insert_schema; reflexivity.
    - specialize (H sec t cx). unfold state in H. destruct (gs t cx) as [[m cx1]|], (gs t (framed sec cx)) as [[m2 cx2]|]; cbn in *; congruence.
  Qed.
  Lemma frame_sites gs sec l cx : ctx_free gs -> framed_gs gs -> exec_sites E gs l (framed sec cx) = res_map (framed sec) (exec_sites E gs l cx).
  Proof.
    intros Hc H. revert cx. induction l as [|s l IH]; intros cx; [reflexivity|]. cbn [exec_sites]. rewrite frame_site by assumption.
    destruct (exec_site E gs s cx); cbn; auto.
  Qed.
  Lemma frame_get_schema f : framed_gs (get_schema E f).
  Proof.
    induction f as [|f IH]; intros sec t cx; [reflexivity|]. cbn [get_schema]. rewrite !schema_step_state. apply frame_sites; [apply get_schema_ctx_free|exact IH].
  Qed.
  Lemma frame_mention f sec t cx r cx' : mention E f t false params_default cx = Ok (r, cx') ->
    mention E f t false params_default (framed sec cx) = Ok (r, framed sec cx').
  Proof.
    unfold mention. intros H. pose proof (frame_site (get_schema E f) sec (SMention t false) cx (get_schema_ctx_free E f) (frame_get_schema f)) as Hf.
    rewrite <- !(mention_state _ _ _ _ params_default) in Hf. rewrite H in Hf. cbn in Hf. apply state_Ok in Hf. destruct Hf as (r' & Hf).
    rewrite Hf. f_equal. f_equal.
    eapply (mention_returns_ctx_free E t false params_default); exists f; unfold mention; [exact Hf|exact H].
  Qed.
End Frame.

Definition default_call (t : ty) : mention_call := {| mc_ty := t; mc_inline := false; mc_params := params_default |}.
Definition sec_step (m : bmap str security_scheme) (e : event) : bmap str security_scheme :=
  match e with
  | EvDeclare n s => bm_insert n s m
  | EvUse n s => match bm_get n m with Some _ => m | None => bm_insert n s m end
  | _ => m
  end.
Section Components.
  Variable E : env.
  Lemma run_events_split fuel l : forall cx cx' sec, run_events E fuel l cx = Done cx' ->
    mention_all E fuel (map default_call (types_of l)) (framed sec cx) = Ok (framed sec cx') /\
    cx_security cx' = fold_left sec_step l (cx_security cx) /\ ~ In EvPanic l.
  Proof.
    induction l as [|e l IH]; intros cx cx' sec H.
    - cbn in H. injection H as <-. repeat split. intros [].
    - cbn [run_events] in H. apply obind_Done in H. destruct H as (cx1 & H1 & H2).
      destruct (IH _ _ sec H2) as (I1 & I2 & I3). cbn [types_of flat_map fold_left].
      destruct e as [t| |n s|n s]; cbn [run_event] in H1.
      + unfold api_mention in H1. destruct (mention E fuel t false params_default cx) as [[r cx0]|] eqn:Em; [|discriminate].
        cbn in H1. injection H1 as ->. cbn [app map mention_all default_call mc_ty mc_inline mc_params].
        rewrite (frame_mention _ _ sec _ _ _ _ Em). cbn. repeat split; auto.
        * rewrite I2. f_equal. cbn [sec_step]. unfold mention in Em. now apply mention_grows in Em as [_ <-].
        * intros [H|H]; [discriminate|now apply I3].
      + discriminate.
      + assert (Hx : snd (mention_security_scheme n s cx) = cx1) by congruence. rewrite <- Hx in I1, I2. clear H1 Hx. cbn [app]. repeat split.
        * assert (Ef : forall c, framed sec (snd (mention_security_scheme n s c)) = framed sec c)
            by (intros c; unfold framed, mention_security_scheme; cbn; now destruct (bm_mem n (cx_security c))).
          rewrite Ef in I1. exact I1.
        * rewrite I2. f_equal. cbn. unfold bm_mem. destruct (bm_get n (cx_security cx)); reflexivity.
        * intros [H|H]; [discriminate|now apply I3].
      + injection H1 as <-. cbn [app]. repeat split; auto. intros [H|H]; [discriminate|now apply I3].
  Qed.
  Lemma events_return l : forall fuel cx cx1, ~ In EvPanic l ->
    mention_all E fuel (map default_call (types_of l)) cx = Ok cx1 ->
    forall sec, exists cx', run_events E fuel l (framed sec cx) = Done cx' /\ cx_schemas cx' = cx_schemas cx1.
  Proof.
    induction l as [|e l IH]; intros fuel cx cx1 Hp H sec.
    - cbn in H. injection H as <-. eexists. split; reflexivity.
    - assert (Hp' : ~ In EvPanic l) by (intros H0; apply Hp; now right).
      destruct e as [t| |n s|n s]; cbn [types_of flat_map app map mention_all default_call mc_ty mc_inline mc_params] in H; cbn [run_events run_event].
      + destruct (mention E fuel t false params_default cx) as [[r cx0]|] eqn:Em; [|discriminate]. cbn in H.
        unfold api_mention. rewrite (frame_mention _ _ sec _ _ _ _ Em). cbn. eapply IH; eauto.
      + exfalso. apply Hp. now left.
      + destruct (IH _ _ _ Hp' H (sec_step sec (EvUse n s))) as (cx' & H1 & H2). exists cx'. split; [|exact H2].
        cbn. rewrite <- H1. f_equal. unfold framed, mention_security_scheme, bm_mem. cbn. destruct (bm_get n sec); reflexivity.
      + destruct (IH _ _ _ Hp' H (bm_insert n s sec)) as (cx' & H1 & H2). exists cx'. split; [|exact H2]. exact H1.
  Qed.
End Components.
