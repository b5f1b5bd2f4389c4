(** Descriptions of APIs whose types differ in their documentation. *)
From Verif Require Import Attr Ast Derive Schema Gen GenSpec Doc Api ApiSpec ApiFacts ApiFacts4 DocsSpec DocsFacts DocsFacts2 DocsFacts3.

Section Docs.
  Variable K : docs.
  Variable E E' : env.
  Hypothesis same_code : forall id, bare_td_def K (E id) = bare_td_def K (E' id).
  Variable fuel : nat.
  Variable reason : N -> option str.
  Variable seg : list Tokens.tree -> option segment.

  (** both give the same apart from documentation, or fail in the same way *)
  Definition similar {A} (bare : A -> A) (x y : outcome (A * components)) : Prop :=
    match x, y with
    | Done (a, cx), Done (b, cx') => bare a = bare b /\ bare_cx K cx = bare_cx K cx'
    | NoReturn, NoReturn | Panicked, Panicked | Rejected, Rejected => True
    | _, _ => False
    end.
  Lemma similar_bind {A B} (bare : A -> A) (bare' : B -> B) x y (f g : A -> components -> outcome (B * components)) :
    similar bare x y -> (forall a b cx cx', bare a = bare b -> bare_cx K cx = bare_cx K cx' -> similar bare' (f a cx) (g b cx')) ->
    similar bare' (obind x (fun p => let (a, cx) := p in f a cx)) (obind y (fun p => let (b, cx) := p in g b cx)).
  Proof. destruct x as [[a cx]| | |], y as [[b cx']| | |]; cbn; try tauto. intros [H1 H2] H. now apply H. Qed.
  Lemma similar_list {X A} (bare : A -> A) (f g : X -> A -> components -> outcome (A * components)) l :
    (forall x a b cx cx', In x l -> bare a = bare b -> bare_cx K cx = bare_cx K cx' -> similar bare (f x a cx) (g x b cx')) ->
    forall a b cx cx', bare a = bare b -> bare_cx K cx = bare_cx K cx' -> similar bare (exec_list f l a cx) (exec_list g l b cx').
  Proof.
    induction l as [|x l IH]; intros H a b cx cx' Ha Hc; [now split|]. cbn [exec_list].
    apply (similar_bind bare bare (f x a cx) (g x b cx') (exec_list f l) (exec_list g l)); [apply H; auto using in_eq|].
    intros a1 b1 cx1 cx1' Ha1 Hc1. apply IH; auto. intros; apply H; auto using in_cons.
  Qed.

  Lemma api_mention_similar t cx cx' : bare_cx K cx = bare_cx K cx' -> similar (bare_ref K) (api_mention E fuel t cx) (api_mention E' fuel t cx').
  Proof.
    intros Hc. unfold api_mention, mention.
    pose proof (mention_alike K E E' same_code _ _ (get_schema_alike K E E' same_code fuel) t false params_default params_default cx cx' eq_refl Hc) as H.
    destruct (mention_schema E _ t false _ cx) as [[r c]|], (mention_schema E' _ t false _ cx') as [[r' c']|]; cbn in *; tauto.
  Qed.

  Definition bare_pp (x : path * bmap str op_parameter) := (fst x, values (bare_parameter K) (snd x)).
  Lemma values_insert {Ky V} `{Ord Ky} (f : V -> V) (k : Ky) v v' (m m' : bmap Ky V) : f v = f v' -> values f m = values f m' ->
    values f (bm_insert k v m) = values f (bm_insert k v' m').
  Proof. intros Hv Hm. change (over f (bm_insert k v m) = over f (bm_insert k v' m')). rewrite !over_insert, Hv. now f_equal. Qed.

  Lemma group_similar g st st' cx cx' : bare_pp st = bare_pp st' -> bare_cx K cx = bare_cx K cx' ->
    similar bare_pp (exec_group E fuel seg g st cx) (exec_group E' fuel seg g st' cx').
  Proof.
    intros Hs Hc. unfold exec_group. destruct (group_text g); [|exact I]. destruct (seg l) as [s|]; [|exact I].
    destruct st as [p ps], st' as [p' ps']. unfold bare_pp in Hs. cbn [fst snd] in Hs. injection Hs as <- Hs.
    assert (Hm : forall n t, similar bare_pp
      (get (r, c) <- api_mention E fuel t cx; Done (p ++ [PeParameter n], bm_insert n (path_parameter r) ps, c))
      (get (r, c) <- api_mention E' fuel t cx'; Done (p ++ [PeParameter n], bm_insert n (path_parameter r) ps', c))).
    { intros n t. eapply similar_bind; [now apply api_mention_similar|]. intros r r' c c' Hr Hc1. split; [|exact Hc1].
      unfold bare_pp. cbn [fst snd]. f_equal. apply values_insert; [|exact Hs]. unfold bare_parameter, path_parameter. cbn [pr_description pr_in pr_required pr_deprecated pr_schema option_map]. now rewrite Hr. }
    destruct s as [l0|text t|n t]; cbn [exec_segment].
    - split; [|exact Hc]. unfold bare_pp. cbn [fst snd]. now rewrite Hs.
    - destruct (type_param_name text); [apply Hm|exact I].
    - apply Hm.
  Qed.
  Lemma url_similar url cx cx' : bare_cx K cx = bare_cx K cx' -> similar bare_pp (exec_url E fuel seg url cx) (exec_url E' fuel seg url cx').
  Proof.
    intros Hc. unfold exec_url. destruct (munch url []); [|exact I]. apply similar_list; [|reflexivity|exact Hc].
    intros. now apply group_similar.
  Qed.

  Ltac param H := unfold bare_parameter in H |- *; cbn [pr_description pr_in pr_required pr_deprecated pr_schema option_map] in H |- *.
  Lemma param_prop_similar p a b cx cx' : bare_parameter K a = bare_parameter K b -> bare_cx K cx = bare_cx K cx' ->
    similar (bare_parameter K) (exec_param_prop E fuel p a cx) (exec_param_prop E' fuel p b cx').
  Proof.
    intros Ha Hc. destruct p; cbn [exec_param_prop].
    - split; [|exact Hc]. param Ha. congruence.
    - split; [|exact Hc]. param Ha. congruence.
    - split; [|exact Hc]. param Ha. congruence.
    - eapply similar_bind; [now apply api_mention_similar|]. intros r r' c c' Hr Hc1. split; [|exact Hc1]. param Ha. congruence.
  Qed.
  Lemma param_similar d m m' cx cx' : values (bare_parameter K) m = values (bare_parameter K) m' -> bare_cx K cx = bare_cx K cx' ->
    similar (values (bare_parameter K)) (exec_param E fuel d m cx) (exec_param E' fuel d m' cx').
  Proof.
    intros Hm Hc. destruct d; cbn [exec_param].
    - eapply similar_bind; [now apply api_mention_similar|]. intros r r' c c' Hr Hc1.
      eapply similar_bind; [apply similar_list; [intros; now apply param_prop_similar| |exact Hc1]|].
      + unfold bare_parameter. cbn [pr_description pr_in pr_required pr_deprecated pr_schema option_map]. now rewrite Hr.
      + intros a b c2 c2' Ha Hc2. split; [|exact Hc2]. now apply values_insert.
    - eapply similar_bind; [now apply api_mention_similar|]. intros r r' c c' Hr Hc1.
      eapply similar_bind; [apply similar_list; [intros; now apply param_prop_similar| |exact Hc1]|].
      + unfold bare_parameter. cbn [pr_description pr_in pr_required pr_deprecated pr_schema option_map]. now rewrite Hr.
      + intros a b c2 c2' Ha Hc2. split; [|exact Hc2]. now apply values_insert.
  Qed.

  Definition bare_st (x : option str * bool * option model_ref) := (fst x, option_map (bare_ref K) (snd x)).
  Lemma body_prop_similar p a b cx cx' : bare_st a = bare_st b -> bare_cx K cx = bare_cx K cx' ->
    similar bare_st (exec_body_prop E fuel p a cx) (exec_body_prop E' fuel p b cx').
  Proof.
    intros Ha Hc. destruct a as [[d q] s], b as [[d' q'] s']. unfold bare_st in Ha. cbn [fst snd] in Ha. injection Ha as <- <- Hs.
    destruct p; cbn [exec_body_prop].
    - eapply similar_bind; [now apply api_mention_similar|]. intros r r' c c' Hr Hc1. split; [|exact Hc1]. unfold bare_st. cbn [fst snd option_map]. now rewrite Hr.
    - split; [|exact Hc]. unfold bare_st. cbn [fst snd]. now rewrite Hs.
    - split; [|exact Hc]. unfold bare_st. cbn [fst snd]. now rewrite Hs.
  Qed.
  Lemma body_similar b cx cx' : bare_cx K cx = bare_cx K cx' -> similar (bare_body K) (exec_body E fuel b cx) (exec_body E' fuel b cx').
  Proof.
    intros Hc. destruct b as [l|t]; cbn [exec_body].
    - assert (Hl : similar bare_st (exec_list (exec_body_prop E fuel) l (None, true, None) cx) (exec_list (exec_body_prop E' fuel) l (None, true, None) cx'))
        by (apply similar_list; [intros; now apply body_prop_similar|reflexivity|exact Hc]).
      destruct (exec_list (exec_body_prop E fuel) l _ cx) as [[[[d r] s] c]| | |], (exec_list (exec_body_prop E' fuel) l _ cx') as [[[[d' r'] s'] c']| | |];
        cbn [obind similar] in *; try tauto.
      destruct Hl as [Hs Hc1]. unfold bare_st in Hs. cbn [fst snd] in Hs. injection Hs as <- <- Hs.
      destruct s as [x|], s' as [x'|]; cbn in Hs; try discriminate; [|exact I]. split; [|exact Hc1]. injection Hs as Hs.
      unfold bare_body. cbn [rb_description rb_required rb_schema]. now rewrite Hs.
    - eapply similar_bind; [now apply api_mention_similar|]. intros r r' c c' Hr Hc1. split; [|exact Hc1].
      unfold bare_body. cbn [rb_description rb_required rb_schema]. now rewrite Hr.
  Qed.
  Lemma response_similar s cx cx' : bare_cx K cx = bare_cx K cx' ->
    similar (option_map (bare_ref K)) (exec_response_schema E fuel s cx) (exec_response_schema E' fuel s cx').
  Proof.
    intros Hc. destruct s; cbn [exec_response_schema]; try (now split);
      (eapply similar_bind; [now apply api_mention_similar|]; intros r r' c c' Hr Hc1; split; [|exact Hc1]; cbn [option_map]; now rewrite Hr).
  Qed.

  Lemma security_item_similar i m cx cx' : bare_cx K cx = bare_cx K cx' -> similar (fun x => x) (exec_security_item i m cx) (exec_security_item i m cx').
  Proof.
    intros Hc. destruct i as [n [|]|n s [|]]; cbn [exec_security_item]; try exact I; [now split|].
    unfold mention_security_scheme. split; [reflexivity|]. assert (Hs : cx_security cx = cx_security cx') by (unfold bare_cx in Hc; congruence).
    rewrite <- Hs. destruct (bm_mem n (cx_security cx)); [exact Hc|]. unfold bare_cx in *. cbn [cx_schemas cx_security mention_security_scheme] in *. congruence.
  Qed.

  Notation bo := (bare_operation_with K (bare_callback K)).
  Ltac op H := unfold bare_operation_with in H |- *;
    cbn [op_tags op_summary op_id op_description op_deprecated op_security op_body op_responses op_parameters op_callbacks
         with_summary with_operation_id with_description mark_deprecated push_tags push_security insert_response op_set_parameters insert_callback with_request_body] in H |- *.
  Lemma requirement_similar l o o' cx cx' : bo o = bo o' -> bare_cx K cx = bare_cx K cx' ->
    similar bo (exec_requirement l o cx) (exec_requirement l o' cx').
  Proof.
    intros Ho Hc. destruct l as [|i l]; [exact I|]. cbn [exec_requirement].
    eapply (similar_bind (fun x => x)).
    - apply (similar_list (fun x => x)); [|reflexivity|exact Hc]. intros x a b c c' _ -> Hc1. now apply security_item_similar.
    - intros a b c c' -> Hc1. split; [|exact Hc1]. op Ho. congruence.
  Qed.

  Section Nested.
    Variable f f' : callback_decl -> components -> outcome (callback * components).
    Definition cb_ok (c : callback_decl) : Prop := forall cx cx', bare_cx K cx = bare_cx K cx' -> similar (bare_callback K) (f c cx) (f' c cx').

    Lemma callbacks_similar trailing l : (forall c, In c l -> cb_ok c) ->
      forall o o' cx cx', bo o = bo o' -> bare_cx K cx = bare_cx K cx' ->
      similar bo (exec_callbacks f trailing l o cx) (exec_callbacks f' trailing l o' cx').
    Proof.
      induction l as [|c l IH]; intros H o o' cx cx' Ho Hc; [now split|].
      assert (Hgo : similar bo
        (get (cb, c1) <- f c cx; exec_callbacks f trailing l (insert_callback (cd_name c) cb o) c1)
        (get (cb, c1) <- f' c cx'; exec_callbacks f' trailing l (insert_callback (cd_name c) cb o') c1)).
      { eapply similar_bind; [apply (H c (in_eq _ _)); exact Hc|]. intros a b c1 c1' Ha Hc1. apply IH; [intros; apply H; now right| |exact Hc1].
        op Ho. assert (values (bare_callback K) (bm_insert (cd_name c) a (op_callbacks o)) = values (bare_callback K) (bm_insert (cd_name c) b (op_callbacks o'))) as ->;
          [apply values_insert; [exact Ha|congruence]|congruence]. }
      cbn [exec_callbacks]. destruct c as [n ps|n ps]; [|exact Hgo]. destruct l; [|exact I]. destruct trailing; [exact I|exact Hgo].
    Qed.
    Lemma op_prop_similar p o o' cx cx' : (forall cs t c, p = OpCallbacks cs t -> In c cs -> cb_ok c) -> bo o = bo o' -> bare_cx K cx = bare_cx K cx' ->
      similar bo (exec_op_prop E fuel reason f p o cx) (exec_op_prop E' fuel reason f' p o' cx').
    Proof.
      intros Hp Ho Hc. destruct p; cbn [exec_op_prop].
      - split; [|exact Hc]. op Ho. congruence.
      - split; [|exact Hc]. op Ho. congruence.
      - split; [|exact Hc]. op Ho. congruence.
      - split; [|exact Hc]. op Ho. congruence.
      - split; [|exact Hc]. op Ho. congruence.
      - eapply similar_bind.
        + apply (similar_list (values (bare_parameter K))); [intros; now apply param_similar| |exact Hc]. op Ho. congruence.
        + intros a b c c' Ha Hc1. split; [|exact Hc1]. op Ho. congruence.
      - apply callbacks_similar; [|exact Ho|exact Hc]. intros c Hc'. eapply Hp; [reflexivity|exact Hc'].
      - apply similar_list; [|exact Ho|exact Hc]. intros. now apply requirement_similar.
      - eapply similar_bind; [now apply body_similar|]. intros a b' c c' Ha Hc1. split; [|exact Hc1]. op Ho. cbn [option_map]. congruence.
      - eapply similar_bind; [now apply response_similar|]. intros a b' c c' Ha Hc1. split; [|exact Hc1]. op Ho.
        match goal with |- Build_operation_of _ _ _ _ _ _ _ (values _ (bm_insert _ ?x _)) _ _ = Build_operation_of _ _ _ _ _ _ _ (values _ (bm_insert _ ?y _)) _ _ =>
          assert (values (bare_response K) (bm_insert code x (op_responses o)) = values (bare_response K) (bm_insert code y (op_responses o'))) as ->;
            [apply values_insert; [unfold bare_response; cbn [rs_description rs_schema]; now rewrite Ha|congruence]|congruence] end.
    Qed.
    Notation bp := (bare_path_with K (bare_callback K)).
    Ltac pv H := unfold bare_path_with in H |- *; cbn [pv_summary pv_description pv_operations pv_parameters] in H |- *.
    Lemma path_prop_similar p v v' cx cx' : (forall m ops cs t c, p = PvMethod m ops -> In (OpCallbacks cs t) ops -> In c cs -> cb_ok c) ->
      bp v = bp v' -> bare_cx K cx = bare_cx K cx' ->
      similar bp (exec_path_prop E fuel reason f p v cx) (exec_path_prop E' fuel reason f' p v' cx').
    Proof.
      intros Hp Hv Hc. destruct p; cbn [exec_path_prop].
      - split; [|exact Hc]. pv Hv. congruence.
      - split; [|exact Hc]. pv Hv. congruence.
      - eapply similar_bind.
        + apply (similar_list (values (bare_parameter K))); [intros; now apply param_similar| |exact Hc]. pv Hv. congruence.
        + intros a b c c' Ha Hc1. split; [|exact Hc1]. pv Hv. congruence.
      - eapply (similar_bind bo).
        + unfold exec_operation. apply similar_list; [|reflexivity|exact Hc]. intros q a b c c' Hq Ha Hc1. apply op_prop_similar; [|exact Ha|exact Hc1].
          intros cs t c0 -> Hin. eapply Hp; [reflexivity|exact Hq|exact Hin].
        + intros a b c c' Ha Hc1. split; [|exact Hc1]. pv Hv.
          assert (values bo (bm_insert m a (pv_operations v)) = values bo (bm_insert m b (pv_operations v'))) as ->;
            [apply values_insert; [exact Ha|congruence]|congruence].
    Qed.
    Definition path_ok (d : path_decl) : Prop :=
      forall m ops cs t c, In (PvMethod m ops) (pd_props d) -> In (OpCallbacks cs t) ops -> In c cs -> cb_ok c.
    Lemma push_similar d l l' cx cx' : path_ok d -> values bp l = values bp l' -> bare_cx K cx = bare_cx K cx' ->
      similar (values bp) (exec_path_push E fuel reason seg f d l cx) (exec_path_push E' fuel reason seg f' d l' cx').
    Proof.
      intros Hd Hl Hc. unfold exec_path_push.
      eapply (similar_bind (fun x : path * path_value => (fst x, bp (snd x)))).
      - unfold exec_path. eapply similar_bind; [now apply url_similar|]. intros [p ps] [p' ps'] c c' Hp Hc1. unfold bare_pp in Hp. cbn [fst snd] in Hp. injection Hp as <- Hp.
        eapply (similar_bind bp).
        + apply (similar_list bp); [| |exact Hc1].
          * intros q a b c2 c2' Hq Ha Hc2. apply path_prop_similar; [|exact Ha|exact Hc2]. intros m ops cs t cb -> Ho Hcb. exact (Hd m ops cs t cb Hq Ho Hcb).
          * unfold bare_path_with. cbn [pv_summary pv_description pv_operations pv_parameters]. now rewrite Hp.
        + intros v v' c2 c2' Hv Hc2. split; [|exact Hc2]. cbn [fst snd]. now rewrite Hv.
      - intros [p v] [p' v'] c c' Hv Hc1. split; [|exact Hc1].
        unfold values in *. rewrite !map_app, Hl. cbn [map]. now rewrite (Hv : (fst (p, v), bp (snd (p, v))) = _).
    Qed.
  End Nested.

  Lemma callback_similar c : cb_ok (exec_callback E fuel reason seg) (exec_callback E' fuel reason seg) c.
  Proof.
    induction c as [c IH] using callback_decl_ind'. intros cx cx' Hc. destruct c as [n l|n l]; cbn [exec_callback]; [now split|].
    eapply (similar_bind (values (bare_path_with K (bare_callback K)))).
    - apply similar_list; [|reflexivity|exact Hc]. intros d a b c c' Hd Ha Hc1. apply push_similar; [|exact Ha|exact Hc1].
      intros m ops cs t c0 Hm Ho Hc0. eapply IH; eauto.
    - intros a b c c' Ha Hc1. split; [|exact Hc1]. cbn [bare_callback]. f_equal. exact Ha.
  Qed.

  Definition same_outcome (x y : outcome opg) : Prop :=
    match x, y with
    | Done d, Done d' => bare_document K d = bare_document K d'
    | NoReturn, NoReturn | Panicked, Panicked | Rejected, Rejected => True
    | _, _ => False
    end.
  Ltac og H := unfold bare_document in H |- *; cbn [og_info og_tags og_servers og_paths og_components] in H |- *.
  Lemma section_similar s d d' : bare_document K d = bare_document K d' ->
    same_outcome (exec_section E fuel reason seg s d) (exec_section E' fuel reason seg s d').
  Proof.
    intros Hd. assert (Hc : bare_cx K (og_components d) = bare_cx K (og_components d')) by (unfold bare_cx, bare_document in *; congruence).
    destruct s; cbn [exec_section].
    - destruct (exec_info l); cbn [obind same_outcome]; try exact I. og Hd. congruence.
    - cbn [same_outcome]. og Hd. congruence.
    - cbn [same_outcome]. og Hd. congruence.
    - assert (Hs : similar (fun x => x) (exec_list exec_scheme l tt (og_components d)) (exec_list exec_scheme l tt (og_components d'))).
      { apply (similar_list (fun x => x)); [|reflexivity|exact Hc]. intros x a b c c' _ _ Hc1. unfold exec_scheme.
        destruct (scheme_of x) as [[n s]| | |]; cbn [obind]; try exact I. split; [reflexivity|]. unfold bare_cx in *. cbn [cx_schemas cx_security] in *. congruence. }
      destruct (exec_list exec_scheme l tt (og_components d)) as [[a c]| | |], (exec_list exec_scheme l tt (og_components d')) as [[a' c']| | |];
        cbn [obind same_outcome similar] in *; try tauto.
      destruct Hs as [_ Hs]. unfold bare_cx in Hs. og Hd. congruence.
    - assert (Hs : similar (values (bare_path_with K (bare_callback K)))
        (exec_list (exec_path_push E fuel reason seg (exec_callback E fuel reason seg)) l (og_paths d) (og_components d))
        (exec_list (exec_path_push E' fuel reason seg (exec_callback E' fuel reason seg)) l (og_paths d') (og_components d'))).
      { apply similar_list; [| |exact Hc].
        - intros x a b c c' _ Ha Hc1. apply push_similar; [|exact Ha|exact Hc1]. intros m ops cs t c0 _ _ _. apply callback_similar.
        - unfold bare_document in Hd. congruence. }
      destruct (exec_list _ l (og_paths d) (og_components d)) as [[a c]| | |], (exec_list _ l (og_paths d') (og_components d')) as [[a' c']| | |];
        cbn [obind same_outcome similar] in *; try tauto.
      destruct Hs as [Ha Hs]. unfold bare_cx in Hs. og Hd. congruence.
  Qed.
  Lemma sections_similar l : forall d d', bare_document K d = bare_document K d' ->
    same_outcome (exec_sections E fuel reason seg l d) (exec_sections E' fuel reason seg l d').
  Proof.
    induction l as [|s l IH]; intros d d' Hd; [exact Hd|]. cbn [exec_sections]. pose proof (section_similar s d d' Hd) as Hs.
    destruct (exec_section E fuel reason seg s d), (exec_section E' fuel reason seg s d'); cbn [same_outcome obind] in *; try tauto. now apply IH.
  Qed.
  Lemma api_similar a : same_outcome (describe_api E fuel reason seg a) (describe_api E' fuel reason seg a).
  Proof. unfold describe_api. destruct (forallb _ a); [|exact I]. now apply sections_similar. Qed.
End Docs.

Lemma same_outcomes K (x y : nat -> outcome opg) : (forall f, same_outcome K (x f) (y f)) ->
  ((forall f, x f = Rejected) <-> (forall f, y f = Rejected)) /\
  ((exists f, x f = Panicked) <-> (exists f, y f = Panicked)) /\
  ((forall f, x f = NoReturn) <-> (forall f, y f = NoReturn)) /\
  ((exists d f, x f = Done d) <-> (exists d f, y f = Done d)) /\
  forall d f, x f = Done d -> exists d', y f = Done d' /\ bare_document K d = bare_document K d'.
Proof.
  intros H. split; [|split; [|split; [|split]]].
  - split; intros Hf f; specialize (H f); specialize (Hf f); rewrite Hf in H; [destruct (y f)|destruct (x f)]; cbn in H; tauto.
  - split; intros [f Hf]; exists f; specialize (H f); rewrite Hf in H; [destruct (y f)|destruct (x f)]; cbn in H; tauto.
  - split; intros Hf f; specialize (H f); specialize (Hf f); rewrite Hf in H; [destruct (y f)|destruct (x f)]; cbn in H; tauto.
  - split; intros (d & f & Hf); specialize (H f); rewrite Hf in H; [destruct (y f) as [d'| | |] eqn:E1|destruct (x f) as [d'| | |] eqn:E1];
      cbn in H; try tauto; now exists d', f.
  - intros d f Hf. specialize (H f). rewrite Hf in H. destruct (y f) as [d'| | |]; cbn [same_outcome] in H; try tauto. now exists d'.
Qed.
Lemma docs_api K pe pp uni ev ev' D D' E E' reason seg a :
  (of_examples K = false -> forall s, ev s = ev' s) ->
  program pe pp uni ev D E -> program pe pp uni ev' D' E' -> (forall id, redocumented K (D id) (D' id)) ->
  (does_not_compile E reason seg a <-> does_not_compile E' reason seg a) /\
  (panics E reason seg a <-> panics E' reason seg a) /\
  (never_returns E reason seg a <-> never_returns E' reason seg a) /\
  ((exists d, describes E reason seg a d) <-> exists d', describes E' reason seg a d') /\
  forall d d', describes E reason seg a d -> describes E' reason seg a d' -> bare_document K d = bare_document K d'.
Proof.
  intros Hev HE HE' HD. pose proof (fun id => derive_redocumented K _ _ _ _ _ _ _ _ _ Hev (HD id) (HE id) (HE' id)) as Hs.
  destruct (same_outcomes K (fun f => describe_api E f reason seg a) (fun f => describe_api E' f reason seg a)
    (fun f => api_similar K E E' Hs f reason seg a)) as (H1 & H2 & H3 & H4 & H5).
  split; [exact H1|]. split; [exact H2|]. split; [exact H3|]. split; [exact H4|].
  intros d d' [f Hf] Hd'. destruct (H5 d f Hf) as (d1 & Hd1 & Hb). rewrite Hb. f_equal. exact (describes_unique E' reason seg a d1 d' (ex_intro _ f Hd1) Hd').
Qed.
