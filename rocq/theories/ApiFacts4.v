(** Facts about describe_api!: outcomes, security schemes, urls; facts about describe_type!. *)
From Verif Require Import ApiSpec ApiFacts ApiFacts2 ApiFacts3 SchemaFacts GenFacts GenFacts2 GenFacts3 GenFacts4 GenFacts5 SerFacts SerFacts2 SerFacts3 SerFacts4.
Local Open Scope string_scope. Local Open Scope list_scope.
Local Opaque bm_insert.

(** ** More fuel gives the same result *)
Definition refines {A} (x y : outcome A) : Prop := x = NoReturn \/ x = y.
Lemma refines_refl {A} (x : outcome A) : refines x x.
Proof. now right. Qed.
Lemma refines_bind {A B} (x y : outcome A) (f g : A -> outcome B) :
  refines x y -> (forall a, refines (f a) (g a)) -> refines (obind x f) (obind y g).
Proof. intros [-> | ->] H; [now left|]. destruct y; cbn; [apply H|now left|now right|now right]. Qed.
Lemma refines_list {X S} (f g : X -> S -> components -> outcome (S * components)) l :
  (forall x, In x l -> forall s cx, refines (f x s cx) (g x s cx)) -> forall s cx, refines (exec_list f l s cx) (exec_list g l s cx).
Proof.
  induction l as [|x l IH]; intros H s cx; [apply refines_refl|]. cbn [exec_list]. apply refines_bind; [apply H; now left|].
  intros [s1 cx1]. apply IH. intros y Hy. apply H. now right.
Qed.

Section Fuel.
  Variable E : env.
  Variables f f' : nat.
  Hypothesis Hf : f <= f'.
  Variable reason : N -> option str.
  Variable seg : list tree -> option segment.
  Ltac ref := repeat first [apply refines_refl | apply refines_bind; [|intros []; cbn] | now right | now left].

  Lemma refines_mention t cx : refines (api_mention E f t cx) (api_mention E f' t cx).
  Proof.
    unfold api_mention. destruct (mention E f t false params_default cx) as [r|] eqn:Em; [|now left].
    rewrite (mention_le _ _ _ _ _ _ _ _ Hf Em). now right.
  Qed.
  Lemma refines_segment s st cx : refines (exec_segment E f s st cx) (exec_segment E f' s st cx).
  Proof.
    destruct st as [p ps]. destruct s as [l|text t|n t]; cbn [exec_segment]; [ref| |].
    - destruct (type_param_name text); [|ref]. apply refines_bind; [apply refines_mention|intros []; ref].
    - apply refines_bind; [apply refines_mention|intros []; ref].
  Qed.
  Lemma refines_url url cx : refines (exec_url E f seg url cx) (exec_url E f' seg url cx).
  Proof.
    unfold exec_url. destruct (munch url []); [|ref]. apply refines_list. intros g _ s cx0. unfold exec_group.
    destruct (group_text g); [|ref]. destruct (seg l0); [apply refines_segment|ref].
  Qed.
  Lemma refines_param_prop p a cx : refines (exec_param_prop E f p a cx) (exec_param_prop E f' p a cx).
  Proof. destruct p; cbn [exec_param_prop]; ref. apply refines_mention. Qed.
  Lemma refines_param d m cx : refines (exec_param E f d m cx) (exec_param E f' d m cx).
  Proof.
    destruct d; cbn [exec_param]; (apply refines_bind; [apply refines_mention|intros []]; apply refines_bind; [|intros []; ref]);
    apply refines_list; intros; apply refines_param_prop.
  Qed.
  Lemma refines_body b cx : refines (exec_body E f b cx) (exec_body E f' b cx).
  Proof.
    destruct b; cbn [exec_body]; [|apply refines_bind; [apply refines_mention|intros []; ref]].
    apply refines_bind; [|intros [[[] []] ?]; ref]. apply refines_list. intros p _ [[d r] s] cx0. destruct p; cbn [exec_body_prop]; ref. apply refines_mention.
  Qed.
  Lemma refines_response s cx : refines (exec_response_schema E f s cx) (exec_response_schema E f' s cx).
  Proof. destruct s; cbn [exec_response_schema]; ref; apply refines_mention. Qed.

  Section Nested.
    Variables cb cb' : callback_decl -> components -> outcome (callback * components).
    Lemma refines_callbacks tr l : (forall c, In c l -> forall cx, refines (cb c cx) (cb' c cx)) ->
      forall o cx, refines (exec_callbacks cb tr l o cx) (exec_callbacks cb' tr l o cx).
    Proof.
      induction l as [|c l IH]; intros H o cx; [apply refines_refl|]. cbn [exec_callbacks].
      assert (G : refines (get (x, cx') <- cb c cx; exec_callbacks cb tr l (insert_callback (cd_name c) x o) cx')
                          (get (x, cx') <- cb' c cx; exec_callbacks cb' tr l (insert_callback (cd_name c) x o) cx')).
      { apply refines_bind; [apply H; now left|]. intros [x cx']. apply IH. intros; apply H; now right. }
      destruct c as [n ps|n ps]; [destruct l, tr; try apply refines_refl; exact G|exact G].
    Qed.
    Lemma refines_op_prop p : (forall cs t c, p = OpCallbacks cs t -> In c cs -> forall cx, refines (cb c cx) (cb' c cx)) ->
      forall o cx, refines (exec_op_prop E f reason cb p o cx) (exec_op_prop E f' reason cb' p o cx).
    Proof.
      intros H o cx. destruct p; cbn [exec_op_prop]; try apply refines_refl.
      - apply refines_bind; [|intros []; ref]. apply refines_list. intros; apply refines_param.
      - apply refines_callbacks. intros; eapply H; eauto.
      - apply refines_bind; [apply refines_body|intros []; ref].
      - apply refines_bind; [apply refines_response|intros []; ref].
    Qed.
    Lemma refines_path d : (forall m ops cs t c, In (PvMethod m ops) (pd_props d) -> In (OpCallbacks cs t) ops -> In c cs -> forall cx, refines (cb c cx) (cb' c cx)) ->
      forall l cx, refines (exec_path_push E f reason seg cb d l cx) (exec_path_push E f' reason seg cb' d l cx).
    Proof.
      intros H l cx. unfold exec_path_push. apply refines_bind; [|intros []; ref]. unfold exec_path. apply refines_bind; [apply refines_url|].
      intros [[p params] cx1]. apply refines_bind; [|intros []; ref]. apply refines_list. intros q Hq v cx0. destruct q; cbn [exec_path_prop]; try apply refines_refl.
      - apply refines_bind; [|intros []; ref]. apply refines_list. intros; apply refines_param.
      - apply refines_bind; [|intros []; ref]. apply refines_list. intros p0 Hp o cx2. apply refines_op_prop. intros cs t c -> Hc. eapply H; eauto.
    Qed.
  End Nested.
  Lemma refines_callback c : forall cx, refines (exec_callback E f reason seg c cx) (exec_callback E f' reason seg c cx).
  Proof.
    induction c as [c IH] using callback_decl_ind'. intros cx. destruct c as [n l|n l]; [apply refines_refl|]. cbn [exec_callback].
    apply refines_bind; [|intros []; ref]. apply refines_list. intros d Hd s cx0. apply refines_path. intros. eapply IH; eauto.
  Qed.
  Lemma refines_section s d : refines (exec_section E f reason seg s d) (exec_section E f' reason seg s d).
  Proof.
    destruct s; cbn [exec_section]; try apply refines_refl. apply refines_bind; [|intros []; ref]. apply refines_list.
    intros. apply refines_path. intros. apply refines_callback.
  Qed.
  Lemma refines_api a : refines (describe_api E f reason seg a) (describe_api E f' reason seg a).
  Proof.
    unfold describe_api. destruct (forallb _ a); [|apply refines_refl]. generalize opg_default. induction a as [|s a IH]; intros d; [apply refines_refl|].
    cbn [exec_sections]. apply refines_bind; [apply refines_section|exact IH].
  Qed.
End Fuel.

Section Outcome.
  Variable E : env.
  Variable reason : N -> option str.
  Variable seg : list tree -> option segment.
  Lemma outcome_unique a f1 f2 x y : describe_api E f1 reason seg a = x -> describe_api E f2 reason seg a = y -> x <> NoReturn -> y <> NoReturn -> x = y.
  Proof.
    intros <- <- H1 H2. destruct (refines_api E f1 (f1 + f2) ltac:(lia) reason seg a) as [H|H]; [congruence|].
    destruct (refines_api E f2 (f1 + f2) ltac:(lia) reason seg a) as [H'|H']; congruence.
  Qed.
  Lemma describes_unique a d d' : describes E reason seg a d -> describes E reason seg a d' -> d = d'.
  Proof. intros [f H] [f' H']. pose proof (outcome_unique _ _ _ _ _ H H' ltac:(discriminate) ltac:(discriminate)). congruence. Qed.
  Lemma describes_not_panics a d : describes E reason seg a d -> ~ panics E reason seg a.
  Proof. intros [f H] [f' H']. pose proof (outcome_unique _ _ _ _ _ H H' ltac:(discriminate) ltac:(discriminate)). congruence. Qed.

  Lemma does_not_compile_iff a : does_not_compile E reason seg a <-> forallb (section_compiles seg) a = false.
  Proof. split; [intros H; now apply (rejected_iff E 0 reason), H|]. intros H f. now apply rejected_iff. Qed.

  Lemma describes_iff a : (exists d, describes E reason seg a d) <->
    ~ does_not_compile E reason seg a /\ ~ In EvPanic (ev_api seg a) /\
    exists cx, mentions_return E (map default_call (types_of (ev_api seg a))) cx_new cx.
  Proof.
    rewrite does_not_compile_iff. split.
    - intros [d H]. split; [|split].
      + rewrite (proj1 (describes_events _ _ _ _ _ H)). discriminate.
      + eapply describes_no_panic; exact H.
      + destruct (describes_components _ _ _ _ _ H) as (cx & Hm & _). eauto.
    - intros (Hc & Hp & cx & Hm). eapply describes_returns; [|exact Hp|exact Hm]. now destruct (forallb _ a).
  Qed.

  Lemma mention_all_le f f' l : f <= f' -> forall cx cx', mention_all E f l cx = Ok cx' -> mention_all E f' l cx = Ok cx'.
  Proof.
    intros Hf. induction l as [|c l IH]; intros cx cx' H; [exact H|]. cbn in *.
    destruct (mention E f (mc_ty c) (mc_inline c) (mc_params c) cx) as [[r cx1]|] eqn:Em; [|discriminate].
    rewrite (mention_le _ _ _ _ _ _ _ _ Hf Em). cbn in *. now apply IH.
  Qed.
  Lemma finite_mentions calls : (forall c, In c calls -> ~ recursive E (mc_ty c) /\ exists l, forall t', contains E (mc_ty c) t' -> In t' l) ->
    forall cx, exists cx', mentions_return E calls cx cx'.
  Proof.
    induction calls as [|c calls IH]; intros H cx; [exists cx, 0; reflexivity|].
    destruct (H c (or_introl eq_refl)) as (Hr & l & Hl).
    assert (Hm : exists r cx1, mention_returns E (mc_ty c) (mc_inline c) (mc_params c) cx r cx1).
    { destruct (not_recursive_returns_everywhere _ _ _ Hl Hr cx) as (m & cx1 & Hs).
      destruct (link_name E (mc_ty c) (mc_inline c)) as [n|] eqn:En.
      - destruct (bm_get n (cx_schemas cx)) eqn:Eg.
        + exists (Link n), cx. apply mention_returns_iff. rewrite En. split; [reflexivity|]. left. split; [|reflexivity]. unfold registered. congruence.
        + exists (Link n), (cx_insert_schema n m cx1). apply mention_returns_iff. rewrite En. split; [reflexivity|]. right. split; [unfold registered; congruence|eauto].
      - exists (Inline (apply_params (mc_params c) m)), cx1. apply mention_returns_iff. rewrite En. eauto. }
    destruct Hm as (r & cx1 & [f1 Hm]).
    destruct (IH (fun c' Hc => H c' (or_intror Hc)) cx1) as (cx2 & [f2 H2]). exists cx2, (f1 + f2). cbn.
    rewrite (mention_le _ f1 (f1 + f2) _ _ _ _ _ ltac:(lia) Hm). cbn. eapply mention_all_le; [|exact H2]. lia.
  Qed.

  Lemma recursive_never_returns a t : ~ does_not_compile E reason seg a -> ~ In EvPanic (ev_api seg a) ->
    In (EvType t) (ev_api seg a) -> (forall cx r cx', ~ mention_returns E t false params_default cx r cx') -> never_returns E reason seg a.
  Proof.
    rewrite does_not_compile_iff. intros Hc Hp Ht Hn f.
    assert (Hc' : forallb (section_compiles seg) a = true) by now destruct (forallb (section_compiles seg) a).
    destruct (describe_api E f reason seg a) as [d| | |] eqn:Ed.
    - exfalso. destruct (describes_components E reason seg a d (ex_intro _ f Ed)) as (cx & [f' Hm] & _).
      destruct (mention_all_In E f' _ _ _ _ Hm (In_types _ _ Ht)) as (cx1 & r & cx2 & H1 & _). apply (Hn cx1 r cx2). now exists f'.
    - reflexivity.
    - exfalso. pose proof (describe_api_components E f reason seg a Hc') as Hd. rewrite Ed in Hd. cbn in Hd. symmetry in Hd. clear -Hd Hp.
      revert Hd. generalize cx_new. induction (ev_api seg a) as [|e l IH]; intros cx H; [discriminate|].
      assert (Hp' : ~ In EvPanic l) by (intros H0; apply Hp; now right). destruct e as [t| |n s|n s]; cbn in H.
      + unfold api_mention in H. destruct (mention E f t false params_default cx) as [[r cx1]|]; cbn in H; [|discriminate]. eapply IH; eauto.
      + apply Hp. now left.
      + eapply IH; eauto.
      + eapply IH; eauto.
    - apply rejected_iff in Ed. congruence.
  Qed.
End Outcome.
