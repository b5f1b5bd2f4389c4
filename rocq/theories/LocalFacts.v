(** A declaration has one meaning, whatever else is declared. *)
From Verif Require Import Api ApiSpec Gen GenSpec GenFacts GenFacts2 GenFacts3 ApiFacts ApiFacts2 ApiFacts3 ApiFacts4 ApiFacts5 ApiFacts8.
From Coq Require Import Lia.

Lemma Forall2_same {A B} (P : A -> B -> Prop) l : (forall x, In x l -> forall y z, P x y -> P x z -> y = z) -> forall m m', Forall2 P l m -> Forall2 P l m' -> m = m'.
Proof.
  intros H m m' Hm. revert m'. induction Hm as [|x y l m Hxy Hm IH]; intros m' H'; inversion H' as [|? z ? m1 Hz Hm1]; subst; [reflexivity|].
  f_equal; [eapply H; [now left|exact Hxy|exact Hz]|]. apply IH; [|assumption]. intros x' Hx'. apply H. now right.
Qed.
Lemma Forall2_nth {A B} (P : A -> B -> Prop) l m : Forall2 P l m -> forall i x, nth_error l i = Some x -> exists y, nth_error m i = Some y /\ P x y.
Proof.
  induction 1 as [|x y l m Hxy _ IH]; intros [|i] z Hz; try discriminate; cbn in *.
  - injection Hz as <-. eauto.
  - eauto.
Qed.

Section Local.
  Variable E : env.
  Variable reason : N -> option str.
  Variable seg : list tree -> option segment.
  Notation cbm := (callback_means E reason seg).
  Notation pm := (path_means E reason seg cbm).

  Lemma refers_one t r r' : refers E t r -> refers E t r' -> r = r'.
  Proof. intros (a & b & H) (a' & b' & H'). exact (mention_returns_ctx_free _ _ _ _ _ _ _ _ _ _ H H'). Qed.
  Lemma type_parameter_one text n n' : type_parameter text n -> type_parameter text n' -> n = n'.
  Proof. intros H H'. apply type_parameter_name in H, H'. congruence. Qed.
  Lemma param_one d e e' : param_means E d e -> param_means E d e' -> e = e'.
  Proof.
    destruct e as [n [a b c d0 s]], e' as [n' [a' b' c' d' s']]. cbn. intros (-> & -> & -> & -> & -> & r & -> & Hr) (-> & -> & -> & -> & -> & r' & -> & Hr').
    now rewrite (refers_one _ _ _ Hr Hr').
  Qed.
  Lemma body_one b x x' : body_means E b x -> body_means E b x' -> x = x'.
  Proof.
    destruct x as [a c s], x' as [a' c' s'], b as [l|t]; cbn.
    - intros (-> & -> & t & Ht & Hr) (-> & -> & t' & Ht' & Hr'). rewrite Ht in Ht'. injection Ht' as <-. now rewrite (refers_one _ _ _ Hr Hr').
    - intros (-> & -> & Hr) (-> & -> & Hr'). now rewrite (refers_one _ _ _ Hr Hr').
  Qed.
  Lemma response_one q e e' : response_means E reason q e -> response_means E reason q e' -> e = e'.
  Proof.
    destruct q as [[c d] s], e as [n [a r]], e' as [n' [a' r']]. cbn. intros (-> & Hd & Hs) (-> & Hd' & Hs').
    assert (a = a') as -> by (destruct d, (reason c); congruence). f_equal. f_equal.
    destruct s; [congruence| | |congruence]; destruct Hs as (x & -> & Hx), Hs' as (y & -> & Hy); now rewrite (refers_one _ _ _ Hx Hy).
  Qed.
  Lemma segment_one s e e' : segment_means s e -> segment_means s e' -> e = e'.
  Proof. destruct s; cbn; try congruence. intros (n & Hn & ->) (n' & Hn' & ->). now rewrite (type_parameter_one _ _ _ Hn Hn'). Qed.
  Lemma segment_param_one s e e' : segment_param E s e -> segment_param E s e' -> e = e'.
  Proof.
    destruct e as [n [a b c d0 x]], e' as [n' [a' b' c' d' x']]. cbn. intros (-> & -> & -> & -> & r & -> & Hr) (-> & -> & -> & -> & r' & -> & Hr').
    destruct s; [destruct Hr| |]; destruct Hr as [Hn Hr], Hr' as [Hn' Hr']; rewrite (refers_one _ _ _ Hr Hr'); f_equal; [exact (type_parameter_one _ _ _ Hn Hn')|congruence].
  Qed.
  Section Nested.
    Variable cb : callback_decl -> callback -> Prop.
    Lemma op_one l o o' : (forall cs t c, In (OpCallbacks cs t) l -> In c cs -> forall x y, cb c x -> cb c y -> x = y) ->
      op_means E reason cb l o -> op_means E reason cb l o' -> o = o'.
    Proof.
      intros Hcb. destruct o as [o1 o2 o3 o4 o5 o6 o7 o8 o9 o10], o' as [p1 p2 p3 p4 p5 p6 p7 p8 p9 p10]. unfold op_means. cbn.
      intros (-> & -> & -> & -> & -> & -> & Hb & (rs & Hr & ->) & (ps & Hp & ->) & (cs & Hc & ->)).
      intros (-> & -> & -> & -> & -> & -> & Hb' & (rs' & Hr' & ->) & (ps' & Hp' & ->) & (cs' & Hc' & ->)).
      rewrite (Forall2_same _ _ (fun x _ => response_one x) _ _ Hr Hr'). rewrite (Forall2_same _ _ (fun x _ => param_one x) _ _ Hp Hp').
      assert (cs = cs') as ->.
      { refine (Forall2_same _ _ _ _ _ Hc Hc'). intros c Hi [k x] [k' y]. cbn. intros [-> Hx] [-> Hy]. f_equal. apply in_flat_map in Hi. destruct Hi as (p & Hi & Hp0).
        destruct p; try destruct Hp0. eapply Hcb; eauto. }
      f_equal. destruct (last_of _ l) as [b|]; [|congruence]. destruct Hb as (x & -> & Hx), Hb' as (y & -> & Hy). now rewrite (body_one _ _ _ Hx Hy).
    Qed.
    Lemma path_one d e e' : (forall m l cs t c, In (PvMethod m l) (pd_props d) -> In (OpCallbacks cs t) l -> In c cs -> forall x y, cb c x -> cb c y -> x = y) ->
      path_means E reason seg cb d e -> path_means E reason seg cb d e' -> e = e'.
    Proof.
      intros Hcb. destruct e as [p [v1 v2 v3 v4]], e' as [p' [w1 w2 w3 w4]]. unfold path_means. cbn.
      intros ((segs & up & ps & H1 & H2 & H3 & H4 & ->) & -> & -> & (os & Ho & ->)) ((segs' & up' & ps' & H1' & H2' & H3' & H4' & ->) & -> & -> & (os' & Ho' & ->)).
      assert (segs = segs') as <- by (refine (Forall2_same _ _ _ _ _ H1 H1'); intros x _ y z [_ Hy] [_ Hz]; congruence).
      rewrite (Forall2_same _ _ (fun x _ => segment_one x) _ _ H2 H2'), (Forall2_same _ _ (fun x _ => segment_param_one x) _ _ H3 H3'), (Forall2_same _ _ (fun x _ => param_one x) _ _ H4 H4').
      assert (os = os') as <-; [|reflexivity]. refine (Forall2_same _ _ _ _ _ Ho Ho'). intros [m l] Hi [k x] [k' y]. cbn. intros [-> Hx] [-> Hy]. f_equal.
      apply in_flat_map in Hi. destruct Hi as (q & Hi & Hq). destruct q as [| | |m0 l0]; cbn in Hq; try contradiction. destruct Hq as [Hq|[]].
      injection Hq as <- <-. eapply op_one; [|exact Hx|exact Hy]. eauto.
    Qed.
  End Nested.
  Lemma callback_one c : forall x y, cbm c x -> cbm c y -> x = y.
  Proof.
    induction c as [c IH] using callback_decl_ind'. intros x y Hx Hy. destruct Hx as [n l|n l ps Hp]; inversion Hy as [|? ? ps' Hp']; subst; [reflexivity|].
    f_equal. refine (Forall2_same _ _ _ _ _ Hp Hp'). intros d Hd e e'. apply path_one. intros. eapply IH; eauto.
  Qed.
  Lemma path_means_one d e e' : pm d e -> pm d e' -> e = e'.
  Proof. apply path_one. intros. eapply callback_one; eauto. Qed.

  Lemma path_local a a' d d' i j pd : describes E reason seg a d -> describes E reason seg a' d' ->
    nth_error (api_paths a) i = Some pd -> nth_error (api_paths a') j = Some pd ->
    exists e, nth_error (og_paths d) i = Some e /\ nth_error (og_paths d') j = Some e.
  Proof.
    intros H H' Hi Hj. apply describes_means, api_paths_means in H, H'. destruct (Forall2_nth _ _ _ H _ _ Hi) as (e & He & Hm), (Forall2_nth _ _ _ H' _ _ Hj) as (e' & He' & Hm').
    exists e. split; [exact He|]. now rewrite (path_means_one _ _ _ Hm Hm').
  Qed.

  (** ** Components *)
  Lemma linked_more l l' : (forall s, In s l -> In s l') -> forall t, linked E l t -> linked E l' t.
  Proof.
    intros H t [Hv Hn]. split; [|exact Hn]. clear Hn. induction Hv as [s Hs|]; [apply vis_root; auto|eapply vis_step; eauto].
  Qed.
  Notation sites ts := (map (fun t => SMention t false) ts).
  Lemma components_more a a' d d' : describes E reason seg a d -> describes E reason seg a' d' ->
    (forall t, names_type seg a t -> names_type seg a' t) ->
    (forall ts, (forall t, In t ts <-> names_type seg a' t) -> names_unambiguous E (sites ts)) ->
    forall n m, bm_get n (cx_schemas (og_components d)) = Some m -> bm_get n (cx_schemas (og_components d')) = Some m.
  Proof.
    intros Hd Hd' Hsub Hu n m Hm. destruct (components_of_types _ _ _ _ _ Hd) as (ts & _ & Ht & _ & _), (components_of_types _ _ _ _ _ Hd') as (ts' & _ & Ht' & _ & _).
    assert (Hin : forall s, In s (sites ts) -> In s (sites ts')).
    { intros s Hs. apply in_map_iff in Hs. destruct Hs as (t & <- & Hi). apply in_map_iff. exists t. split; [reflexivity|]. apply Ht', Hsub, Ht, Hi. }
    pose proof (Hu _ Ht') as Hu'. assert (Hu0 : names_unambiguous E (sites ts)) by (intros t1 t2 H1 H2; apply Hu'; now apply (linked_more _ _ Hin)).
    destruct (components_exact _ _ _ _ _ _ Hd Ht Hu0) as [H1 H2], (components_exact _ _ _ _ _ _ Hd' Ht' Hu') as [H1' H2'].
    assert (Hr : registered (og_components d) n) by (unfold registered; congruence). apply H1 in Hr. destruct Hr as (t & Hl & Hn).
    destruct (H2 t n Hl Hn) as (m1 & Hm1 & Hs1), (H2' t n (linked_more _ _ Hin _ Hl) Hn) as (m2 & Hm2 & Hs2).
    rewrite Hm1 in Hm. injection Hm as <-. rewrite Hm2. f_equal. destruct (Hs1 cx_new) as [c1 S1], (Hs2 cx_new) as [c2 S2]. exact (schema_returns_ctx_free _ _ _ _ _ _ _ _ S2 S1).
  Qed.
  Lemma mention_all_app f l l' cx : mention_all E f (l ++ l') cx = match mention_all E f l cx with Ok cx1 => mention_all E f l' cx1 | Fuel => Fuel end.
  Proof. revert cx. induction l as [|c l IH]; intros cx; [reflexivity|]. cbn. destruct (mention E f _ _ _ cx) as [[r cx1]|]; [apply IH|reflexivity]. Qed.
  Lemma ev_api_app a more : ev_api seg (a ++ more) = ev_api seg a ++ ev_api seg more.
  Proof. apply flat_map_app. Qed.
  Lemma components_appended a more d d' : describes E reason seg a d -> describes E reason seg (a ++ more) d' ->
    forall n m, bm_get n (cx_schemas (og_components d)) = Some m -> bm_get n (cx_schemas (og_components d')) = Some m.
  Proof.
    intros Hd Hd'. destruct (describes_components _ _ _ _ _ Hd) as (cx & [f Hm] & -> & _), (describes_components _ _ _ _ _ Hd') as (cx' & [f' Hm'] & -> & _).
    rewrite ev_api_app in Hm'. unfold types_of in Hm'. rewrite flat_map_app, map_app, mention_all_app in Hm'.
    destruct (mention_all E f' _ cx_new) as [cx1|] eqn:E1; [|discriminate].
    apply (mention_all_le E f (f + f')) in Hm; [|lia]. apply (mention_all_le E f' (f + f')) in E1; [|lia]. unfold types_of in Hm. rewrite Hm in E1. injection E1 as <-.
    apply mention_all_grows in Hm'. now destruct Hm' as [[H _] _].
  Qed.
  Lemma api_paths_app a more : api_paths (a ++ more) = api_paths a ++ api_paths more.
  Proof. apply flat_map_app. Qed.
  Lemma means_prefix l l' m m' : Forall2 pm l m -> Forall2 pm (l ++ l') m' -> exists m2, m' = m ++ m2.
  Proof.
    intros H. revert m'. induction H as [|x y l m Hxy _ IH]; intros m' H'; [now exists m'|]. cbn in H'. inversion H' as [|? z ? m1 Hz Hm1]; subst.
    destruct (IH _ Hm1) as (m2 & ->). exists m2. cbn. now rewrite (path_means_one _ _ _ Hxy Hz).
  Qed.
  Lemma appended a more d d' : describes E reason seg a d -> describes E reason seg (a ++ more) d' ->
    (exists ps, og_paths d' = og_paths d ++ ps) /\ (exists ss, og_servers d' = og_servers d ++ ss) /\
    (forall n m, bm_get n (cx_schemas (og_components d)) = Some m -> bm_get n (cx_schemas (og_components d')) = Some m).
  Proof.
    intros Hd Hd'. split; [|split].
    - apply describes_means, api_paths_means in Hd, Hd'. rewrite api_paths_app in Hd'. exact (means_prefix _ _ _ _ Hd Hd').
    - apply describes_means in Hd, Hd'. destruct Hd as (_ & _ & -> & _), Hd' as (_ & _ & -> & _). rewrite flat_map_app, map_app. eauto.
    - exact (components_appended _ _ _ _ Hd Hd').
  Qed.
End Local.
