(** What acceptance by a generated schema tells about a JSON value, by the code that generates it. *)
From Verif Require Import Attr AttrSpec AttrFacts Ast AstFacts Derive DeriveSpec Schema SchemaSpec SchemaFacts Gen GenSpec
  GenFacts GenFacts2 GenFacts3 GenFacts4 DeriveFacts DeriveFacts2 SoundSpec SoundFacts ReadsSpec.
From Coq Require Import Arith Lia ZArith.

Lemma applied_valid S p m j : p_variants p = None -> valid_model S (apply_params p m) j ->
  p_nullable p = Some true /\ j = JNull \/ valid_model S m j.
Proof.
  intros Hv H. destruct p as [d0 n0 v0 f0 e0]. cbn in Hv. subst v0.
  destruct m as [d [ [n td] |l|l|l] ]; cbn in H.
  - destruct td as [s|s|s| |r|[props add req] ]; inversion H; subst; cbn;
      try (right; constructor; auto; fail); destruct n0 as [[|]|]; cbn in *; subst; auto; try discriminate; right; try constructor; auto.
  - right. inversion H; subst. econstructor; eauto.
  - right. inversion H; subst. econstructor; eauto.
  - right. inversion H; subst. econstructor; eauto.
Qed.

(** neither a property nor a required name *)
Definition unmentioned (tag : str) (m : model) : Prop :=
  exists o, object_of m = Some o /\ bm_get tag (mo_properties o) = None /\ ~ In tag (mo_required o).

Section Code.
  Variable E : env.
  (** what is known of values accepted for the types one level down *)
  Variable P : ty -> json -> Prop.

  Definition tag_absent (c : mcode) (tag : str) : Prop :=
    match c with
    | McSchemaWith t _ => forall cx m cx', schema_returns E t cx m cx' -> unmentioned tag m
    | McModel _ (DcSingle _ (TcObject stmts)) => ~ In tag (map (fun s => fst (fst s)) stmts)
    | _ => False
    end.

  Fixpoint kr (c : rcode) (j : json) : Prop :=
    match c with
    | RcAny => True
    | RcInline c' => km c' j
    | RcMention t _ p => p_variants p = None -> p_nullable p = Some true /\ j = JNull \/ P t j
    | RcTagged c' tag v _ _ => tag_absent c' tag ->
        match j with
        | JObj ms => In (tag, JStr v) ms /\ km c' (JObj (without tag ms))
        | JNull => km c' JNull
        | _ => False
        end
    end
  with km (c : mcode) (j : json) : Prop :=
    match c with
    | McSchemaWith t p => p_variants p = None -> p_nullable p = Some true /\ j = JNull \/ P t j
    | McModel _ d => kd d j
    end
  with kd (c : dcode) (j : json) : Prop :=
    match c with
    | DcOneOf l => fold_right (fun c' acc => kr c' j \/ acc) False l
    | DcSingle n t => n = true /\ j = JNull \/ kt t j
    end
  with kt (c : tcode) (j : json) : Prop :=
    match c, j with
    | TcConst c', _ => jconst c' j
    | TcArray c', JArr l => forall j', In j' l -> kr c' j'
    | TcObject stmts, JObj l => NoDup (map (fun s => fst (fst s)) stmts) ->
        fold_right (fun s acc => let '(n, c', req) := s in
          ((req = true -> In n (keys l)) /\ forall j', In (n, j') l -> kr c' j') /\ acc) True stmts
    | TcDict c', JObj l => forall k j', In (k, j') l -> kr c' j'
    | _, _ => False
    end.

  Lemma kd_oneof l j c : In c l -> kr c j -> kd (DcOneOf l) j.
  Proof. intros Hin H. cbn. induction l as [|a l IH]; [destruct Hin|]. cbn. destruct Hin as [->|Hin]; auto. Qed.
  Lemma kd_oneof_inv l j : kd (DcOneOf l) j -> exists c, In c l /\ kr c j.
  Proof.
    cbn. induction l as [|a l IH]; cbn; [intros []|]. intros [H|H]; [eauto|].
    destruct (IH H) as (c & Hc & Hj). eauto.
  Qed.
  Lemma kt_object stmts l : (NoDup (map (fun s => fst (fst s)) stmts) -> forall n c req, In (n, c, req) stmts ->
      (req = true -> In n (keys l)) /\ forall j', In (n, j') l -> kr c j') -> kt (TcObject stmts) (JObj l).
  Proof.
    intros H0. cbn. intros H. specialize (H0 H). clear H. rename H0 into H. induction stmts as [|[[n c] req] stmts IH]; cbn; auto. split.
    - apply H. now left.
    - apply IH. intros n' c' req' Hin. apply H. now right.
  Qed.
  Lemma kt_object_inv stmts l : NoDup (map (fun s => fst (fst s)) stmts) -> kt (TcObject stmts) (JObj l) ->
    forall n c req, In (n, c, req) stmts -> (req = true -> In n (keys l)) /\ forall j', In (n, j') l -> kr c j'.
  Proof.
    intros Hnd H. specialize (H Hnd). clear Hnd. induction stmts as [|[[n0 c0] r0] stmts IH]; intros n c req Hin; [destruct Hin|].
    cbn in H. destruct H as [H1 H2]. destruct Hin as [[= <- <- <-]|Hin]; [exact H1|eapply IH; eauto].
  Qed.
End Code.

Lemma eval_vec_src {A B} (f : A -> components -> res (B * components)) l : forall cx rs cx' r,
  eval_vec f l cx = Ok (rs, cx') -> In r rs -> exists a cx1 cx2, In a l /\ f a cx1 = Ok (r, cx2).
Proof.
  induction l as [|x l IH]; intros cx rs cx' r He Hin; cbn in He.
  - injection He as <- <-. destruct Hin.
  - fold (eval_vec f) in He. binds. destruct Hin as [<-|Hin].
    + exists x. eexists _, _. split; [now left|eauto].
    + match goal with H : eval_vec f l _ = Ok _ |- _ => destruct (IH _ _ _ _ H Hin) as (a & c1 & c2 & Ha & Hf) end.
      exists a, c1, c2. split; [now right|exact Hf].
Qed.

Lemma eval_stmts_all (f : rcode -> components -> res (model_ref * components)) l : forall props req cx props' req' cx',
  NoDup (map (fun s => fst (fst s)) l) -> eval_stmts f l props req cx = Ok (props', req', cx') ->
  (forall n c b, In (n, c, b) l -> (b = true -> In n req') /\ exists r cx1 cx2, bm_get n props' = Some r /\ f c cx1 = Ok (r, cx2)) /\
  (forall n, ~ In n (map (fun s => fst (fst s)) l) -> bm_get n props' = bm_get n props) /\
  (forall n, In n req -> In n req').
Proof.
  induction l as [|[[n c] b] l IH]; intros props req cx props' req' cx' Hnd He.
  - cbn in He. injection He as <- <- <-. repeat split; auto; destruct H.
  - cbn in He. fold (eval_stmts f) in He. binds. cbn in Hnd. inversion Hnd as [|? ? Hni Hnd']; subst.
    match goal with H : eval_stmts f l _ _ _ = Ok _ |- _ => destruct (IH _ _ _ _ _ _ Hnd' H) as (IH1 & IH2 & IH3) end.
    split; [|split].
    + intros n' c' b' [[= <- <- <-]|Hin]; [|now apply IH1]. split.
      * intros ->. apply IH3. apply in_or_app. right. now left.
      * eexists _, _, _. split; [|eassumption]. rewrite (IH2 _ Hni). apply bm_get_insert_eq.
    + intros n' Hn'. cbn in Hn'. rewrite IH2 by tauto. apply bm_get_insert_neq. intros ->. tauto.
    + intros n' Hn'. apply IH3. destruct b; [apply in_or_app; now left|exact Hn'].
Qed.

Lemma in_without tag l k j : In (k, j) (without tag l) <-> In (k, j) l /\ k <> tag.
Proof.
  unfold without. rewrite filter_In. cbn [fst]. destruct (str_eq_dec k tag); intuition congruence.
Qed.
Lemma keys_without tag l k : In k (keys (without tag l)) <-> In k (keys l) /\ k <> tag.
Proof.
  unfold keys. split.
  - intros H. apply in_map_iff in H as ([k' j] & <- & H). apply in_without in H as [H1 H2]. split; auto. apply in_map_iff. exists (k', j). auto.
  - intros [H Hne]. apply in_map_iff in H as ([k' j] & <- & H). apply in_map_iff. exists (k', j). split; auto. now apply in_without.
Qed.
Lemma distinct_without tag l : distinct_names (JObj l) -> distinct_names (JObj (without tag l)).
Proof.
  inversion 1 as [| | | | | |? Hnd Hd]; subst. constructor.
  - clear -Hnd. induction l as [|[k j] l IH]; [constructor|]. cbn in Hnd. inversion Hnd as [|? ? Hni Hnd']; subst.
    unfold without. cbn [filter fst]. destruct (str_eq_dec k tag); cbn [keys map fst]; auto. constructor; auto. intros Hx. apply (keys_without tag l k) in Hx. tauto.
  - intros k j Hin. apply in_without in Hin as [Hin _]. eauto.
Qed.

Lemma tagged_valid S m tag v id n j : unmentioned tag m ->
  valid_model S (fst (try_merge m (tag_model tag v id n))) j ->
  match j with
  | JObj ms => In (tag, JStr v) ms /\ valid_model S m (JObj (without tag ms))
  | JNull => valid_model S m JNull
  | _ => False
  end.
Proof.
  intros (o & Ho & Hg & Hq) Hv. destruct m as [d [ [b [s|s|s| |r|[props add req] ] ] |l0|l0|l0] ]; try discriminate.
  cbn in Ho. injection Ho as <-. cbn [mo_properties mo_required] in *.
  unfold try_merge in Hv. cbn -[bm_insert bm_mem merge_props] in Hv. unfold tag_model, mk_single in Hv. cbn -[bm_mem] in Hv.
  assert (Hmem : bm_mem tag props = false) by (unfold bm_mem; now rewrite Hg).
  rewrite Hmem in Hv. cbn -[bm_insert] in Hv.
  inversion Hv as [| | | | | | |? ? ? ? ? ms Hreq Hpr Had| | |]; subst; [constructor|].
  assert (Hall : forall j, In (tag, j) ms -> j = JStr v).
  { intros j Hj. specialize (Hpr _ _ _ Hj (bm_get_insert_eq _ _ _)). inversion Hpr as [| |? ? Hm]; subst.
    inversion Hm as [|? ? ? x Hx| | | | | | | | |]; subst. specialize (Hx _ eq_refl). destruct Hx as [<-|[]]. reflexivity. }
  split.
  - assert (Hk : In tag (keys ms)) by (apply Hreq, in_or_app; right; now left).
    unfold keys in Hk. apply in_map_iff in Hk as ([k j] & Hk & Hin). cbn in Hk. subst k. now rewrite <- (Hall _ Hin).
  - constructor.
    + intros k Hk. apply keys_without. split; [apply Hreq, in_or_app; now left|]. intros ->. contradiction.
    + intros k j r Hin Hr. apply in_without in Hin as [Hin Hne]. eapply Hpr; [exact Hin|]. now rewrite bm_get_insert_neq by auto.
    + intros k j r Hin Hr Ha. apply in_without in Hin as [Hin Hne]. eapply Had; [exact Hin| |exact Ha]. now rewrite bm_get_insert_neq by auto.
Qed.

Section Run.
  Variables (E : env) (calls : list mention_call) (cx_end : components).
  Hypothesis Hun : names_unambiguous E (call_sites calls).
  Hypothesis Hret : mentions_return E calls cx_new cx_end.
  Notation roots := (call_sites calls).
  Notation S := (cx_schemas cx_end).
  Variable P : ty -> json -> Prop.

  (** what any schema of [t] accepts satisfies [P] *)
  Definition complete (t : ty) : Prop :=
    forall j cx m cx', distinct_names j -> schema_returns E t cx m cx' -> valid_model S m j -> P t j.

  Lemma mention_complete t i p cx r cx' j : visited E roots (SMention t i) -> p_variants p = None ->
    mention_returns E t i p cx r cx' -> complete t -> distinct_names j -> valid S r j ->
    p_nullable p = Some true /\ j = JNull \/ P t j.
  Proof.
    intros Hv Hp Hm Hs Hd Hj.
    rewrite mention_returns_iff in Hm. destruct (link_name E t i) as [n|] eqn:El.
    - destruct Hm as [-> _]. unfold link_name in El. destruct i; [discriminate|].
      assert (Hl : linked E roots t) by (split; [exact Hv|congruence]).
      destruct (links_lead_to_own_schema E _ _ _ _ Hun Hret Hl El) as (m & Hg & Hall).
      destruct (Hall cx) as [cx1 H1]. inversion Hj as [|? m' ? Hg' Hj'|]; subst. assert (m' = m) as -> by congruence.
      right. eapply Hs; eauto.
    - destruct Hm as (m & Hm & ->). inversion Hj as [| |? ? Hj']; subst.
      destruct (applied_valid _ _ _ _ Hp Hj') as [H|H]; [now left|right]. eapply Hs; eauto.
  Qed.

  Lemma object_unmentioned fuel d b stmts tag cx m cx' : ~ In tag (map (fun s : str * rcode * bool => fst (fst s)) stmts) ->
    eval_m E (get_schema E fuel) (McModel d (DcSingle b (TcObject stmts))) cx = Ok (m, cx') -> unmentioned tag m.
  Proof.
    intros Hn He. destruct (object_without_tag E _ _ _ _ _ _ _ _ Hn He) as (o & Ho & Hg).
    exists o. split; auto. split; auto. rewrite em_model, ed_single, et_object in He. binds. destruct p as [props req]. binds.
    cbn in Ho. injection Ho as <-. cbn.
    match goal with H : eval_stmts _ _ _ _ _ = Ok _ |- _ => destruct (eval_stmts_src _ _ _ _ _ _ _ _ H) as [_ Hs] end.
    intros Hin. destruct (Hs _ Hin) as [[]|(c & Hc)]. apply Hn. apply in_map_iff. exists (tag, c, true). auto.
  Qed.

  Lemma applied_unmentioned p tag m : unmentioned tag m -> unmentioned tag (apply_params p m).
  Proof.
    intros (o & Ho & H). exists o. split; auto. destruct m as [d0 [ [b0 [s|s|s| |r0|o0] ] |l0|l0|l0] ]; try discriminate. exact Ho.
  Qed.

  Section Eval.
    Variable fuel : nat.
    Notation gs := (get_schema E fuel).
    Notation ok s := (visited E roots s /\ complete (site_ty s)).

    Lemma code_complete :
      (forall c cx r cx' j, (forall s, In s (sites_r c) -> ok s) ->
         eval_r E gs c cx = Ok (r, cx') -> distinct_names j -> valid S r j -> kr E P c j) /\
      (forall c cx m cx' j, (forall s, In s (sites_m c) -> ok s) ->
         eval_m E gs c cx = Ok (m, cx') -> distinct_names j -> valid_model S m j -> km E P c j) /\
      (forall c d cx x cx' j, (forall s, In s (sites_d c) -> ok s) ->
         eval_d E gs c cx = Ok (x, cx') -> distinct_names j -> valid_model S (Model d x) j -> kd E P c j) /\
      (forall c d n cx x cx' j, (forall s, In s (sites_t c) -> ok s) ->
         eval_t E gs c cx = Ok (x, cx') -> distinct_names j -> valid_model S (Model d (Single (MType n x))) j ->
         n = true /\ j = JNull \/ kt E P c j).
    Proof.
      apply code_ind.
      - intros cx r cx' j _ He _ _. exact I.
      - intros c IH cx r cx' j Hs He Hd Hj. rewrite er_inline in He. binds. inversion Hj; subst. cbn [kr]. eapply IH; eauto.
      - intros t i p cx r cx' j Hs He Hd Hj. rewrite er_mention in He. cbn [kr]. intros Hp.
        destruct (Hs _ (or_introl eq_refl)) as [Hv Hc]. eapply mention_complete; eauto. exists fuel. exact He.
      - intros c tag v id n IH cx r cx' j Hs He Hd Hj. rewrite er_tagged in He. binds. inversion Hj as [| |? ? Hj']; subst.
        cbn [kr]. intros Htag.
        match goal with H : eval_m _ _ _ _ = Ok _ |- _ => rename H into Hm end.
        assert (Hu : unmentioned tag m).
        { destruct c as [t p|d [l0|b [c0|c0|stmts|c0] ] ]; cbn in Htag; try now destruct Htag.
          - rewrite em_with in Hm. binds. apply applied_unmentioned. eapply Htag. eexists. eassumption.
          - eapply object_unmentioned; eauto. }
        pose proof (tagged_valid _ _ _ _ _ _ _ Hu Hj') as Ht. destruct j as [| | | | | |ms]; try contradiction.
        + eapply IH; eauto.
        + destruct Ht as [H1 H2]. split; auto. eapply IH; eauto. now apply distinct_without.
      - intros t p cx m cx' j Hs He Hd Hj. rewrite em_with in He. binds. cbn [km]. intros Hp.
        destruct (applied_valid _ _ _ _ Hp Hj) as [Hx|Hx]; [now left|right].
        destruct (Hs _ (or_introl eq_refl)) as [_ Hc]. eapply Hc; eauto. eexists. eassumption.
      - intros d c IH cx m cx' j Hs He Hd Hj. rewrite em_model in He. binds. cbn [km]. eapply IH; eauto.
      - intros l IH d cx x cx' j Hs He Hd Hj. rewrite ed_oneof in He. binds.
        inversion Hj as [| | | | | | | |? ? r ? Hin Hvr| |]; subst.
        match goal with H : eval_vec _ _ _ = Ok _ |- _ => destruct (eval_vec_src _ _ _ _ _ _ H Hin) as (c & c1 & c2 & Hc & Hf) end.
        eapply kd_oneof; [exact Hc|]. rewrite Forall_forall in IH. eapply (IH c Hc); [|exact Hf|exact Hd|exact Hvr].
        intros s Hx. apply Hs. cbn [sites_d]. eapply sites_In; eauto.
      - intros n c IH d cx x cx' j Hs He Hd Hj. rewrite ed_single in He. binds. cbn [kd]. eapply IH; eauto.
      - intros c d n cx x cx' j _ He Hd Hj. rewrite et_const in He. injection He as <- <-.
        destruct c; cbn [const_td] in Hj; inversion Hj; subst; cbn; auto.
      - intros c IH d n cx x cx' j Hs He Hd Hj. rewrite et_array in He. binds.
        inversion Hj as [| | | | | |? ? ? l Hall| | | |]; subst; [now left|right]. cbn [kt]. intros j' Hin.
        inversion Hd; subst. eapply IH; [exact Hs|eassumption| |]; auto.
      - intros stmts IH d n cx x cx' j Hs He Hd Hj. rewrite et_object in He. binds. destruct p as [props req]. binds.
        inversion Hj as [| | | | | | |? ? ? ? ? l Hreq Hpr Had| | |]; subst; [now left|right]. inversion Hd as [| | | | | |? Hnd Hdd]; subst.
        apply kt_object. intros Hn.
        match goal with H : eval_stmts _ _ _ _ _ = Ok _ |- _ => destruct (eval_stmts_all _ _ _ _ _ _ _ _ Hn H) as (Hall & _ & _) end.
        intros k c b Hin. destruct (Hall _ _ _ Hin) as (H1 & r & c1 & c2 & Hg & Hf). split; [auto|].
        intros j' Hj'. rewrite Forall_forall in IH. eapply (IH _ Hin); [|exact Hf|eauto|eauto].
        intros s Hx. apply Hs. cbn [sites_t]. apply in_flat_map. exists (k, c, b). auto.
      - intros c IH d n cx x cx' j Hs He Hd Hj. rewrite et_dict in He. binds.
        inversion Hj as [| | | | | | |? ? ? ? ? l Hreq Hpr Had| | |]; subst; [now left|right]. inversion Hd as [| | | | | |? Hnd Hdd]; subst.
        cbn [kt]. intros k j' Hin. eapply IH; [exact Hs|eassumption|eauto|eauto].
    Qed.
  End Eval.
End Run.
