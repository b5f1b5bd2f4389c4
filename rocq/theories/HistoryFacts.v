(** Facts about histories of calls on components. *)
From Verif Require Import Schema SchemaSpec SchemaFacts Gen GenSpec GenFacts GenFacts2 GenFacts3 GenFacts4 HistorySpec.

Lemma contains_registered cx n : contains_model cx n = true <-> registered cx n.
Proof. unfold contains_model, bm_mem, registered. destruct (bm_get n (cx_schemas cx)); split; congruence. Qed.

Section Source.
  Variables (E : env) (roots : list site) (A : str -> model -> Prop).
  Definition known (cx : components) : Prop := forall n m, bm_get n (cx_schemas cx) = Some m ->
    A n m \/ exists t cx0 cx1, linked E roots t /\ type_name E t = Some n /\ schema_returns E t cx0 m cx1.
  Definition known_step (f : nat) : Prop := forall t cx m cx', (forall s, In s (sites_of E t) -> visited E roots s) ->
    get_schema E f t cx = Ok (m, cx') -> known cx -> known cx'.
  Lemma exec_site_known f s cx cx' : known_step f -> visited E roots s -> exec_site E (get_schema E f) s cx = Ok cx' -> known cx -> known cx'.
  Proof.
    intros IH Hv. assert (Hsub : forall s', In s' (sites_of E (site_ty s)) -> visited E roots s') by (intros; eapply vis_step; eauto).
    destruct s as [t i|t]; cbn [site_ty exec_site] in *.
    - intros H Hr. destruct (mention_schema E (get_schema E f) t i params_default cx) as [[r cx1]|] eqn:Em; [|discriminate]. injection H as <-.
      rewrite mention_schema_eq in Em. destruct (link_name E t i) as [n|] eqn:El.
      + destruct (link_name_linked _ _ _ _ _ Hv El) as [Hlk Hn]. unfold bm_mem in Em.
        destruct (bm_get n (cx_schemas cx)) eqn:Eg; [injection Em as <- <-; exact Hr|].
        destruct (get_schema E f t cx) as [[m cx2]|] eqn:Es; [|discriminate]. injection Em as <- <-.
        pose proof (IH _ _ _ _ Hsub Es Hr) as Hr'. intros k m' Hk. cbn in Hk. destruct (str_eq_dec k n) as [->|Hne].
        * rewrite bm_get_insert_eq in Hk. injection Hk as <-. right. exists t. do 2 eexists. split; auto. split; auto. eexists; eauto.
        * rewrite bm_get_insert_neq in Hk by assumption. auto.
      + destruct (get_schema E f t cx) as [[m cx2]|] eqn:Es; [|discriminate]. injection Em as <- <-. eapply IH; eauto.
    - intros H Hr. destruct (get_schema E f t cx) as [[m cx2]|] eqn:Es; [|discriminate]. injection H as <-. eapply IH; eauto.
  Qed.
  Lemma exec_sites_known f l : known_step f -> (forall s, In s l -> visited E roots s) ->
    forall cx cx', exec_sites E (get_schema E f) l cx = Ok cx' -> known cx -> known cx'.
  Proof.
    intros IH. induction l as [|s l IHl]; intros Hv cx cx'; cbn [exec_sites].
    - intros [= <-] Hr. auto.
    - destruct (exec_site E (get_schema E f) s cx) as [cx1|] eqn:Es; [|discriminate]. intros H Hr.
      apply (IHl (fun s' H => Hv s' (or_intror H)) _ _ H). eapply exec_site_known; eauto. apply Hv. now left.
  Qed.
  Lemma get_schema_known f : known_step f.
  Proof. induction f as [|f IH]; intros t cx m cx' Hv H Hr; [discriminate|]. apply get_schema_sites in H. eapply exec_sites_known; eauto. Qed.
  Lemma performs_known op cx cx' : performs E op cx cx' -> (forall s, In s (consults op) -> visited E roots s) ->
    (forall n m, op = Adds n m -> A n m) -> known cx -> known cx'.
  Proof.
    intros H Hv HA Hk. destruct H as [t i p cx r cx' [f H]|t cx m cx' [f H]|name m cx|name s cx].
    - unfold mention in H. eapply (exec_site_known f (SMention t i) cx cx' (get_schema_known f)); [apply Hv; now left| |exact Hk].
      rewrite <- (mention_state E (get_schema E f) t i p cx). now rewrite H.
    - eapply (exec_site_known f (SCall t) cx cx' (get_schema_known f)); [apply Hv; now left| |exact Hk]. cbn [exec_site]. now rewrite H.
    - unfold add_model. destruct (bm_mem name (cx_schemas cx)); [exact Hk|]. intros k m' H. cbn in H. destruct (str_eq_dec k name) as [->|Hne].
      + rewrite bm_get_insert_eq in H. injection H as <-. left. now apply HA.
      + rewrite bm_get_insert_neq in H by assumption. auto.
    - unfold mention_security_scheme. cbn [snd]. destruct (bm_mem name (cx_security cx)); exact Hk.
  Qed.
End Source.

Section Facts.
  Variable E : env.
  Lemma history_known_from roots (A : str -> model -> Prop) ops cx cx' : history E ops cx cx' -> (forall s, In s (consulted ops) -> visited E roots s) ->
    (forall n m, In (Adds n m) ops -> A n m) -> known E roots A cx -> known E roots A cx'.
  Proof.
    induction 1 as [cx|op ops cx1 cx2 cx3 Ho Hh IH]; intros Hv HA Hk; [exact Hk|]. apply IH.
    - intros s Hs. apply Hv. unfold consulted. cbn. apply in_or_app. now right.
    - intros n m Hi. apply HA. now right.
    - eapply performs_known; [exact Ho| | |exact Hk].
      + intros s Hs. apply Hv. unfold consulted. cbn. apply in_or_app. now left.
      + intros n m ->. apply HA. now left.
  Qed.
  Lemma history_known ops cx n m : history E ops cx_new cx -> bm_get n (cx_schemas cx) = Some m ->
    In (Adds n m) ops \/ exists t cx0 cx1, linked E (consulted ops) t /\ type_name E t = Some n /\ schema_returns E t cx0 m cx1.
  Proof.
    intros H Hm. refine (history_known_from (consulted ops) (fun n m => In (Adds n m) ops) ops cx_new cx H _ _ _ n m Hm).
    - intros s Hs. now constructor.
    - auto.
    - intros k m' Hk. discriminate.
  Qed.
  Lemma performs_extends op cx cx' : performs E op cx cx' -> extends cx cx'.
  Proof.
    intros [t i p c r c' [f H]|t c m c' [f H]|name m c|name s c].
    - apply mention_grows in H. apply H.
    - apply get_schema_grows in H. apply H.
    - unfold add_model, bm_mem. destruct (bm_get name (cx_schemas c)) eqn:Eg; [apply extends_refl|]. apply extends_insert; [exact Eg|apply extends_refl].
    - unfold mention_security_scheme, bm_mem. cbn [snd]. destruct (bm_get name (cx_security c)) eqn:Eg; [apply extends_refl|].
      split; cbn; auto. intros k s' Hk. rewrite bm_get_insert_neq; auto. intros ->. congruence.
  Qed.
  Lemma history_extends ops cx cx' : history E ops cx cx' -> extends cx cx'.
  Proof. induction 1; [apply extends_refl|]. eapply extends_trans; [eapply performs_extends; eauto|assumption]. Qed.
  Lemma history_app ops ops' cx cx' : history E (ops ++ ops') cx cx' <-> exists cx1, history E ops cx cx1 /\ history E ops' cx1 cx'.
  Proof.
    revert cx. induction ops as [|op ops IH]; intros cx; cbn [app].
    - split; [intros H; exists cx; split; [constructor|exact H]|]. intros (c & H & H'). now inversion H; subst.
    - split.
      + intros H. inversion H as [|op' l c1 c2 c3 Hp Hh]; subst. apply IH in Hh. destruct Hh as (c & Hc & Hc').
        exists c. split; [econstructor; eauto|exact Hc'].
      + intros (c & H & H'). inversion H; subst. econstructor; [eauto|]. apply IH. eauto.
  Qed.
  (** what is asked for by name is there afterwards, and stays *)
  Definition brings (op : operation) (n : str) : Prop :=
    match op with Adds k _ => k = n | Mentions t false _ => type_name E t = Some n | _ => False end.
  Lemma performs_brings op n cx cx' : brings op n -> performs E op cx cx' -> registered cx' n.
  Proof.
    intros Hb H. destruct H as [t i p c r c' H|t c m c' H|name m c|name s c]; cbn [brings] in Hb; try contradiction.
    - destruct i; [contradiction|]. rewrite mention_returns_iff in H. unfold link_name in H. rewrite Hb in H.
      destruct H as [_ [[Hr ->]|[_ (m & cx1 & Hs & ->)]]]; [exact Hr|]. unfold registered. cbn. rewrite bm_get_insert_eq. discriminate.
    - subst. unfold registered. rewrite add_model_first. destruct (bm_get n (cx_schemas c)); discriminate.
  Qed.
  Lemma history_brings ops op n cx cx' : In op ops -> brings op n -> history E ops cx cx' -> contains_model cx' n = true.
  Proof.
    intros Hi Hb H. apply contains_registered. apply in_split in Hi. destruct Hi as (l1 & l2 & ->). apply history_app in H. destruct H as (c & _ & H).
    inversion H; subst. eapply extends_registered; [eapply history_extends; eauto|]. eapply performs_brings; eauto.
  Qed.
  Lemma history_mentioned ops n cx : history E ops cx_new cx -> contains_model cx n = true ->
    (exists m, In (Adds n m) ops) \/ exists t, linked E (consulted ops) t /\ type_name E t = Some n.
  Proof.
    intros H Hc. apply contains_registered in Hc. unfold registered in Hc. destruct (bm_get n (cx_schemas cx)) as [m|] eqn:Em; [|congruence].
    destruct (history_known _ _ _ _ H Em) as [Ha|(t & c0 & c1 & Hl & Hn & _)]; eauto.
  Qed.
  Lemma history_added ops ops' n m cx cx1 cx' : history E ops cx cx1 -> contains_model cx1 n = false -> history E (Adds n m :: ops') cx1 cx' ->
    bm_get n (cx_schemas cx') = Some m.
  Proof.
    intros _ Hc H. inversion H as [|op l c1 c2 c3 Hp Hh]; subst. inversion Hp; subst. apply (proj1 (history_extends _ _ _ Hh)).
    rewrite add_model_first. unfold contains_model, bm_mem in Hc. now destruct (bm_get n (cx_schemas cx1)).
  Qed.

  (** dangling links come from models added by hand *)
  Definition closed_but (A : str -> model -> Prop) (cx : components) : Prop :=
    forall n m l, bm_get n (cx_schemas cx) = Some m -> occurs_in l m -> A n m \/ registered cx l.
  Lemma closed_but_insert A n m cx : closed_but A cx -> (A n m \/ forall l, occurs_in l m -> registered cx l) -> closed_but A (cx_insert_schema n m cx).
  Proof.
    intros Hc Hm k m' l. cbn. intros Hk Hl.
    assert (Hreg : A k m' \/ registered cx l).
    { destruct (str_eq_dec k n) as [->|Hne].
      - rewrite bm_get_insert_eq in Hk. injection Hk as <-. destruct Hm; auto.
      - rewrite bm_get_insert_neq in Hk by assumption. eapply Hc; eauto. }
    destruct Hreg as [Ha|Hr]; [now left|right]. unfold registered. cbn. destruct (str_eq_dec l n) as [->|Hne].
    - rewrite bm_get_insert_eq. discriminate.
    - rewrite bm_get_insert_neq by assumption. exact Hr.
  Qed.
  Lemma get_schema_closed_but A f t cx m cx' : get_schema E f t cx = Ok (m, cx') -> closed_but A cx -> closed_but A cx'.
  Proof.
    apply (get_schema_inv E (fun a b => closed_but A a -> closed_but A b)); auto.
    intros n t' f' m' cx1 cx2 _ H Hs Hc. apply closed_but_insert; auto. right. eapply get_schema_links; eauto.
  Qed.
  Lemma performs_closed_but (A : str -> model -> Prop) op cx cx' : performs E op cx cx' -> (forall n m, op = Adds n m -> A n m) -> closed_but A cx -> closed_but A cx'.
  Proof.
    intros H HA. destruct H as [t i p c r c' [f H]|t c m c' [f H]|name m c|name s c].
    - revert H. unfold mention. apply (mention_inv E (fun a b => closed_but A a -> closed_but A b)); auto.
      + intros n t' f' m' cx1 cx2 _ H Hs Hc. apply closed_but_insert; auto. right. eapply get_schema_links; eauto.
      + intros. eapply get_schema_closed_but; eauto.
    - eapply get_schema_closed_but; eauto.
    - intros Hc. unfold add_model. destruct (bm_mem name (cx_schemas c)); [exact Hc|]. apply closed_but_insert; auto.
    - intros Hc. unfold mention_security_scheme. cbn [snd]. destruct (bm_mem name (cx_security c)); exact Hc.
  Qed.
  Lemma history_dangling ops cx n m l : history E ops cx_new cx -> bm_get n (cx_schemas cx) = Some m -> occurs_in l m ->
    contains_model cx l = false -> In (Adds n m) ops.
  Proof.
    intros H Hm Hl Hc. assert (G : forall ops' c c', history E ops' c c' -> (forall n m, In (Adds n m) ops' -> In (Adds n m) ops) ->
      closed_but (fun n m => In (Adds n m) ops) c -> closed_but (fun n m => In (Adds n m) ops) c').
    { induction 1 as [c|op ops' c1 c2 c3 Hp Hh IH]; intros HA Hb; [exact Hb|]. apply IH; [intros; apply HA; now right|].
      eapply performs_closed_but; [exact Hp| |exact Hb]. intros k m' ->. apply HA. now left. }
    destruct (G _ _ _ H (fun _ _ h => h)) with (n := n) (m := m) (l := l) as [Ha|Hr]; auto.
    - intros k m' l' Hk. discriminate.
    - apply contains_registered in Hr. congruence.
  Qed.
  Lemma performs_wf op cx cx' : performs E op cx cx' -> wf_cx cx -> wf_cx cx'.
  Proof.
    intros [t i p c r c' [f H]|t c m c' [f H]|name m c|name s c].
    - revert H. unfold mention. apply (mention_inv E (fun a b => wf_cx a -> wf_cx b)); auto.
      + intros n t' f' m' cx1 cx2 _ H _ Hw. now apply wf_insert, H.
      + intros. eapply get_schema_wf; eauto.
    - eapply get_schema_wf; eauto.
    - intros Hw. unfold add_model. destruct (bm_mem name (cx_schemas c)); [exact Hw|now apply wf_insert].
    - intros [H1 H2]. unfold mention_security_scheme. cbn [snd]. destruct (bm_mem name (cx_security c)); split; cbn; auto. now apply bm_insert_sorted.
  Qed.
  Lemma history_wf ops cx cx' : history E ops cx cx' -> wf_cx cx -> wf_cx cx'.
  Proof. induction 1; eauto using performs_wf. Qed.
  Lemma history_verified ops cx : history E ops cx_new cx ->
    (forall n m l, In (Adds n m) ops -> occurs_in l m -> contains_model cx l = true) -> verify_schemas (cx_schemas cx) = None /\ links_closed (cx_schemas cx).
  Proof.
    intros H Ha. assert (Hc : links_closed (cx_schemas cx)).
    { intros k m l Hk Hl. change (registered cx l). apply contains_registered. destruct (contains_model cx l) eqn:Ec; [reflexivity|].
      pose proof (history_dangling _ _ _ _ _ H Hk Hl Ec) as Hi. rewrite <- Ec. eapply Ha; eauto. }
    split; [|exact Hc]. apply verify_closed; [|exact Hc]. exact (proj1 (history_wf _ _ _ H (wf_new))).
  Qed.
  Lemma history_security ops n cx cx' : history E ops cx cx' ->
    bm_get n (cx_security cx') = match bm_get n (cx_security cx) with Some s => Some s | None => first_scheme n ops end.
  Proof.
    induction 1 as [c|op ops c1 c2 c3 Hp Hh IH]; [cbn; now destruct (bm_get n (cx_security c))|]. rewrite IH. clear IH Hh.
    destruct Hp as [t i p c r c' [f H]|t c m c' [f H]|name m c|name s c]; cbn [first_scheme].
    - apply mention_grows in H. now rewrite (proj2 H).
    - apply get_schema_grows in H. now rewrite (proj2 H).
    - unfold add_model. now destruct (bm_mem name (cx_schemas c)).
    - unfold mention_security_scheme, bm_mem. cbn [snd]. destruct (str_eqb n name) eqn:En.
      + apply str_eqb_eq in En as ->. destruct (bm_get name (cx_security c)) eqn:Eg; cbn; [now rewrite Eg|]. now rewrite bm_get_insert_eq.
      + assert (n <> name) by (intros ->; now rewrite str_eqb_refl in En). destruct (bm_get name (cx_security c)) eqn:Eg; [reflexivity|]. cbn. now rewrite bm_get_insert_neq.
  Qed.
End Facts.
