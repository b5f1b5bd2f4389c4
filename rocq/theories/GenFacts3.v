(** Proofs about schema generation: termination, and what exactly ends up in the components. *)
From Verif Require Import Schema SchemaSpec SchemaFacts Gen GenSpec GenFacts GenFacts2.

Section Term.
  Variable E : env.

  Definition part (t' t : ty) : Prop := refers_to E t t'.

  (** ** Non-recursive types return *)

  Lemma exec_site_below gs1 gs2 s cx cx' : below gs1 gs2 ->
    exec_site E gs1 s cx = Ok cx' -> exec_site E gs2 s cx = Ok cx'.
  Proof.
    intros Hb. destruct s as [t i|t]; cbn; intros H; binds.
    - eapply mention_below in H; [|exact Hb]. now rewrite H.
    - apply Hb in H. now rewrite H.
  Qed.

  Lemma exec_sites_below gs1 gs2 l cx cx' : below gs1 gs2 ->
    exec_sites E gs1 l cx = Ok cx' -> exec_sites E gs2 l cx = Ok cx'.
  Proof.
    intros Hb. revert cx; induction l as [|s l IH]; intros cx; cbn; auto.
    destruct (exec_site E gs1 s cx) as [cx1|] eqn:Es; [|discriminate].
    rewrite (exec_site_below _ _ _ _ _ Hb Es). auto.
  Qed.

  Definition always_returns (t : ty) : Prop := forall cx, exists f m cx', get_schema E f t cx = Ok (m, cx').

  Lemma exec_site_returns s cx : always_returns (site_ty s) ->
    exists f cx', exec_site E (get_schema E f) s cx = Ok cx'.
  Proof.
    destruct s as [t i|t]; cbn [site_ty exec_site]; intros H.
    - destruct (H cx) as (f & m & cx' & Hf). exists f. rewrite mention_schema_eq.
      destruct (link_name E t i) as [n|].
      + destruct (bm_mem n (cx_schemas cx)); cbn; eauto. rewrite Hf. cbn. eauto.
      + rewrite Hf. cbn. eauto.
    - destruct (H cx) as (f & m & cx' & Hf). exists f. rewrite Hf. cbn. eauto.
  Qed.

  Lemma exec_sites_return l : (forall s, In s l -> always_returns (site_ty s)) ->
    forall cx, exists f cx', exec_sites E (get_schema E f) l cx = Ok cx'.
  Proof.
    induction l as [|s l IH]; intros Hl cx.
    - exists 0. cbn. eauto.
    - destruct (exec_site_returns s cx) as (f1 & cx1 & H1); [apply Hl; now left|].
      destruct (IH (fun s' H => Hl s' (or_intror H)) cx1) as (f2 & cx2 & H2).
      exists (f1 + f2), cx2. cbn [exec_sites].
      rewrite (exec_site_below (get_schema E f1) _ _ _ _ (get_schema_le E f1 (f1 + f2) ltac:(lia)) H1).
      apply (exec_sites_below (get_schema E f2)); auto. apply get_schema_le. lia.
  Qed.

  Lemma acc_returns t : Acc part t -> always_returns t.
  Proof.
    induction 1 as [t _ IH]. intros cx.
    destruct (exec_sites_return (sites_of E t)) with (cx := cx) as (f & cx' & H).
    - intros s Hs. apply IH. exists s. auto.
    - apply sites_get_schema in H as [m H]. exists (S f). eauto.
  Qed.

  (** ** Accessibility and recursion *)

  Lemma contains_trans t1 t2 t3 : contains E t1 t2 -> contains E t2 t3 -> contains E t1 t3.
  Proof. induction 1; eauto using contains. Qed.

  Lemma acc_contains t : Acc part t -> forall t', contains E t t' -> Acc part t'.
  Proof.
    induction 1 as [t H IH]. intros t' Hc. inversion Hc; subst; eauto.
  Qed.

  Lemma acc_not_cyclic t : Acc part t -> ~ contains E t t.
  Proof.
    induction 1 as [t H IH]. intros Hc. inversion Hc; subst.
    - apply (IH t); auto.
    - apply (IH t1); auto. eapply contains_trans; eauto. now constructor.
  Qed.

  Lemma acc_not_recursive t : Acc part t -> ~ recursive E t.
  Proof.
    intros Ha [H|(t' & H1 & H2)].
    - eapply acc_not_cyclic; eauto.
    - eapply acc_not_cyclic; [|exact H2]. eapply acc_contains; eauto.
  Qed.

  (** [vis] is a chain of distinct types leading to [t0]. *)
  Lemma not_recursive_acc t (l : list ty) :
    (forall t', contains E t t' -> In t' l) -> ~ recursive E t -> Acc part t.
  Proof.
    intros Hfin Hrec.
    assert (Hmain : forall n vis t0,
      contains E t t0 -> NoDup (t0 :: vis) -> (forall x, In x vis -> contains E x t0) ->
      (forall x, In x vis -> contains E t x) ->
      length l < n + length (t0 :: vis) -> Acc part t0).
    { induction n as [|n IH]; intros vis t0 Ht0 Hnd Hv1 Hv2 Hlen.
      - exfalso. assert (Hi : incl (t0 :: vis) l) by (intros x [<-|Hx]; auto).
        pose proof (NoDup_incl_length Hnd Hi) as Hl. lia.
      - constructor; intros t1 Ht1. unfold part in Ht1.
        assert (Hc1 : contains E t t1) by (eapply contains_trans; eauto; now constructor).
        assert (Hall : forall x, In x (t0 :: vis) -> contains E x t1).
        { intros x [<-|Hx]; [now constructor|]. eapply contains_trans; eauto. now constructor. }
        apply (IH (t0 :: vis)); auto.
        + constructor; auto. intros Hin. apply Hrec. right. exists t1. split; auto.
        + intros x [<-|Hx]; auto.
        + cbn in *. lia. }
    constructor. intros t1 Ht1. unfold part in Ht1.
    apply (Hmain (S (length l)) [] t1).
    - now constructor.
    - constructor; [intros []|constructor].
    - intros ? [].
    - intros ? [].
    - cbn. lia.
  Qed.

  (** ** Named types *)

  Lemma type_name_owner t n : type_name E t = Some n ->
    exists id, owner t = Some id /\ td_inline (E id) = false /\ td_ident (E id) = n.
  Proof.
    unfold owner. induction t; cbn [type_name nominal]; try discriminate; auto.
    - intros H. apply IHt in H as (id & H1 & H2). exists id.
      destruct (nominal t) as [[b id']|]; [|discriminate]. auto.
    - destruct (td_inline (E id)) eqn:Ei; [discriminate|]. intros [= <-]. eauto.
  Qed.

  Lemma owner_acc t id : owner t = Some id -> (Acc part t <-> Acc part (TNamed id)).
  Proof.
    unfold owner. induction t; cbn [nominal]; try discriminate; auto.
    - intros H. rewrite <- (IHt H). split.
      + intros Ha. apply Ha. exists (SCall t). cbn. auto.
      + intros Ha. constructor. intros t' (s & [<-|[]] & <-). exact Ha.
    - intros H. destruct (nominal t) as [[b id']|]; [|discriminate]. rewrite <- (IHt H). split.
      + intros Ha. apply Ha. exists (SCall t). cbn. auto.
      + intros Ha. constructor. intros t' (s & [<-|[]] & <-). exact Ha.
    - intros [= ->]. tauto.
  Qed.

  (** ** Returning implies accessible, when names are unique *)

  Section Unique.
    Variable roots : list site.
    Hypothesis Huniq : names_unique E roots.

    Definition reg_acc (cx : components) : Prop :=
      forall t n, linked E roots t -> type_name E t = Some n -> registered cx n -> Acc part t.

    Lemma registered_insert n m cx n' : registered (cx_insert_schema n m cx) n' <-> n' = n \/ registered cx n'.
    Proof.
      unfold registered, cx_insert_schema. cbn. destruct (str_eq_dec n' n) as [->|Hne].
      - rewrite bm_get_insert_eq. split; auto. discriminate.
      - rewrite bm_get_insert_neq by assumption. tauto.
    Qed.

    Lemma link_name_linked t i n : visited E roots (SMention t i) -> link_name E t i = Some n ->
      linked E roots t /\ type_name E t = Some n.
    Proof.
      unfold link_name. destruct i; [discriminate|]. intros Hv Hn. split; auto. split; auto. congruence.
    Qed.

    Lemma exec_site_acc f s cx cx' :
      (forall t cx m cx', (forall s, In s (sites_of E t) -> visited E roots s) ->
         get_schema E f t cx = Ok (m, cx') -> reg_acc cx -> Acc part t /\ reg_acc cx') ->
      visited E roots s ->
      exec_site E (get_schema E f) s cx = Ok cx' -> reg_acc cx -> Acc part (site_ty s) /\ reg_acc cx'.
    Proof.
      intros IH Hv. assert (Hsub : forall s', In s' (sites_of E (site_ty s)) -> visited E roots s')
        by (intros; eapply vis_step; eauto).
      destruct s as [t i|t]; cbn [site_ty exec_site] in *.
      - intros H Hr. binds. rewrite mention_schema_eq in H. destruct (link_name E t i) as [n|] eqn:El.
        + destruct (link_name_linked _ _ _ Hv El) as [Hlk Hn].
          unfold bm_mem in H. destruct (bm_get n (cx_schemas cx)) eqn:Eg; binds.
          * split; auto. apply (Hr t n); auto. unfold registered. congruence.
          * destruct (IH _ _ _ _ Hsub H Hr) as [Ha Hr']. split; auto.
            intros t' n' Hl' Hn' Hreg. apply registered_insert in Hreg as [->|Hreg]; [|eapply Hr'; eauto].
            assert (Ho : owner t' = owner t) by (apply Huniq; auto; congruence).
            destruct (type_name_owner _ _ Hn) as (id & Hid & _).
            rewrite (owner_acc t' id) by congruence. rewrite <- (owner_acc t id) by congruence. exact Ha.
        + binds. eapply IH; eauto.
      - intros H Hr. binds. eapply IH; eauto.
    Qed.

    Lemma exec_sites_acc f l :
      (forall t cx m cx', (forall s, In s (sites_of E t) -> visited E roots s) ->
         get_schema E f t cx = Ok (m, cx') -> reg_acc cx -> Acc part t /\ reg_acc cx') ->
      (forall s, In s l -> visited E roots s) ->
      forall cx cx', exec_sites E (get_schema E f) l cx = Ok cx' -> reg_acc cx ->
        (forall s, In s l -> Acc part (site_ty s)) /\ reg_acc cx'.
    Proof.
      intros IH. induction l as [|s l IHl]; intros Hv cx cx'; cbn [exec_sites].
      - intros [= <-] Hr. split; auto. intros ? [].
      - destruct (exec_site E (get_schema E f) s cx) as [cx1|] eqn:Es; [|discriminate]. intros H Hr.
        destruct (exec_site_acc f s cx cx1 IH (Hv s (or_introl eq_refl)) Es Hr) as [Ha Hr1].
        destruct (IHl (fun s' H => Hv s' (or_intror H)) _ _ H Hr1) as [Hall Hr2].
        split; auto. intros s' [<-|Hin]; auto.
    Qed.

    Lemma get_schema_acc f : forall t cx m cx',
      (forall s, In s (sites_of E t) -> visited E roots s) ->
      get_schema E f t cx = Ok (m, cx') -> reg_acc cx -> Acc part t /\ reg_acc cx'.
    Proof.
      induction f as [|f IH]; intros t cx m cx' Hv H Hr; [discriminate|].
      apply get_schema_sites in H.
      destruct (exec_sites_acc f _ IH Hv _ _ H Hr) as [Hall Hr']. split; auto.
      constructor. intros t' (s & Hs & <-). auto.
    Qed.

    Lemma reg_acc_new : reg_acc cx_new.
    Proof. intros t n _ _ H. exfalso. apply H. reflexivity. Qed.

    Lemma exec_roots_acc f cx' : exec_sites E (get_schema E f) roots cx_new = Ok cx' ->
      forall s, In s roots -> Acc part (site_ty s).
    Proof.
      intros H. eapply exec_sites_acc; eauto using reg_acc_new.
      - intros. eapply get_schema_acc; eauto.
      - intros. now constructor.
    Qed.

    (** everything visited is accessible *)
    Lemma visited_acc f cx' : exec_sites E (get_schema E f) roots cx_new = Ok cx' ->
      forall s, visited E roots s -> Acc part (site_ty s).
    Proof.
      intros H s Hv. induction Hv as [s Hs | s s' Hv IH Hs'].
      - eapply exec_roots_acc; eauto.
      - apply IH. exists s'. auto.
    Qed.

    (** ** Everything linked gets registered *)

    Definition regs (t : ty) (n : str) : Prop :=
      exists t', linked E (sites_of E t) t' /\ type_name E t' = Some n.

    Lemma visited_incl l1 l2 s : (forall s, In s l1 -> visited E l2 s) -> visited E l1 s -> visited E l2 s.
    Proof. intros H. induction 1; eauto using visited. Qed.

    (** the names registered by one site *)
    Definition site_regs (s : site) (n : str) : Prop :=
      (exists t, s = SMention t false /\ type_name E t = Some n) \/ regs (site_ty s) n.

    Lemma visited_split l s : visited E l s ->
      exists s0, In s0 l /\ (s = s0 \/ visited E (sites_of E (site_ty s0)) s).
    Proof.
      induction 1 as [s Hs | s s' Hv (s0 & Hin & [->|IH]) Hs'].
      - eauto.
      - exists s0. split; auto. right. now constructor.
      - exists s0. split; auto. right. eapply vis_step; eauto.
    Qed.

    Lemma linked_site_regs l t n : linked E l t -> type_name E t = Some n -> exists s, In s l /\ site_regs s n.
    Proof.
      intros [Hv Hn0] Hn. apply visited_split in Hv as (s0 & Hin & [<-|Hv]).
      - eexists; split; eauto. left. eauto.
      - eexists; split; eauto. right. exists t. split; auto. split; auto.
    Qed.

    Lemma owner_regs t id n : owner t = Some id -> (regs t n <-> regs (TNamed id) n).
    Proof.
      unfold owner. induction t; cbn [nominal]; try discriminate.
      - intros H. rewrite <- (IHt H). clear. split; intros (t' & [Hv Hn0] & Hn).
        + apply visited_split in Hv as (s0 & [<-|[]] & [Hs|Hv]); [discriminate|]. exists t'. repeat split; auto.
        + exists t'. repeat split; auto. eapply visited_incl; [|exact Hv]. intros s Hs.
          eapply vis_step; [constructor; now left|exact Hs].
      - intros H. destruct (nominal t) as [[b id']|]; [|discriminate].
        rewrite <- (IHt H). clear. split; intros (t' & [Hv Hn0] & Hn).
        + apply visited_split in Hv as (s0 & [<-|[]] & [Hs|Hv]); [discriminate|]. exists t'. repeat split; auto.
        + exists t'. repeat split; auto. eapply visited_incl; [|exact Hv]. intros s Hs.
          eapply vis_step; [constructor; now left|exact Hs].
      - intros [= ->]. tauto.
    Qed.

    (** registered types have all they link to registered *)
    Definition reg_full (cx : components) : Prop :=
      forall t n, linked E roots t -> type_name E t = Some n -> registered cx n ->
        forall n', regs t n' -> registered cx n'.

    Definition full_step (f : nat) : Prop := forall t cx m cx',
      (forall s, In s (sites_of E t) -> visited E roots s) ->
      get_schema E f t cx = Ok (m, cx') -> reg_full cx ->
      reg_full cx' /\ forall n, regs t n -> registered cx' n.

    Lemma exec_site_full f s cx cx' : full_step f -> visited E roots s ->
      exec_site E (get_schema E f) s cx = Ok cx' -> reg_full cx ->
      reg_full cx' /\ forall n, site_regs s n -> registered cx' n.
    Proof.
      intros IH Hv. assert (Hsub : forall s', In s' (sites_of E (site_ty s)) -> visited E roots s')
        by (intros; eapply vis_step; eauto).
      destruct s as [t i|t]; cbn [site_ty exec_site] in *.
      - intros H Hr. binds. rewrite mention_schema_eq in H. destruct (link_name E t i) as [n|] eqn:El.
        + destruct (link_name_linked _ _ _ Hv El) as [Hlk Hn].
          unfold bm_mem in H. destruct (bm_get n (cx_schemas cx)) eqn:Eg; binds.
          * split; auto. assert (Hreg : registered cx' n) by (unfold registered; congruence).
            intros n' [(t' & [= -> _] & Hn')|Hn'].
            -- congruence.
            -- eapply Hr; eauto.
          * destruct (IH _ _ _ _ Hsub H Hr) as [Hr' Hall]. split.
            -- intros t' n' Hl' Hn' Hreg n1 Hn1. apply registered_insert.
               apply registered_insert in Hreg as [->|Hreg].
               ++ right. apply Hall.
                  assert (Ho : owner t' = owner t) by (apply Huniq; auto; congruence).
                  destruct (type_name_owner _ _ Hn) as (id & Hid & _).
                  rewrite (owner_regs t id) by congruence. rewrite <- (owner_regs t' id) by congruence. exact Hn1.
               ++ right. eapply Hr'; eauto.
            -- intros n1 [(t' & [= -> _] & Hn')|Hn1]; apply registered_insert.
               ++ left. congruence.
               ++ right. auto.
        + binds. destruct (IH _ _ _ _ Hsub H Hr) as [Hr' Hall]. split; auto.
          intros n1 [(t' & [= -> ->] & Hn')|Hn1]; auto. cbn in El. congruence.
      - intros H Hr. binds. destruct (IH _ _ _ _ Hsub H Hr) as [Hr' Hall]. split; auto.
        intros n1 [(t' & [=] & _)|Hn1]; auto.
    Qed.

    Lemma exec_sites_full f l : full_step f -> (forall s, In s l -> visited E roots s) ->
      forall cx cx', exec_sites E (get_schema E f) l cx = Ok cx' -> reg_full cx ->
      reg_full cx' /\ forall s n, In s l -> site_regs s n -> registered cx' n.
    Proof.
      intros IH. induction l as [|s l IHl]; intros Hv cx cx'; cbn [exec_sites].
      - intros [= <-] Hr. split; auto. intros ? ? [].
      - destruct (exec_site E (get_schema E f) s cx) as [cx1|] eqn:Es; [|discriminate]. intros H Hr.
        destruct (exec_site_full f s cx cx1 IH (Hv s (or_introl eq_refl)) Es Hr) as [Hr1 Ha].
        destruct (IHl (fun s' H => Hv s' (or_intror H)) _ _ H Hr1) as [Hr2 Hall].
        split; auto. intros s' n [<-|Hin] Hn; eauto.
        eapply extends_registered; [|apply Ha; exact Hn]. now apply exec_sites_grows in H as [? _].
    Qed.

    Lemma get_schema_full f : full_step f.
    Proof.
      induction f as [|f IH]; intros t cx m cx' Hv H Hr; [discriminate|].
      apply get_schema_sites in H.
      destruct (exec_sites_full f _ IH Hv _ _ H Hr) as [Hr' Hall]. split; auto.
      intros n (t' & Hl & Hn). destruct (linked_site_regs _ _ _ Hl Hn) as (s & Hs & Hsn). eauto.
    Qed.

    Lemma reg_full_new : reg_full cx_new.
    Proof. intros t n _ _ H. exfalso. apply H. reflexivity. Qed.

    Lemma exec_roots_full f cx' : exec_sites E (get_schema E f) roots cx_new = Ok cx' ->
      forall t n, linked E roots t -> type_name E t = Some n -> registered cx' n.
    Proof.
      intros H t n Hl Hn. destruct (linked_site_regs _ _ _ Hl Hn) as (s & Hs & Hsn).
      eapply exec_sites_full; eauto using get_schema_full, reg_full_new. intros. now constructor.
    Qed.
  End Unique.

  (** ** Everything registered belongs to a linked type *)

  Section Source.
    Variable roots : list site.

    Definition reg_source (cx : components) : Prop :=
      forall n m, bm_get n (cx_schemas cx) = Some m ->
        exists t cx0 cx1, linked E roots t /\ type_name E t = Some n /\ schema_returns E t cx0 m cx1.

    Definition source_step (f : nat) : Prop := forall t cx m cx',
      (forall s, In s (sites_of E t) -> visited E roots s) ->
      get_schema E f t cx = Ok (m, cx') -> reg_source cx -> reg_source cx'.

    Lemma exec_site_source f s cx cx' : source_step f -> visited E roots s ->
      exec_site E (get_schema E f) s cx = Ok cx' -> reg_source cx -> reg_source cx'.
    Proof.
      intros IH Hv. assert (Hsub : forall s', In s' (sites_of E (site_ty s)) -> visited E roots s')
        by (intros; eapply vis_step; eauto).
      destruct s as [t i|t]; cbn [site_ty exec_site] in *.
      - intros H Hr. binds. rewrite mention_schema_eq in H. destruct (link_name E t i) as [n|] eqn:El.
        + destruct (link_name_linked _ _ _ _ Hv El) as [Hlk Hn].
          unfold bm_mem in H. destruct (bm_get n (cx_schemas cx)) eqn:Eg; binds; auto.
          pose proof (IH _ _ _ _ Hsub H Hr) as Hr'. intros k m' Hk. cbn in Hk.
          destruct (str_eq_dec k n) as [->|Hne].
          * rewrite bm_get_insert_eq in Hk. injection Hk as <-.
            exists t. do 2 eexists. split; auto. split; auto. eexists; eauto.
          * rewrite bm_get_insert_neq in Hk by assumption. auto.
        + binds. eapply IH; eauto.
      - intros H Hr. binds. eapply IH; eauto.
    Qed.

    Lemma exec_sites_source f l : source_step f -> (forall s, In s l -> visited E roots s) ->
      forall cx cx', exec_sites E (get_schema E f) l cx = Ok cx' -> reg_source cx -> reg_source cx'.
    Proof.
      intros IH. induction l as [|s l IHl]; intros Hv cx cx'; cbn [exec_sites].
      - intros [= <-] Hr. auto.
      - destruct (exec_site E (get_schema E f) s cx) as [cx1|] eqn:Es; [|discriminate]. intros H Hr.
        apply (IHl (fun s' H => Hv s' (or_intror H)) _ _ H).
        eapply exec_site_source; eauto. apply Hv. now left.
    Qed.

    Lemma get_schema_source f : source_step f.
    Proof.
      induction f as [|f IH]; intros t cx m cx' Hv H Hr; [discriminate|].
      apply get_schema_sites in H. eapply exec_sites_source; eauto.
    Qed.

    Lemma exec_roots_source f cx' : exec_sites E (get_schema E f) roots cx_new = Ok cx' -> reg_source cx'.
    Proof.
      intros H. eapply exec_sites_source; eauto using get_schema_source.
      - intros. now constructor.
      - intros n m Hn. discriminate.
    Qed.
  End Source.

  (** ** Transparent wrappers and Option *)

  Lemma returns_step t cx m cx' :
    schema_returns E t cx m cx' <-> exists f, schema_step E (get_schema E f) t cx = Ok (m, cx').
  Proof.
    split.
    - intros [[|f] H]; [discriminate|]. exists f. exact H.
    - intros [f H]. exists (S f). exact H.
  Qed.

  Lemma wrap_returns w t cx m cx' : schema_returns E (TWrap w t) cx m cx' <-> schema_returns E t cx m cx'.
  Proof. rewrite returns_step. reflexivity. Qed.

  Lemma option_returns t cx m cx' : schema_returns E (TOption t) cx m cx' <->
    exists m0, schema_returns E t cx m0 cx' /\ m = apply_params nullable_params m0.
  Proof.
    rewrite returns_step. cbn [schema_step]. unfold get_schema_with_params. split.
    - intros [f H]. binds. eexists; split; [eexists; eauto|reflexivity].
    - intros (m0 & [f H] & ->). exists f. now rewrite H.
  Qed.

  Lemma nullable_idem m :
    apply_params nullable_params (apply_params nullable_params m) = apply_params nullable_params m.
  Proof. now rewrite apply_params_twice. Qed.

  Lemma nominal_returns t o id cx m cx' : nominal t = Some (o, id) ->
    (schema_returns E t cx m cx' <->
     exists m0, schema_returns E (TNamed id) cx m0 cx' /\ m = if o then apply_params nullable_params m0 else m0).
  Proof.
    revert o m. induction t; intros o m; cbn [nominal]; try discriminate.
    - intros H. rewrite wrap_returns. auto.
    - destruct (nominal t) as [[b id']|]; [|discriminate]. intros [= <- <-].
      rewrite option_returns. split.
      + intros (m0 & H & ->). apply (IHt b) in H; auto. destruct H as (m1 & H & ->).
        exists m1. split; auto. destruct b; auto. apply nullable_idem.
      + intros (m1 & H & ->). exists (if b then apply_params nullable_params m1 else m1).
        split; [apply (IHt b); eauto|]. destruct b; auto. now rewrite nullable_idem.
    - intros [= <- <-]. split; [eauto|]. intros (m0 & H & ->). exact H.
  Qed.

  (** ** Histories of mentions *)

  Lemma mention_all_exec f l cx : mention_all E f l cx = exec_sites E (get_schema E f) (call_sites l) cx.
  Proof.
    revert cx; induction l as [|c l IH]; intros cx; cbn [mention_all call_sites map exec_sites]; auto.
    rewrite <- (mention_state E (get_schema E f) (mc_ty c) (mc_inline c) (mc_params c) cx).
    unfold mention.
    destruct (mention_schema E (get_schema E f) (mc_ty c) (mc_inline c) (mc_params c) cx) as [[r cx1]|]; cbn; auto.
  Qed.

  Lemma unambiguous_unique roots : names_unambiguous E roots -> names_unique E roots.
  Proof. intros H t1 t2 H1 H2 Hn. unfold owner. now rewrite (H _ _ H1 H2 Hn). Qed.

  (** The components after any history of mentions from scratch: exactly the schemas of the linked
      types. *)
  Lemma history_exact calls cx : names_unambiguous E (call_sites calls) ->
    mentions_return E calls cx_new cx ->
    (forall n, registered cx n <-> exists t, linked E (call_sites calls) t /\ type_name E t = Some n) /\
    (forall t n, linked E (call_sites calls) t -> type_name E t = Some n ->
       exists m, bm_get n (cx_schemas cx) = Some m /\
         (exists cx0 cx1, schema_returns E t cx0 m cx1) /\
         forall cx0, exists cx1, schema_returns E t cx0 m cx1) /\
    cx_security cx = [] /\ wf_cx cx.
  Proof.
    intros Hun [f Hf]. pose proof (mention_all_wf _ _ _ _ _ Hf wf_new) as Hwf.
    pose proof (mention_all_grows _ _ _ _ _ Hf) as [_ Hsec].
    rewrite mention_all_exec in Hf. pose proof (unambiguous_unique _ Hun) as Hu.
    pose proof (exec_roots_source _ _ _ Hf) as Hsrc.
    pose proof (exec_roots_full _ Hu _ _ Hf) as Hfull.
    pose proof (visited_acc _ Hu _ _ Hf) as Hacc.
    assert (Hown : forall t n, linked E (call_sites calls) t -> type_name E t = Some n ->
       exists m, bm_get n (cx_schemas cx) = Some m /\ forall cx0, exists cx1, schema_returns E t cx0 m cx1).
    { intros t n Hl Hn. pose proof (Hfull _ _ Hl Hn) as Hreg. unfold registered in Hreg.
      destruct (bm_get n (cx_schemas cx)) as [m|] eqn:Eg; [|congruence]. exists m. split; auto.
      intros cx0. destruct (Hsrc _ _ Eg) as (t' & c0 & c1 & Hl' & Hn' & Hr').
      assert (Hnom : nominal t = nominal t') by (apply Hun; auto; congruence).
      destruct (acc_returns t (Hacc _ (proj1 Hl)) cx0) as (f0 & m0 & cx1 & H0).
      assert (H0' : schema_returns E t cx0 m0 cx1) by (eexists; eauto).
      assert (m0 = m) as ->; [|eauto].
      destruct (nominal t) as [[o id]|] eqn:Et.
      - destruct (proj1 (nominal_returns _ _ _ _ _ _ Et) H0') as (a & Ha & Ea).
        symmetry in Hnom. destruct (proj1 (nominal_returns _ _ _ _ _ _ Hnom) Hr') as (b & Hb & Eb).
        rewrite Ea, Eb. now rewrite (schema_returns_ctx_free E _ _ _ _ _ _ _ Ha Hb).
      - destruct (type_name_owner _ _ Hn) as (id & Ho & _). unfold owner in Ho. now rewrite Et in Ho. }
    split; [intros n; split|split; [|split; [|exact Hwf]]].
    - intros Hreg. unfold registered in Hreg. destruct (bm_get n (cx_schemas cx)) as [m|] eqn:Eg; [|congruence].
      destruct (Hsrc _ _ Eg) as (t & c0 & c1 & Hl & Hn & _). eauto.
    - intros (t & Hl & Hn). eauto.
    - intros t n Hl Hn. destruct (Hown t n Hl Hn) as (m & H1 & H2). exists m. split; [exact H1|].
      split; [|exact H2]. destruct (H2 cx_new) as [cx1 H3]. exists cx_new, cx1. exact H3.
    - now rewrite <- Hsec.
  Qed.

  Lemma visited_same l1 l2 : (forall s, In s l1 <-> In s l2) -> forall s, visited E l1 s -> visited E l2 s.
  Proof.
    intros H s. apply visited_incl. intros s' Hs. constructor. now apply H.
  Qed.

  Lemma linked_same l1 l2 : (forall s, In s l1 <-> In s l2) -> forall t, linked E l1 t <-> linked E l2 t.
  Proof.
    intros H t. split; intros [H1 H2]; split; auto.
    - eapply visited_same; eauto.
    - eapply visited_same; [|eauto]. intros; symmetry; auto.
  Qed.

  Lemma history_order_free calls1 calls2 cx : names_unambiguous E (call_sites calls1) ->
    (forall s, In s (call_sites calls1) <-> In s (call_sites calls2)) ->
    mentions_return E calls1 cx_new cx -> mentions_return E calls2 cx_new cx.
  Proof.
    intros Hun Hsame H1.
    assert (Hun2 : names_unambiguous E (call_sites calls2)).
    { intros t1 t2 Hl1 Hl2. apply Hun; now apply (linked_same _ _ Hsame). }
    destruct (history_exact _ _ Hun H1) as (Hd1 & Hm1 & Hs1 & Hw1).
    assert (H2 : exists cx2, mentions_return E calls2 cx_new cx2).
    { destruct H1 as [f Hf]. rewrite mention_all_exec in Hf.
      pose proof (visited_acc _ (unambiguous_unique _ Hun) _ _ Hf) as Hacc.
      destruct (exec_sites_return (call_sites calls2)) with (cx := cx_new) as (f2 & cx2 & H2).
      - intros s Hs. apply acc_returns, Hacc. constructor. now apply Hsame.
      - exists cx2, f2. now rewrite mention_all_exec. }
    destruct H2 as [cx2 H2]. destruct (history_exact _ _ Hun2 H2) as (Hd2 & Hm2 & Hs2 & Hw2).
    replace cx with cx2; auto.
    destruct cx as [sc1 se1], cx2 as [sc2 se2]. cbn in *. subst. f_equal.
    apply bm_ext; [apply Hw2 | apply Hw1 |]. intros n.
    destruct (bm_get n sc1) as [m1|] eqn:E1.
    - assert (Hreg : registered {| cx_schemas := sc1; cx_security := [] |} n) by (unfold registered; cbn; congruence).
      apply Hd1 in Hreg as (t & Hl & Hn). pose proof Hl as Hl2. apply (linked_same _ _ Hsame) in Hl2.
      destruct (Hm1 _ _ Hl Hn) as (a & Ha & (c0 & c1 & Hra) & _).
      destruct (Hm2 _ _ Hl2 Hn) as (b & Hb & (c2 & c3 & Hrb) & _).
      rewrite Hb. rewrite E1 in Ha. injection Ha as <-. f_equal.
      eapply schema_returns_ctx_free; eauto.
    - destruct (bm_get n sc2) as [m2|] eqn:E2; auto. exfalso.
      assert (Hreg : registered {| cx_schemas := sc2; cx_security := [] |} n) by (unfold registered; cbn; congruence).
      apply Hd2 in Hreg as (t & Hl & Hn). apply (linked_same _ _ Hsame) in Hl.
      assert (Hreg' : registered {| cx_schemas := sc1; cx_security := [] |} n) by (apply Hd1; eauto).
      apply Hreg'. exact E1.
  Qed.

  (** ** Termination, stated about a type *)

  Lemma names_unique_call t : names_unique E [SCall t] -> names_unique E (sites_of E t).
  Proof.
    intros H t1 t2 [H1 Hn1] [H2 Hn2]. apply H; split; auto.
    - eapply visited_incl; [|exact H1]. intros s Hs. eapply vis_step; [constructor; now left|exact Hs].
    - eapply visited_incl; [|exact H2]. intros s Hs. eapply vis_step; [constructor; now left|exact Hs].
  Qed.

  Lemma returns_acc t m cx' : names_unique E [SCall t] -> schema_returns E t cx_new m cx' -> Acc part t.
  Proof.
    intros Hu [f Hf]. apply (exec_roots_acc [SCall t] Hu f cx') with (s := SCall t); [|now left].
    cbn. now rewrite Hf.
  Qed.

  Lemma recursive_diverges t : names_unique E [SCall t] -> recursive E t -> schema_diverges E t cx_new.
  Proof.
    intros Hu Hrec f. destruct (get_schema E f t cx_new) as [[m cx']|] eqn:Ef; auto.
    exfalso. eapply acc_not_recursive; [|exact Hrec]. eapply returns_acc; eauto. eexists; eauto.
  Qed.

  Lemma not_recursive_returns t l cx : (forall t', contains E t t' -> In t' l) -> ~ recursive E t ->
    exists m cx', schema_returns E t cx m cx'.
  Proof.
    intros Hfin Hrec. destruct (acc_returns t (not_recursive_acc t l Hfin Hrec) cx) as (f & m & cx' & H).
    exists m, cx', f. exact H.
  Qed.
End Term.
