(** Facts about describe_api!: where its parts are written. *)
From Verif Require Import ApiSpec ApiFacts ApiFacts2 ApiFacts3 ApiFacts4 SchemaFacts GenFacts SerFacts SerFacts2 SerFacts3 SerFacts4.
Local Open Scope string_scope. Local Open Scope list_scope.
Local Opaque bm_insert.

Lemma within_trans ds0 ds1 ds2 : declared_within ds0 ds1 -> declared_within ds1 ds2 -> declared_within ds0 ds2.
Proof. intros H1 H2. induction H2; [exact H1|]. eapply dw_callback; eassumption. Qed.
Lemma within_first ds d m l cs t n ds' ds2 : In d ds -> In (PvMethod m l) (pd_props d) -> In (OpCallbacks cs t) l -> In (CbIdent n ds') cs ->
  declared_within ds' ds2 -> declared_within ds ds2.
Proof. intros. eapply within_trans; [|eassumption]. eapply dw_callback; [apply dw_self|eassumption..]. Qed.

Section Where.
  Variable seg : list tree -> option segment.

  (** ** Events *)
  Definition own_event (d : path_decl) (e : event) : Prop :=
    In e (ev_url seg (pd_url d)) \/ exists q, In q (pd_props d) /\ In e (ev_path_prop (fun _ => []) q).
  Lemma ev_path_own cb d e : In e (ev_path seg cb d) -> own_event d e \/
    exists m l cs t c, In (PvMethod m l) (pd_props d) /\ In (OpCallbacks cs t) l /\ In c cs /\ In e (cb c).
  Proof.
    unfold ev_path. intros H. apply in_app_or in H. destruct H as [H|H]; [left; now left|]. apply in_flat_map in H.
    destruct H as (q & Hq & He). destruct q as [s|s|l|m l]; try (now destruct He).
    - left. right. exists (PvParameters l). split; [exact Hq|exact He].
    - cbn in He. apply in_flat_map in He. destruct He as (p & Hp & He).
      destruct p; try (left; right; exists (PvMethod m l); split; [exact Hq|]; cbn; apply in_flat_map; eexists; split; [exact Hp|exact He]).
      right. cbn in He. apply in_flat_map in He. destruct He as (c & Hc & He). do 5 eexists. repeat split; eassumption.
  Qed.
  Lemma ev_callback_own c : forall e, In e (ev_callback seg c) ->
    exists n ds ds' d, c = CbIdent n ds /\ declared_within ds ds' /\ In d ds' /\ own_event d e.
  Proof.
    induction c as [c IH] using callback_decl_ind'. intros e He. destruct c as [n l|n l]; [destruct He|]. cbn [ev_callback] in He.
    apply in_flat_map in He. destruct He as (d & Hd & He). apply ev_path_own in He. destruct He as [He|(m & ops & cs & t & c & H1 & H2 & H3 & H4)].
    - exists n, l, l, d. repeat split; auto. constructor.
    - destruct (IH _ _ _ _ _ _ _ c eq_refl Hd H1 H2 H3 _ H4) as (n' & ds & ds' & d' & -> & Hw & Hd' & Ho).
      exists n, l, ds', d'. repeat split; auto. eapply within_first; eassumption.
  Qed.
  Lemma ev_api_own a e : In e (ev_api seg a) ->
    (exists d, declares_path a d /\ own_event d e) \/ exists n s, e = EvDeclare n s /\ declares_scheme a n s.
  Proof.
    unfold ev_api. intros H. apply in_flat_map in H. destruct H as (s & Hs & He). destruct s as [l|l|l|l|l]; try (now destruct He).
    - right. cbn in He. apply in_flat_map in He. destruct He as (x & Hx & He). destruct (scheme_declared x) as [[n sc]|] eqn:Ex; [|now destruct He].
      destruct He as [<-|[]]. exists n, sc. split; [reflexivity|]. exists l, x. auto.
    - left. cbn in He. apply in_flat_map in He. destruct He as (d & Hd & He).
      assert (Hin : In d (api_paths a)) by (apply in_flat_map; exists (ScPaths l); auto).
      apply ev_path_own in He. destruct He as [He|(m & ops & cs & t & c & H1 & H2 & H3 & H4)].
      + exists d. split; [|exact He]. exists (api_paths a). split; [constructor|exact Hin].
      + destruct (ev_callback_own _ _ H4) as (n' & ds & ds' & d' & -> & Hw & Hd' & Ho). exists d'. split; [|exact Ho].
        exists ds'. split; [|exact Hd']. eapply within_first; eassumption.
  Qed.
  Lemma param_events q e : In e (ev_param q) <-> exists t, e = EvType t /\ param_type q t.
  Proof.
    assert (Hp : forall l, In e (ev_param_props l) <-> exists t, e = EvType t /\ In (PpSchema t) l).
    { intros l. unfold ev_param_props. rewrite in_flat_map. split.
      - intros (p & Hp & He). destruct p; try (now destruct He). destruct He as [<-|[]]. eauto.
      - intros (t & -> & Ht). exists (PpSchema t). split; [exact Ht|now left]. }
    unfold param_type. destruct q as [n l|n t l]; cbn [ev_param pd_type pd_params In]; rewrite Hp; split.
    - intros [<-|(t & -> & Ht)]; eauto.
    - intros (t & -> & [-> |Ht]); eauto.
    - intros [<-|(t' & -> & Ht)]; eauto.
    - intros (t' & -> & [-> |Ht]); eauto.
  Qed.
  Lemma body_events b e : In e (ev_body b) <-> exists t, e = EvType t /\ body_type b t.
  Proof.
    destruct b as [l|t]; cbn.
    - rewrite in_flat_map. split.
      + intros (p & Hp & He). destruct p; try (now destruct He). destruct He as [<-|[]]. eauto.
      + intros (t & -> & Ht). exists (BpSchema t). split; [exact Ht|now left].
    - split; [intros [<-|[]]; eauto|]. intros (t' & -> & ->). now left.
  Qed.
  Lemma response_events s e : In e (ev_response s) <-> exists t, e = EvType t /\ response_type s t.
  Proof.
    destruct s; cbn; (split; [intros H|intros (t' & -> & H)]); try tauto; try (now destruct H).
    - destruct H as [<-|[]]. eauto.
    - subst. auto.
    - destruct H as [<-|[]]. eauto.
    - subst. auto.
  Qed.
  Lemma no_type_parameter text : type_param_name text = None <-> forall n, ~ type_parameter text n.
  Proof.
    split.
    - intros H n Hn. apply type_parameter_name in Hn. congruence.
    - intros H. destruct (type_param_name text) as [n|] eqn:En; [|reflexivity]. exfalso. apply (H n). now apply type_param_name_Some.
  Qed.
  Lemma url_events url e : In e (ev_url seg url) <-> exists g s, In g (split_url url) /\ seg g = Some s /\ In e (ev_segment s).
  Proof.
    unfold ev_url. rewrite in_flat_map. split.
    - intros (g & Hg & He). destruct (seg g) as [s|] eqn:Es; [|destruct He]. eauto.
    - intros (g & s & Hg & Hs & He). exists g. rewrite Hs. auto.
  Qed.
  Lemma type_events a t : In (EvType t) (ev_api seg a) <-> names_type seg a t.
  Proof.
    split.
    - intros H. apply ev_api_own in H. destruct H as [(d & Hd & Ho)|(n & s & [=] & _)]. destruct Ho as [Hu|(q & Hq & He)].
      + apply url_events in Hu. destruct Hu as (g & s & Hg & Hs & He). destruct s as [l|text t'|n t']; cbn in He.
        * destruct He.
        * destruct (type_param_name text) as [n|] eqn:En; [|destruct He as [[=]|[]]]. destruct He as [[= ->]|[]]. apply type_param_name_Some in En.
          eapply nt_type; eassumption.
        * destruct He as [[= ->]|[]]. eapply nt_named; eassumption.
      + destruct q as [s|s|l|m l]; try (now destruct He).
        * cbn in He. apply in_flat_map in He. destruct He as (q & Hq' & He). apply param_events in He. destruct He as (t' & [= <-] & Ht). eapply nt_path_parameter; eassumption.
        * cbn in He. apply in_flat_map in He. destruct He as (p & Hp & He). assert (Hop : declares_operation a l) by (exists d, m; auto).
          destruct p; cbn in He; try (now destruct He).
          -- apply in_flat_map in He. destruct He as (q & Hq' & He). apply param_events in He. destruct He as (t' & [= <-] & Ht). eapply nt_parameter; eassumption.
          -- apply in_flat_map in He. destruct He as (x & _ & He). destruct He.
          -- apply in_flat_map in He. destruct He as (x & _ & He). apply in_flat_map in He. destruct He as (y & _ & He). destruct y; cbn in He; [destruct He|destruct He as [[=]|[]]].
          -- apply body_events in He. destruct He as (t' & [= <-] & Ht). eapply nt_body; eassumption.
          -- apply response_events in He. destruct He as (t' & [= <-] & Ht). eapply nt_response; eassumption.
    - intros [pd g text n Hp Hg Hs Hn|pd g n Hp Hg Hs|pd l q Hp Hl Hq Ht|ops l q Ho Hl Hq Ht|ops b Ho Hb Ht|ops c d s Ho Hr Ht].
      + eapply declares_path_events; [exact Hp|]. apply in_or_app. left. apply url_events. do 2 eexists. repeat split; [exact Hg|exact Hs|]. cbn.
        apply type_parameter_name in Hn. rewrite Hn. now left.
      + eapply declares_path_events; [exact Hp|]. apply in_or_app. left. apply url_events. do 2 eexists. repeat split; [exact Hg|exact Hs|]. now left.
      + eapply declares_path_events; [exact Hp|]. apply in_or_app. right. apply in_flat_map. exists (PvParameters l). split; [exact Hl|]. cbn. apply in_flat_map.
        exists q. split; [exact Hq|]. apply param_events. eauto.
      + eapply declares_operation_events; [exact Ho|exact Hl|]. cbn. apply in_flat_map. exists q. split; [exact Hq|]. apply param_events. eauto.
      + eapply declares_operation_events; [exact Ho|exact Hb|]. cbn. apply body_events. eauto.
      + eapply declares_operation_events; [exact Ho|exact Hr|]. cbn. apply response_events. eauto.
  Qed.
  Lemma panic_events a : In EvPanic (ev_api seg a) <-> unnameable seg a.
  Proof.
    split.
    - intros H. apply ev_api_own in H. destruct H as [(d & Hd & Ho)|(n & s & [=] & _)]. destruct Ho as [Hu|(q & Hq & He)].
      + apply url_events in Hu. destruct Hu as (g & s & Hg & Hs & He). destruct s as [l|text t'|n t']; cbn in He.
        * destruct He.
        * destruct (type_param_name text) as [n|] eqn:En; [destruct He as [[=]|[]]|]. exists d, g, text, t'. pose proof (proj1 (no_type_parameter text) En). auto.
        * destruct He as [[=]|[]].
      + exfalso. destruct q as [s|s|l|m l]; try (now destruct He).
        * cbn in He. apply in_flat_map in He. destruct He as (q & Hq' & He). apply param_events in He. destruct He as (t' & [=] & _).
        * cbn in He. apply in_flat_map in He. destruct He as (p & Hp & He). destruct p; cbn in He; try (now destruct He).
          -- apply in_flat_map in He. destruct He as (q & Hq' & He). apply param_events in He. destruct He as (t' & [=] & _).
          -- apply in_flat_map in He. destruct He as (x & _ & He). destruct He.
          -- apply in_flat_map in He. destruct He as (x & _ & He). apply in_flat_map in He. destruct He as (y & _ & He). destruct y; cbn in He; [destruct He|destruct He as [[=]|[]]].
          -- apply body_events in He. destruct He as (t' & [=] & _).
          -- apply response_events in He. destruct He as (t' & [=] & _).
    - intros (pd & g & text & t & Hp & Hg & Hs & Hn). eapply declares_path_events; [exact Hp|]. apply in_or_app. left. apply url_events.
      do 2 eexists. repeat split; [exact Hg|exact Hs|]. cbn. rewrite (proj2 (no_type_parameter text) Hn). now left.
  Qed.
  Lemma use_events a n s : In (EvUse n s) (ev_api seg a) <-> uses_scheme a n s.
  Proof.
    split.
    - intros H. apply ev_api_own in H. destruct H as [(d & Hd & Ho)|(n' & s' & [=] & _)]. destruct Ho as [Hu|(q & Hq & He)].
      + exfalso. apply url_events in Hu. destruct Hu as (g & sg & Hg & Hs & He). destruct sg as [l|text t'|n' t']; cbn in He.
        * destruct He.
        * destruct (type_param_name text) as [n'|] eqn:En; destruct He as [[=]|[]].
        * destruct He as [[=]|[]].
      + destruct q as [s0|s0|l|m l]; try (now destruct He).
        * exfalso. cbn in He. apply in_flat_map in He. destruct He as (q & Hq' & He). apply param_events in He. destruct He as (t' & [=] & _).
        * cbn in He. apply in_flat_map in He. destruct He as (p & Hp & He). assert (Hop : declares_operation a l) by (exists d, m; auto).
          destruct p; cbn in He; try (now destruct He).
          -- exfalso. apply in_flat_map in He. destruct He as (q & Hq' & He). apply param_events in He. destruct He as (t' & [=] & _).
          -- exfalso. apply in_flat_map in He. destruct He as (x & _ & He). destruct He.
          -- apply in_flat_map in He. destruct He as (x & Hx & He). apply in_flat_map in He. destruct He as (y & Hy & He). destruct y as [nm r|nm sc r]; cbn in He; [destruct He|].
             destruct He as [[= -> ->]|[]]. exists l. do 3 eexists. repeat split; eassumption.
          -- exfalso. apply body_events in He. destruct He as (t' & [=] & _).
          -- exfalso. apply response_events in He. destruct He as (t' & [=] & _).
    - intros (ops & reqs & req & roles & Ho & H1 & H2 & H3). eapply declares_operation_events; [exact Ho|exact H1|]. cbn.
      apply in_flat_map. exists req. split; [exact H2|]. apply in_flat_map. eexists. split; [exact H3|]. now left.
  Qed.
  Lemma declare_events a n s : In (EvDeclare n s) (ev_api seg a) <-> declares_scheme a n s.
  Proof.
    split.
    - intros H. apply ev_api_own in H. destruct H as [(d & Hd & Ho)|(n' & s' & [= <- <-] & Hd)]; [|exact Hd]. exfalso. destruct Ho as [Hu|(q & Hq & He)].
      + apply url_events in Hu. destruct Hu as (g & sg & Hg & Hs & He). destruct sg as [l|text t'|n' t']; cbn in He.
        * destruct He.
        * destruct (type_param_name text) as [n'|] eqn:En; destruct He as [[=]|[]].
        * destruct He as [[=]|[]].
      + destruct q as [s0|s0|l|m l]; try (now destruct He).
        * cbn in He. apply in_flat_map in He. destruct He as (q & Hq' & He). apply param_events in He. destruct He as (t' & [=] & _).
        * cbn in He. apply in_flat_map in He. destruct He as (p & Hp & He). destruct p; cbn in He; try (now destruct He).
          -- apply in_flat_map in He. destruct He as (q & Hq' & He). apply param_events in He. destruct He as (t' & [=] & _).
          -- apply in_flat_map in He. destruct He as (x & _ & He). destruct He.
          -- apply in_flat_map in He. destruct He as (x & _ & He). apply in_flat_map in He. destruct He as (y & _ & He). destruct y; cbn in He; [destruct He|destruct He as [[=]|[]]].
          -- apply body_events in He. destruct He as (t' & [=] & _).
          -- apply response_events in He. destruct He as (t' & [=] & _).
    - intros (ds & x & H1 & H2 & H3). unfold ev_api. apply in_flat_map. eexists. split; [exact H1|]. cbn. apply in_flat_map. exists x. split; [exact H2|].
      rewrite H3. now left.
  Qed.

  (** ** Security schemes *)
  Lemma schemes_after_get l n : bm_get n (schemes_after l) =
    match last_of (event_declares n) l with Some s => Some s | None => first_of (event_uses n) l end.
  Proof.
    unfold schemes_after. fold sec_step.
    enough (G : forall m, bm_get n (fold_left sec_step l m) =
      match last_of (event_declares n) l with Some s => Some s | None => match bm_get n m with Some s => Some s | None => first_of (event_uses n) l end end) by apply (G []).
    induction l as [|e l IH]; intros m; cbn [fold_left last_of first_of]; [now destruct (bm_get n m)|]. rewrite IH.
    destruct (last_of (event_declares n) l) as [s|]; [reflexivity|].
    destruct e as [t| |n' s|n' s]; cbn [sec_step event_declares event_uses]; try reflexivity.
    - destruct (str_eqb n n') eqn:En.
      + apply str_eqb_eq in En. subst n'. destruct (bm_get n m) as [s'|] eqn:Eg; [now rewrite Eg|]. now rewrite bm_get_insert_eq.
      + assert (Hne : n <> n') by (intros ->; rewrite (proj2 (str_eqb_eq n' n') eq_refl) in En; discriminate).
        destruct (bm_get n' m); [reflexivity|]. now rewrite bm_get_insert_neq by congruence.
    - destruct (str_eqb n n') eqn:En.
      + apply str_eqb_eq in En. subst n'. now rewrite bm_get_insert_eq.
      + assert (Hne : n <> n') by (intros ->; rewrite (proj2 (str_eqb_eq n' n') eq_refl) in En; discriminate).
        now rewrite bm_get_insert_neq by congruence.
  Qed.
  Lemma first_of_In {X A} (sel : X -> option A) l a : first_of sel l = Some a -> exists x, In x l /\ sel x = Some a.
  Proof.
    induction l as [|x l IH]; [discriminate|]. cbn. destruct (sel x) as [b|] eqn:Ex.
    - intros [= ->]. eauto.
    - intros H. destruct (IH H) as (y & H1 & H2). eauto.
  Qed.
  Lemma first_of_None {X A} (sel : X -> option A) l : first_of sel l = None -> forall x, In x l -> sel x = None.
  Proof.
    induction l as [|x l IH]; [intros _ ? []|]. cbn. destruct (sel x) as [b|] eqn:Ex; [discriminate|]. intros H y [<-|Hy]; auto.
  Qed.
  Lemma schemes_after_iff l n : bm_get n (schemes_after l) <> None <-> exists s, In (EvDeclare n s) l \/ In (EvUse n s) l.
  Proof.
    rewrite schemes_after_get. split.
    - destruct (last_of (event_declares n) l) as [s|] eqn:El.
      + intros _. apply last_of_In in El. destruct El as (x & Hx & Hs). destruct x as [| |n' s'|n' s']; try discriminate. cbn in Hs. destruct (str_eqb n n') eqn:En; [|discriminate].
        apply str_eqb_eq in En. subst. eauto.
      + destruct (first_of (event_uses n) l) as [s|] eqn:Ef; [|congruence]. intros _. apply first_of_In in Ef. destruct Ef as (x & Hx & Hs).
        destruct x as [| |n' s'|n' s']; try discriminate. cbn in Hs. destruct (str_eqb n n') eqn:En; [|discriminate].
        apply str_eqb_eq in En. subst. eauto.
    - intros (s & [H|H]).
      + destruct (last_of (event_declares n) l) as [s'|] eqn:El; [discriminate|]. rewrite last_of_None in El. specialize (El _ H). cbn in El.
        rewrite (proj2 (str_eqb_eq n n) eq_refl) in El. discriminate.
      + destruct (last_of (event_declares n) l); [discriminate|]. destruct (first_of (event_uses n) l) as [s'|] eqn:Ef; [discriminate|].
        pose proof (first_of_None _ _ Ef _ H) as Hc. cbn in Hc. rewrite (proj2 (str_eqb_eq n n) eq_refl) in Hc. discriminate.
  Qed.

  (** ** What does not compile *)
  Definition own_op_compiles (p : op_prop callback_decl) : bool := op_prop_compiles (fun _ => true) p.
  Definition own_compiles (d : path_decl) : bool := path_compiles seg (fun _ => true) d.
  Lemma op_compiles_split cb p : op_prop_compiles cb p = own_op_compiles p && (match p with OpCallbacks cs _ => forallb cb cs | _ => true end).
  Proof.
    destruct p as [| | | | |ps|cs tr|reqs|b|]; cbn; try reflexivity; try (now rewrite Bool.andb_true_r).
    replace (forallb (fun _ : callback_decl => true) cs) with true by (clear; induction cs; cbn; auto). cbn. apply Bool.andb_comm.
  Qed.
  Lemma forallb_false {A} (p : A -> bool) l : forallb p l = false <-> exists x, In x l /\ p x = false.
  Proof.
    induction l as [|x l IH]; cbn.
    - split; [discriminate|]. intros (x & [] & _).
    - rewrite Bool.andb_false_iff, IH. split.
      + intros [H|(y & H1 & H2)]; eauto.
      + intros (y & [<-|Hy] & H); eauto.
  Qed.
  Lemma path_compiles_false cb d : path_compiles seg cb d = false <-> own_compiles d = false \/
    exists m l cs t c, In (PvMethod m l) (pd_props d) /\ In (OpCallbacks cs t) l /\ In c cs /\ cb c = false.
  Proof.
    unfold own_compiles, path_compiles. rewrite !Bool.andb_false_iff, !forallb_false. split.
    - intros [H|(q & Hq & H)]; [tauto|]. destruct q as [s|s|l|m l]; try discriminate. cbn in H. apply forallb_false in H. destruct H as (p & Hp & H).
      rewrite op_compiles_split in H. apply Bool.andb_false_iff in H. destruct H as [H|H].
      + left. right. exists (PvMethod m l). split; [exact Hq|]. cbn. apply forallb_false. eauto.
      + right. destruct p; try discriminate. apply forallb_false in H. destruct H as (c & Hc & H). do 5 eexists. repeat split; eassumption.
    - intros [[H|(q & Hq & H)]|(m & l & cs & t & c & H1 & H2 & H3 & H4)]; [tauto| |].
      + right. exists q. split; [exact Hq|]. destruct q; try discriminate. cbn in *. apply forallb_false in H. destruct H as (p & Hp & H). apply forallb_false. exists p.
        split; [exact Hp|]. rewrite op_compiles_split. unfold own_op_compiles. now rewrite H.
      + right. exists (PvMethod m l). split; [exact H1|]. cbn. apply forallb_false. eexists. split; [exact H2|]. rewrite op_compiles_split. apply Bool.andb_false_iff. right.
        apply forallb_false. eauto.
  Qed.
  Lemma callback_compiles_false c : callback_compiles seg c = false ->
    exists n ds ds' d, c = CbIdent n ds /\ declared_within ds ds' /\ In d ds' /\ own_compiles d = false.
  Proof.
    induction c as [c IH] using callback_decl_ind'. destruct c as [n l|n l]; [discriminate|]. cbn [callback_compiles]. intros H.
    apply forallb_false in H. destruct H as (d & Hd & H). apply path_compiles_false in H. destruct H as [H|(m & ops & cs & t & c & H1 & H2 & H3 & H4)].
    - exists n, l, l, d. repeat split; auto. constructor.
    - destruct (IH _ _ _ _ _ _ _ c eq_refl Hd H1 H2 H3 H4) as (n' & ds & ds' & d' & -> & Hw & Hd' & Ho). exists n, l, ds', d'. repeat split; auto.
      eapply within_first; eassumption.
  Qed.
  Lemma declared_compiles ds0 ds d : declared_within ds0 ds -> In d ds -> path_compiles seg (callback_compiles seg) d = false ->
    exists d0, In d0 ds0 /\ path_compiles seg (callback_compiles seg) d0 = false.
  Proof.
    intros Hw. revert d. induction Hw as [|ds d1 m l cs t n ds' Hw IH H1 H2 H3 H4]; intros d Hd H; [eauto|].
    apply (IH d1 H1). apply path_compiles_false. right. exists m, l, cs, t, (CbIdent n ds'). repeat split; auto. cbn. apply forallb_false. eauto.
  Qed.
  Lemma own_op_false p : own_op_compiles p = false <->
    match p with
    | OpBody (BodyProps l) => forall t, ~ In (BpSchema t) l
    | OpSecurity l => In [] l \/ exists r i, In r l /\ In i r /\ item_roles i <> []
    | OpCallbacks cs trailing => exists l1 n ps l2, cs = l1 ++ CbLit n ps :: l2 /\ (l2 <> [] \/ trailing = true)
    | _ => False
    end.
  Proof.
    destruct p as [| | | | |l|cs trailing|l|b|c d s]; cbn; try (split; [discriminate|tauto]).
    - replace (forallb (fun _ : callback_decl => true) cs) with true by (induction cs; cbn; auto). cbn.
      induction cs as [|c cs IH]; cbn.
      + split; [discriminate|]. intros (l1 & n & ps & l2 & H & _). destruct l1; discriminate.
      + destruct c as [n ps|n ps].
        * split.
          -- intros H. exists [], n, ps, cs. split; [reflexivity|]. destruct cs; [|left; discriminate]. right. now destruct trailing.
          -- intros (l1 & n' & ps' & l2 & H & H2). destruct l1 as [|x l1].
             ++ injection H as <- <- <-. destruct H2 as [H2| ->]; [now destruct cs|]. cbn. now rewrite Bool.andb_false_r.
             ++ injection H as <- ->. now destruct l1.
        * rewrite IH. split; intros (l1 & n' & ps' & l2 & H & H2).
          -- exists (CbIdent n ps :: l1), n', ps', l2. subst. auto.
          -- destruct l1 as [|x l1]; [discriminate|]. injection H as <- ->. exists l1, n', ps', l2. auto.
    - rewrite forallb_false. split.
      + intros (r & Hr & H). apply Bool.andb_false_iff in H. destruct H as [H|H]; [left; now destruct r|]. apply forallb_false in H. destruct H as (i & Hi & H).
        right. exists r, i. repeat split; auto. destruct i as [n [|]|n s [|]]; try discriminate.
      + intros [H|(r & i & Hr & Hi & H)]; [exists []; auto|]. exists r. split; [exact Hr|]. apply Bool.andb_false_iff. right. apply forallb_false. exists i. split; [exact Hi|].
        destruct i as [n [|]|n s [|]]; cbn in *; congruence.
    - destruct b as [l|t]; [|split; [discriminate|tauto]]. split.
      + intros H t Ht. rewrite <- Bool.not_true_iff_false in H. apply H. apply existsb_exists. exists (BpSchema t). auto.
      + intros H. apply Bool.not_true_iff_false. intros He. apply existsb_exists in He. destruct He as (p & Hp & He). destruct p; try discriminate. eapply H; eauto.
  Qed.
  Definition is_some {A} (o : option A) : bool := match o with Some _ => true | None => false end.
  Lemma url_compiles_split url : url_compiles seg url = forallb (fun g => nonempty g && is_some (seg g)) (split_url url).
  Proof.
    unfold url_compiles. pose proof (munch_split url) as Hm.
    assert (Hg : forall gs, forallb (fun g => match group_text g with Some l => match seg l with Some _ => true | None => false end | None => false end) gs =
      match texts gs with Some ts => forallb (fun g => is_some (seg g)) ts | None => false end).
    { induction gs as [|g gs IH]; [reflexivity|]. cbn. rewrite IH. destruct (group_text g) as [t|]; [|reflexivity]. destruct (texts gs) as [ts|]; cbn.
      - unfold is_some. now destruct (seg t).
      - now destruct (seg t). }
    assert (Hand : forall ts : list (list tree), forallb (fun g => nonempty g && is_some (seg g)) ts = forallb nonempty ts && forallb (fun g => is_some (seg g)) ts).
    { induction ts as [|t ts IH]; [reflexivity|]. cbn. rewrite IH. destruct (nonempty t), (is_some (seg t)), (forallb nonempty ts); cbn; auto. }
    rewrite Hand. destruct (munch url []) as [gs|].
    - rewrite Hg, Hm. now destruct (forallb nonempty (split_url url)).
    - now destruct (forallb nonempty (split_url url)).
  Qed.
  Lemma url_false url : url_compiles seg url = false <-> exists g, In g (split_url url) /\ (g = [] \/ seg g = None).
  Proof.
    rewrite url_compiles_split, forallb_false. split; intros (g & Hg & H); exists g; (split; [exact Hg|]).
    - apply Bool.andb_false_iff in H. destruct H as [H|H]; [left; now destruct g|right]. now destruct (seg g).
    - apply Bool.andb_false_iff. destruct H as [-> |H]; [now left|right]. now rewrite H.
  Qed.
  Lemma once_false {X A} (sel : X -> option A) l :
    once (flat_map (fun x => match sel x with Some a => [a] | None => [] end) l) = None <-> twice sel l.
  Proof.
    set (fm := fun x => match sel x with Some a => [a] | None => [] end).
    assert (H0 : forall l, flat_map fm l <> [] <-> exists l1 y l2, l = l1 ++ y :: l2 /\ sel y <> None).
    { induction l0 as [|x l0 IH].
      - cbn. split; [congruence|]. intros (l1 & y & l2 & H & _). destruct l1; discriminate.
      - cbn. unfold fm at 1. destruct (sel x) as [a|] eqn:Ex.
        + split; [|discriminate]. intros _. exists [], x, l0. split; [reflexivity|congruence].
        + cbn. rewrite IH. split; intros (l1 & y & l2 & H & Hy).
          * exists (x :: l1), y, l2. subst. auto.
          * destruct l1 as [|z l1]; [injection H as <- <-; congruence|]. injection H as <- ->. exists l1, y, l2. auto. }
    induction l as [|x l IH].
    - cbn. split; [discriminate|]. intros (l1 & y & l2 & z & l3 & H & _). destruct l1; discriminate.
    - cbn [flat_map]. unfold fm at 1. destruct (sel x) as [a|] eqn:Ex.
      + cbn [app once]. specialize (H0 l). destruct (flat_map fm l) as [|b bs] eqn:Ef.
        * split; [discriminate|]. intros (l1 & y & l2 & z & l3 & H & Hy & Hz). exfalso. destruct H0 as [_ H0]. apply H0; [|reflexivity].
          destruct l1 as [|w l1]; injection H as <- ->; [exists l2, z, l3; auto|]. exists (l1 ++ y :: l2), z, l3. rewrite <- app_assoc. auto.
        * split; [|reflexivity]. intros _. destruct H0 as [H0 _]. destruct (H0 ltac:(discriminate)) as (l1 & y & l2 & -> & Hy).
          exists [], x, l1, y, l2. repeat split; auto; congruence.
      + cbn [app]. rewrite IH. split; intros (l1 & y & l2 & z & l3 & H & Hy & Hz).
        * exists (x :: l1), y, l2, z, l3. subst. auto.
        * destruct l1 as [|w l1]; [injection H as Hx1 _; congruence|]. injection H as <- ->. exists l1, y, l2, z, l3. auto.
  Qed.
  Lemma info_false l : (match exec_info l with Done _ => true | _ => false end) = false <-> twice ip_title l \/ twice ip_version l \/ twice ip_description l.
  Proof.
    rewrite <- !once_false. unfold exec_info.
    assert (Ht : forall l, flat_map (fun x => match ip_title x with Some a => [a] | None => [] end) l = flat_map (fun p => match p with IpTitle s => [s] | _ => [] end) l)
      by (intros l0; apply flat_map_ext; now intros []).
    assert (Hv : forall l, flat_map (fun x => match ip_version x with Some a => [a] | None => [] end) l = flat_map (fun p => match p with IpVersion s => [s] | _ => [] end) l)
      by (intros l0; apply flat_map_ext; now intros []).
    assert (Hd : forall l, flat_map (fun x => match ip_description x with Some a => [a] | None => [] end) l = flat_map (fun p => match p with IpDescription s => [s] | _ => [] end) l)
      by (intros l0; apply flat_map_ext; now intros []).
    rewrite Ht, Hv, Hd.
    destruct (once (flat_map (fun p => match p with IpTitle s => [s] | _ => [] end) l)) as [t|]; [|tauto].
    destruct (once (flat_map (fun p => match p with IpVersion s => [s] | _ => [] end) l)) as [v|]; [|tauto].
    destruct (once (flat_map (fun p => match p with IpDescription s => [s] | _ => [] end) l)) as [x|]; [|tauto].
    split; [discriminate|]. now intros [H|[H|H]].
  Qed.
  Lemma scheme_false x : (match scheme_of x with Done _ => true | _ => false end) = false <-> incomplete x.
  Proof.
    rewrite scheme_of_declared. destruct x as [n l|n l]; cbn [scheme_declared incomplete].
    - destruct (last_of (fun p => match p with HpScheme k => Some k | _ => None end) l) as [k'|] eqn:El.
      + apply last_of_In in El. destruct El as (p & Hp & Hs). destruct p; try discriminate. injection Hs as ->. split.
        * destruct k'; discriminate.
        * intros H. exfalso. eapply H; eauto.
      + rewrite last_of_None in El. split; [|reflexivity]. intros _ k Hk. now specialize (El _ Hk).
    - destruct (last_of (fun p => match p with KpName k => Some k | _ => None end) l) as [k'|] eqn:El.
      + apply last_of_In in El. destruct El as (p & Hp & Hs). destruct p; try discriminate. injection Hs as ->. split; [discriminate|].
        intros H. exfalso. eapply H; eauto.
      + rewrite last_of_None in El. split; [|reflexivity]. intros _ k Hk. now specialize (El _ Hk).
  Qed.
  Lemma own_false a d : declares_path a d -> own_compiles d = false -> breaks_rule seg a.
  Proof.
    intros Hd H. unfold own_compiles, path_compiles in H. apply Bool.andb_false_iff in H. destruct H as [H|H].
    - apply url_false in H. destruct H as (g & Hg & H). eapply br_url; eassumption.
    - apply forallb_false in H. destruct H as (q & Hq & H). destruct q as [s|s|l|m l]; try discriminate. cbn in H. apply forallb_false in H. destruct H as (p & Hp & H).
      assert (Ho : declares_operation a l) by (exists d, m; auto). apply own_op_false in H. destruct p as [| | | | |ps|cs tr|reqs|b|]; try (now destruct H).
      + destruct H as (l1 & n & ps & l2 & -> & H). eapply br_callback; eassumption.
      + destruct H as [H|(r & i & H1 & H2 & H3)]; [eapply br_requirement; eassumption|eapply br_roles; eassumption].
      + destruct b; [|destruct H]. eapply br_body; eassumption.
  Qed.
  Lemma declares_path_false a d : declares_path a d -> own_compiles d = false -> forallb (section_compiles seg) a = false.
  Proof.
    intros (ds & Hw & Hd) H. assert (Hp : path_compiles seg (callback_compiles seg) d = false) by (apply path_compiles_false; now left).
    destruct (declared_compiles _ _ _ Hw Hd Hp) as (d0 & H0 & H1). apply in_flat_map in H0. destruct H0 as (s & Hs & H0). apply forallb_false. exists s.
    split; [exact Hs|]. destruct s; try (now destruct H0). cbn. apply forallb_false. eauto.
  Qed.
  Lemma declares_operation_false a l p : declares_operation a l -> In p l -> own_op_compiles p = false -> forallb (section_compiles seg) a = false.
  Proof.
    intros (d & m & Hd & Hm) Hp H. eapply declares_path_false; [exact Hd|]. unfold own_compiles, path_compiles. apply Bool.andb_false_iff. right.
    apply forallb_false. eexists. split; [exact Hm|]. cbn. apply forallb_false. eauto.
  Qed.
  Lemma compiles_false a : forallb (section_compiles seg) a = false <-> breaks_rule seg a.
  Proof.
    split.
    - intros H. apply forallb_false in H. destruct H as (s & Hs & H). destruct s as [l|l|l|l|l]; try discriminate; cbn [section_compiles] in H.
      + apply info_false in H. eapply br_info; eassumption.
      + apply forallb_false in H. destruct H as (x & Hx & H). apply scheme_false in H. eapply br_scheme; eassumption.
      + apply forallb_false in H. destruct H as (d & Hd & H). assert (Hin : In d (api_paths a)) by (apply in_flat_map; exists (ScPaths l); auto).
        apply path_compiles_false in H. destruct H as [H|(m & ops & cs & t & c & H1 & H2 & H3 & H4)].
        * eapply own_false; [|exact H]. exists (api_paths a). split; [constructor|exact Hin].
        * apply callback_compiles_false in H4. destruct H4 as (n & ds & ds' & d' & -> & Hw & Hd' & H4). eapply own_false; [|exact H4]. exists ds'. split; [|exact Hd'].
          eapply within_first; eassumption.
    - intros [l Hl H|ds x H1 H2 H3|pd g H1 H2 H3|ops l H1 H2 H3|ops reqs H1 H2 H3|ops reqs r i H1 H2 H3 H4 H5|ops l1 n ps l2 tr H1 H2 H3].
      + apply forallb_false. eexists. split; [exact Hl|]. cbn. now apply info_false.
      + apply forallb_false. eexists. split; [exact H1|]. cbn. apply forallb_false. exists x. split; [exact H2|]. now apply scheme_false.
      + eapply declares_path_false; [exact H1|]. unfold own_compiles, path_compiles. apply Bool.andb_false_iff. left. apply url_false. eauto.
      + eapply declares_operation_false; [exact H1|exact H2|]. now apply own_op_false.
      + eapply declares_operation_false; [exact H1|exact H2|]. apply own_op_false. now left.
      + eapply declares_operation_false; [exact H1|exact H2|]. apply own_op_false. right. eauto 6.
      + eapply declares_operation_false; [exact H1|exact H2|]. apply own_op_false. eauto 8.
  Qed.
End Where.
