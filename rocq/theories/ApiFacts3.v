(** Facts about the documents given by describe_api!. *)
From Verif Require Import ApiSpec ApiFacts ApiFacts2 SchemaFacts GenFacts GenFacts2 GenFacts3 GenFacts4 GenFacts5 SerFacts SerFacts2 SerFacts3 SerFacts4.
Local Open Scope string_scope. Local Open Scope list_scope.
Local Opaque bm_insert.

(** ** Lists of declarations *)
Lemma declare_In {K V} `{Ord K} (l : list (K * V)) k v : In (k, v) (declare l) -> In (k, v) l.
Proof.
  intros Hi. apply bm_sorted_In_get in Hi; [|apply declare_sorted]. rewrite declare_get in Hi. now apply last_declared_In.
Qed.
Lemma last_of_app {X A} (sel : X -> option A) l1 l2 : last_of sel (l1 ++ l2) = match last_of sel l2 with Some a => Some a | None => last_of sel l1 end.
Proof. induction l1 as [|x l1 IH]; cbn; [now destruct (last_of sel l2)|]. rewrite IH. now destruct (last_of sel l2). Qed.
Lemma last_of_In {X A} (sel : X -> option A) l a : last_of sel l = Some a -> exists x, In x l /\ sel x = Some a.
Proof.
  induction l as [|x l IH]; [discriminate|]. cbn. destruct (last_of sel l) as [b|].
  - intros [= ->]. destruct (IH eq_refl) as (y & H1 & H2). eauto.
  - intros H. eauto.
Qed.
Lemma last_of_None {X A} (sel : X -> option A) l : last_of sel l = None <-> forall x, In x l -> sel x = None.
Proof.
  induction l as [|x l IH]; cbn; [split; [intros _ ? []|auto]|]. destruct (last_of sel l) as [b|].
  - split; [discriminate|]. intros H. destruct IH as [_ IH]. assert (Hb : Some b = None) by (apply IH; intros y Hy; apply H; now right). discriminate.
  - split.
    + intros Hx y [<-|Hy]; [exact Hx|]. now apply IH.
    + intros H. apply H. now left.
Qed.
Lemma last_with_In {X K} `{Ord K} (key : X -> K) k l x : last_with key k l = Some x -> In x l /\ key x = k.
Proof.
  intros Hl. apply last_of_In in Hl. destruct Hl as (y & Hy & Hs). destruct (kcmp k (key y)) eqn:Ec; try discriminate.
  injection Hs as ->. apply kcmp_eq in Ec. auto.
Qed.
Lemma last_with_None {X K} `{Ord K} (key : X -> K) k l : last_with key k l = None <-> forall x, In x l -> key x <> k.
Proof.
  unfold last_with. rewrite last_of_None. split; intros Hn x Hx.
  - intros <-. specialize (Hn x Hx). now rewrite (proj2 (kcmp_eq (key x) (key x)) eq_refl) in Hn.
  - specialize (Hn x Hx). destruct (kcmp k (key x)) eqn:Ec; auto. apply kcmp_eq in Ec. congruence.
Qed.
Lemma Forall2_snoc {A B} (P : A -> B -> Prop) l m x : Forall2 P (l ++ [x]) m -> exists m' y, m = m' ++ [y] /\ Forall2 P l m' /\ P x y.
Proof.
  intros Hf. apply Forall2_app_inv_l in Hf. destruct Hf as (m1 & m2 & H1 & H2 & ->). inversion H2; subst. inversion H5; subst. eauto.
Qed.
Lemma declare_last {X K V} `{Ord K} (key : X -> K) (P : X -> K * V -> Prop) ds es k :
  Forall2 P ds es -> (forall d e, In d ds -> P d e -> fst e = key d) ->
  match last_with key k ds with
  | None => bm_get k (declare es) = None
  | Some d => exists v, bm_get k (declare es) = Some v /\ P d (k, v)
  end.
Proof.
  revert es. induction ds as [|d ds IH] using rev_ind; intros es Hf Hk.
  - inversion Hf; subst. reflexivity.
  - apply Forall2_snoc in Hf. destruct Hf as (es' & e & -> & Hf & He). rewrite declare_app.
    unfold last_with. rewrite last_of_app. cbn [last_of]. assert (Hkey : fst e = key d) by (apply Hk; [apply in_or_app; right; now left|exact He]).
    destruct (kcmp k (key d)) eqn:Ec.
    + apply kcmp_eq in Ec. subst k. exists (snd e). rewrite <- Hkey at 1. rewrite bm_get_insert_eq. split; [reflexivity|]. now rewrite <- Hkey; destruct e.
    + rewrite bm_get_insert_neq by (intros ->; rewrite Hkey, (proj2 (kcmp_eq (key d) (key d)) eq_refl) in Ec; discriminate).
      apply IH; [exact Hf|]. intros d0 e0 Hd. apply Hk. apply in_or_app. now left.
    + rewrite bm_get_insert_neq by (intros ->; rewrite Hkey, (proj2 (kcmp_eq (key d) (key d)) eq_refl) in Ec; discriminate).
      apply IH; [exact Hf|]. intros d0 e0 Hd. apply Hk. apply in_or_app. now left.
Qed.
Lemma declare_entry {X K V} `{Ord K} (P : X -> K * V -> Prop) ds es k v :
  Forall2 P ds es -> In (k, v) (declare es) -> exists d, In d ds /\ P d (k, v).
Proof.
  intros Hf Hi. apply declare_In in Hi. induction Hf as [|d e ds es Hd Hf IH]; [destruct Hi|].
  destruct Hi as [->|Hi]; [exists d; split; [now left|exact Hd]|]. destruct (IH Hi) as (d' & H1 & H2). exists d'. split; [now right|exact H2].
Qed.
Lemma Forall2_In_r {A B} (P : A -> B -> Prop) l m y : Forall2 P l m -> In y m -> exists x, In x l /\ P x y.
Proof.
  induction 1 as [|a b l m Hp Hf IH]; intros Hy; [destruct Hy|]. destruct Hy as [<-|Hy]; [exists a; split; [now left|exact Hp]|].
  destruct (IH Hy) as (x & H1 & H2). exists x. split; [now right|exact H2].
Qed.
Lemma Forall2_In_l {A B} (P : A -> B -> Prop) l m x : Forall2 P l m -> In x l -> exists y, In y m /\ P x y.
Proof.
  induction 1 as [|a b l m Hp Hf IH]; intros Hx; [destruct Hx|]. destruct Hx as [<-|Hx]; [exists b; split; [now left|exact Hp]|].
  destruct (IH Hx) as (y & H1 & H2). exists y. split; [now right|exact H2].
Qed.

Section Docs.
  Variable E : env.
  Variable reason : N -> option str.
  Variable seg : list tree -> option segment.
  Notation cbm := (callback_means E reason seg).
  Notation pm := (path_means E reason seg cbm).

  Lemma path_means_operation d e m o : pm d e -> In (m, o) (pv_operations (snd e)) ->
    exists l, In (PvMethod m l) (pd_props d) /\ op_means E reason cbm l o.
  Proof.
    intros (_ & _ & _ & (os & Ho & Eo)) Hi. rewrite Eo in Hi.
    eapply declare_entry in Hi; [|exact Ho]. destruct Hi as ([m' l] & Hm & [Hk Hop]). cbn in Hk, Hop. subst m'.
    apply in_flat_map in Hm. destruct Hm as (q & Hq & Hq'). destruct q as [s|s|l0|m0 l0]; try (now destruct Hq').
    destruct Hq' as [[= -> ->]|[]]. exists l. split; assumption.
  Qed.
  Lemma op_means_callback l o k c : op_means E reason cbm l o -> In (k, c) (op_callbacks o) ->
    exists cs t d, In (OpCallbacks cs t) l /\ In d cs /\ cd_name d = k /\ cbm d c.
  Proof.
    intros (_ & _ & _ & _ & _ & _ & _ & _ & _ & (cs & Hc & Ec)) Hi. rewrite Ec in Hi.
    eapply declare_entry in Hi; [|exact Hc]. destruct Hi as (d & Hd & [Hk Hm]). cbn in Hk, Hm.
    apply in_flat_map in Hd. destruct Hd as (q & Hq & Hq'). destruct q; try (now destruct Hq').
    do 3 eexists. split; [exact Hq|]. split; [exact Hq'|]. split; [now symmetry|exact Hm].
  Qed.
  Lemma within_declared ds0 l0 l : Forall2 pm ds0 l0 -> within l0 l ->
    l = [] \/ exists ds, declared_within ds0 ds /\ Forall2 pm ds l.
  Proof.
    intros Hf Hw. induction Hw as [|l p v m o k c Hw IH Hp Ho Hc].
    - right. exists ds0. split; [constructor|exact Hf].
    - destruct IH as [->|(ds & Hd & Hf')]; [destruct Hp|].
      destruct (Forall2_In_r _ _ _ _ Hf' Hp) as (d & Hdi & Hdm).
      destruct (path_means_operation _ _ _ _ Hdm Ho) as (ops & Hops & Hom).
      destruct (op_means_callback _ _ _ _ Hom Hc) as (cs & t & cd & H1 & H2 & H3 & H4).
      inversion H4; subst; [now left|]. right. eexists. split; [eapply dw_callback; eassumption|]. assumption.
  Qed.
  Lemma api_paths_means a d : api_means E reason seg a d -> Forall2 pm (api_paths a) (og_paths d).
  Proof. now intros (_ & _ & _ & H). Qed.
  Lemma has_path_declared a d p v : api_means E reason seg a d -> has_path (og_paths d) p v ->
    exists pd, declares_path a pd /\ pm pd (p, v).
  Proof.
    intros Ha (l & Hw & Hi). destruct (within_declared _ _ _ (api_paths_means _ _ Ha) Hw) as [->|(ds & Hd & Hf)]; [destruct Hi|].
    destruct (Forall2_In_r _ _ _ _ Hf Hi) as (pd & H1 & H2). exists pd. split; [exists ds; now split|exact H2].
  Qed.
  Lemma has_operation_declared a d o : api_means E reason seg a d -> has_operation (og_paths d) o ->
    exists l, declares_operation a l /\ op_means E reason cbm l o.
  Proof.
    intros Ha (p & v & m & Hp & Ho). destruct (has_path_declared _ _ _ _ Ha Hp) as (pd & H1 & H2).
    destruct (path_means_operation _ _ _ _ H2 Ho) as (l & H3 & H4). exists l. split; [exists pd, m; now split|exact H4].
  Qed.
  Lemma describes_means a d : describes E reason seg a d -> api_means E reason seg a d.
  Proof. intros [f H]. eapply describe_api_means; exact H. Qed.

  (** ** Path parameters *)
  Lemma path_parameter_entry pd p v n : pm pd (p, v) -> In (PeParameter n) p ->
    exists a, In (n, a) (pv_parameters v) /\
      ((pr_in a = InPath /\ pr_required a = true) \/
       (pr_in a <> InPath /\ exists l q, In (PvParameters l) (pd_props pd) /\ In q l /\ pd_name q = n)).
  Proof.
    intros ((segs & up & ps & H1 & H2 & H3 & H4 & H5) & _) Hn. cbn [fst snd] in *.
    destruct (Forall2_In_r _ _ _ _ H2 Hn) as (s & Hs & Hsm).
    assert (Hup : exists a, In (n, a) up).
    { assert (Hsf : In s (filter is_param segs)) by (apply filter_In; split; [exact Hs|destruct s; cbn in Hsm; [discriminate| |]; reflexivity]).
      destruct (Forall2_In_l _ _ _ _ H3 Hsf) as ([n' a] & Ha & Hp). exists a.
      replace n with n'; [exact Ha|]. destruct Hp as (_ & _ & _ & _ & r & _ & Hp). destruct s as [l|text t|nm t]; cbn in Hsm.
      - destruct Hp.
      - destruct Hsm as (n0 & Hn0 & [= ->]). destruct Hp as [Hp _]. apply type_parameter_name in Hn0, Hp. congruence.
      - destruct Hp as [-> _]. congruence. }
    destruct Hup as (a0 & Ha0).
    destruct (bm_get n (declare (up ++ ps))) as [a|] eqn:Eg.
    - exists a. rewrite H5. split; [now apply bm_get_In|]. apply bm_get_In, declare_In in Eg. apply in_app_or in Eg. destruct Eg as [Hu|Hp].
      + left. destruct (Forall2_In_r _ _ _ _ H3 Hu) as (s' & _ & Hm). destruct Hm as (Hm1 & Hm2 & _). now split.
      + right. destruct (Forall2_In_r _ _ _ _ H4 Hp) as (q & Hq & Hm). destruct Hm as (Hm1 & Hm2 & _). split.
        * rewrite Hm2. destruct q; discriminate.
        * apply in_flat_map in Hq. destruct Hq as (pr & Hpr & Hq). destruct pr as [?|?|l|? ?]; try (now destruct Hq). exists l, q. auto.
    - exfalso. rewrite declare_get in Eg. assert (Hin : In (n, a0) (up ++ ps)) by (apply in_or_app; now left).
      pose proof (declare_last (X := str * op_parameter) fst (fun d e => d = e) (up ++ ps) (up ++ ps) n) as Hl.
      assert (Hrefl : Forall2 (fun d e => d = e) (up ++ ps) (up ++ ps)) by (clear; induction (up ++ ps); constructor; auto).
      specialize (Hl Hrefl (fun d e _ H => f_equal fst (eq_sym H))).
      destruct (last_with fst n (up ++ ps)) as [x|] eqn:El.
      + destruct Hl as (w & Hw & _). rewrite declare_get in Hw. congruence.
      + rewrite last_with_None in El. now apply (El _ Hin).
  Qed.
  Lemma path_entry_in_template pd p v n a : pm pd (p, v) -> In (n, a) (pv_parameters v) -> pr_in a = InPath -> In (PeParameter n) p /\ pr_required a = true.
  Proof.
    intros ((segs & up & ps & H1 & H2 & H3 & H4 & H5) & _) Hi Hin. cbn [fst snd] in *. rewrite H5 in Hi. apply declare_In in Hi.
    apply in_app_or in Hi. destruct Hi as [Hu|Hp].
    - destruct (Forall2_In_r _ _ _ _ H3 Hu) as (s & Hs & Hm). apply filter_In in Hs. destruct Hs as [Hs _].
      destruct (Forall2_In_l _ _ _ _ H2 Hs) as (e & He & Hsm). destruct Hm as (_ & Hr & _ & _ & r & _ & Hm). split; [|exact Hr].
      destruct s as [l|text t|nm t]; cbn in Hsm.
      + destruct Hm.
      + destruct Hsm as (n0 & Hn0 & ->). destruct Hm as [Hm _]. apply type_parameter_name in Hn0, Hm. congruence.
      + destruct Hm as [-> _]. now subst e.
    - destruct (Forall2_In_r _ _ _ _ H4 Hp) as (q & _ & Hm). destruct Hm as (_ & Hm & _). destruct q; congruence.
  Qed.

  (** ** References *)
  Lemma param_means_ref d e r : param_means E d e -> pr_schema (snd e) = Some r -> exists t, refers E t r /\ In (EvType t) (ev_param d).
  Proof.
    destruct e as [n a]. intros (_ & _ & _ & _ & _ & r0 & Hr & Hm) Hs. cbn in Hs. rewrite Hr in Hs. injection Hs as ->.
    eexists. split; [exact Hm|].
    assert (Hl : forall l t0, In (EvType (last_or (fun p => match p with PpSchema t => Some t | _ => None end) l t0)) (EvType t0 :: ev_param_props l)).
    { intros l t0. unfold last_or. destruct (last_of _ l) as [t|] eqn:El; [|now left]. right. apply last_of_In in El. destruct El as (p & Hp & Hs).
      apply in_flat_map. exists p. split; [exact Hp|]. destruct p; try discriminate. injection Hs as ->. now left. }
    destruct d; apply Hl.
  Qed.
  Lemma body_means_ref b x : body_means E b x -> exists t, refers E t (rb_schema x) /\ In (EvType t) (ev_body b).
  Proof.
    destruct b as [l|t].
    - intros (_ & _ & t & Ht & Hr). exists t. split; [exact Hr|]. apply last_of_In in Ht. destruct Ht as (p & Hp & Hs).
      apply in_flat_map. exists p. split; [exact Hp|]. destruct p; try discriminate. injection Hs as ->. now left.
    - intros (_ & _ & Hr). exists t. split; [exact Hr|now left].
  Qed.
  Lemma response_means_ref c desc s e r : response_means E reason (c, desc, s) e -> rs_schema (snd e) = Some r ->
    s = RsRaw (Some r) \/ exists t, refers E t r /\ In (EvType t) (ev_response s).
  Proof.
    intros (_ & _ & Hm) Hr. destruct s.
    - congruence.
    - destruct Hm as (r0 & H1 & H2). right. exists (TPrim PUnit). replace r with r0 by congruence. split; [exact H2|now left].
    - destruct Hm as (r0 & H1 & H2). right. exists t. replace r with r0 by congruence. split; [exact H2|now left].
    - left. congruence.
  Qed.
  Lemma op_means_ref l o r : op_means E reason cbm l o -> operation_ref r o ->
    (exists c desc, In (OpResponse c desc (RsRaw (Some r))) l) \/ exists t p, refers E t r /\ In p l /\ In (EvType t) (ev_op_prop (ev_callback seg) p).
  Proof.
    intros (_ & _ & _ & _ & _ & _ & Hb & (rs & Hrs & Ers) & (ps & Hps & Eps) & _) Hr. destruct Hr as [k a Hi Hs|b Hob Hs|c s Hi Hs].
    - rewrite Eps in Hi. eapply declare_entry in Hi; [|exact Hps]. destruct Hi as (d & Hd & Hm).
      destruct (param_means_ref _ _ _ Hm Hs) as (t & Ht & Hev). right. apply in_flat_map in Hd. destruct Hd as (p & Hp & Hd). exists t, p.
      repeat split; auto. destruct p; try (now destruct Hd). cbn. apply in_flat_map. eauto.
    - right. destruct (last_of _ l) as [bd|] eqn:El.
      + destruct Hb as (x & Hx & Hm). assert (x = b) by congruence. subst x. destruct (body_means_ref _ _ Hm) as (t & Ht & Hev).
        apply last_of_In in El. destruct El as (p & Hp & Hsel). exists t, p. rewrite <- Hs. repeat split; auto. destruct p; try discriminate. injection Hsel as ->. exact Hev.
      + congruence.
    - rewrite Ers in Hi. eapply declare_entry in Hi; [|exact Hrs]. destruct Hi as ([[c' desc] s'] & Hd & Hm).
      apply in_flat_map in Hd. destruct Hd as (p & Hp & Hd). destruct p; try (now destruct Hd). destruct Hd as [[= -> -> ->]|[]].
      destruct (response_means_ref _ _ _ _ _ Hm Hs) as [->|(t & Ht & Hev)]; [left; eauto|]. right. eexists t, _. repeat split; [exact Ht|exact Hp|exact Hev].
  Qed.
  Lemma path_means_ref pd p v r : pm pd (p, v) -> path_ref r v -> exists t, refers E t r /\
    (In (EvType t) (ev_url seg (pd_url pd)) \/ exists q, In q (pd_props pd) /\ In (EvType t) (ev_path_prop (ev_callback seg) q)).
  Proof.
    intros ((segs & up & ps & H1 & H2 & H3 & H4 & H5) & _) [k a Hi Hs]. cbn [fst snd] in *. rewrite H5 in Hi. apply declare_In in Hi.
    apply in_app_or in Hi. destruct Hi as [Hu|Hp].
    - destruct (Forall2_In_r _ _ _ _ H3 Hu) as (s & Hsg & Hm). apply filter_In in Hsg. destruct Hsg as [Hsg _].
      destruct (Forall2_In_r _ _ _ _ H1 Hsg) as (g & Hg & _ & Hseg). destruct Hm as (_ & _ & _ & _ & r0 & Hr0 & Hm).
      assert (r0 = r) by congruence. subst r0.
      destruct s as [l|text t|nm t]; [destruct Hm| |].
      + destruct Hm as [Hm Ht]. exists t. split; [exact Ht|]. left. apply in_flat_map. exists g. split; [exact Hg|]. rewrite Hseg. cbn.
        apply type_parameter_name in Hm. rewrite Hm. now left.
      + destruct Hm as [Hm Ht]. exists t. split; [exact Ht|]. left. apply in_flat_map. exists g. split; [exact Hg|]. rewrite Hseg. now left.
    - destruct (Forall2_In_r _ _ _ _ H4 Hp) as (q & Hq & Hm). destruct (param_means_ref _ _ _ Hm Hs) as (t & Ht & Hev). exists t. split; [exact Ht|].
      right. apply in_flat_map in Hq. destruct Hq as (pr & Hpr & Hq). exists pr. split; [exact Hpr|]. destruct pr; try (now destruct Hq). cbn.
      apply in_flat_map. eauto.
  Qed.

  Lemma declared_events ds0 ds e : declared_within ds0 ds -> In e (flat_map (ev_path seg (ev_callback seg)) ds) -> In e (flat_map (ev_path seg (ev_callback seg)) ds0).
  Proof.
    intros Hd He. induction Hd as [|ds d m l cs t n ds' Hd IH H1 H2 H3 H4]; [exact He|]. apply IH. apply in_flat_map. exists d. split; [exact H1|].
    unfold ev_path. apply in_or_app. right. apply in_flat_map. exists (PvMethod m l). split; [exact H2|]. cbn. apply in_flat_map.
    exists (OpCallbacks cs t). split; [exact H3|]. cbn. apply in_flat_map. exists (CbIdent n ds'). split; [exact H4|]. exact He.
  Qed.
  Lemma declares_path_events a pd e : declares_path a pd -> In e (ev_path seg (ev_callback seg) pd) -> In e (ev_api seg a).
  Proof.
    intros (ds & Hd & Hi) He. assert (H : In e (flat_map (ev_path seg (ev_callback seg)) (api_paths a))).
    { eapply declared_events; [exact Hd|]. apply in_flat_map. eauto. }
    apply in_flat_map in H. destruct H as (x & Hx & He'). apply in_flat_map in Hx. destruct Hx as (s & Hs & Hx). unfold ev_api. apply in_flat_map.
    exists s. split; [exact Hs|]. destruct s; try (now destruct Hx). cbn. apply in_flat_map. eauto.
  Qed.
  Lemma declares_operation_events a l p e : declares_operation a l -> In p l -> In e (ev_op_prop (ev_callback seg) p) -> In e (ev_api seg a).
  Proof.
    intros (pd & m & Hp & Hm) Hi He. eapply declares_path_events; [exact Hp|]. apply in_or_app. right. apply in_flat_map.
    exists (PvMethod m l). split; [exact Hm|]. cbn. apply in_flat_map. eauto.
  Qed.
  Lemma paths_ref_source a d r : api_means E reason seg a d -> paths_ref r (og_paths d) ->
    raw_response a r \/ exists t, refers E t r /\ In (EvType t) (ev_api seg a).
  Proof.
    intros Ha [(p & v & Hp & Hr)|(o & Ho & Hr)].
    - right. destruct (has_path_declared _ _ _ _ Ha Hp) as (pd & H1 & H2). destruct (path_means_ref _ _ _ _ H2 Hr) as (t & Ht & Hev).
      exists t. split; [exact Ht|]. eapply declares_path_events; [exact H1|]. apply in_or_app. destruct Hev as [Hev|(q & Hq & Hev)]; [now left|].
      right. apply in_flat_map. eauto.
    - destruct (has_operation_declared _ _ _ Ha Ho) as (l & H1 & H2). destruct (op_means_ref _ _ _ H2 Hr) as [(c & desc & Hc)|(t & q & Ht & Hq & Hev)].
      + left. exists l, c, desc. now split.
      + right. exists t. split; [exact Ht|]. eapply declares_operation_events; eauto.
  Qed.

  (** ** Components *)
  Lemma describes_events a d : describes E reason seg a d -> forallb (section_compiles seg) a = true /\
    exists fuel, run_events E fuel (ev_api seg a) cx_new = Done (og_components d).
  Proof.
    intros [f H]. assert (Hc : forallb (section_compiles seg) a = true).
    { destruct (forallb (section_compiles seg) a) eqn:Ec; [reflexivity|]. apply (rejected_iff E f reason) in Ec. congruence. }
    split; [exact Hc|]. exists f. rewrite <- (describe_api_components E f reason) by exact Hc. now rewrite H.
  Qed.
  Lemma describes_components a d : describes E reason seg a d -> exists cx,
    mentions_return E (map default_call (types_of (ev_api seg a))) cx_new cx /\ cx_schemas (og_components d) = cx_schemas cx /\
    cx_security (og_components d) = schemes_after (ev_api seg a).
  Proof.
    intros H. destruct (describes_events _ _ H) as (_ & f & Hr). apply run_events_split with (sec := []) in Hr. destruct Hr as (H1 & H2 & _).
    exists (framed [] (og_components d)). split; [exists f; exact H1|]. split; [reflexivity|]. exact H2.
  Qed.
  Lemma describes_no_panic a d : describes E reason seg a d -> ~ In EvPanic (ev_api seg a).
  Proof.
    intros H. destruct (describes_events _ _ H) as (_ & f & Hr). apply run_events_split with (sec := []) in Hr. now destruct Hr as (_ & _ & Hp).
  Qed.
  Lemma describes_returns a cx : forallb (section_compiles seg) a = true -> ~ In EvPanic (ev_api seg a) ->
    mentions_return E (map default_call (types_of (ev_api seg a))) cx_new cx -> exists d, describes E reason seg a d.
  Proof.
    intros Hc Hp [f Hm]. destruct (events_return E _ f _ _ Hp Hm []) as (cx' & Hr & _). change (framed [] cx_new) with cx_new in Hr.
    pose proof (describe_api_components E f reason seg a Hc) as Hd. rewrite Hr in Hd.
    destruct (describe_api E f reason seg a) as [d| | |] eqn:Ed; try discriminate. exists d, f. exact Ed.
  Qed.
  Lemma mention_all_In f l : forall cx cx' c, mention_all E f l cx = Ok cx' -> In c l ->
    exists cx1 r cx2, mention E f (mc_ty c) (mc_inline c) (mc_params c) cx1 = Ok (r, cx2) /\ extends cx2 cx' /\
      (links_closed (cx_schemas cx) -> links_closed (cx_schemas cx1)).
  Proof.
    induction l as [|c0 l IH]; intros cx cx' c H Hi; [destruct Hi|]. cbn in H.
    destruct (mention E f (mc_ty c0) (mc_inline c0) (mc_params c0) cx) as [[r cx1]|] eqn:Em; [|discriminate]. cbn in H. destruct Hi as [<-|Hi].
    - exists cx, r, cx1. repeat split; auto; (apply mention_all_grows in H; destruct H as [[H1 H2] _]; auto).
    - destruct (IH _ _ _ H Hi) as (cx2 & r2 & cx3 & H1 & H2 & H3). exists cx2, r2, cx3. split; [exact H1|]. split; [exact H2|].
      intros Hc. apply H3. unfold mention in Em. eapply mention_closed; eauto.
  Qed.
  Lemma refers_registered calls cx t r l : mentions_return E calls cx_new cx -> In (default_call t) calls -> refers E t r -> occurs l r -> registered cx l.
  Proof.
    intros [f Hm] Hi (cxa & cxb & Hr) Ho. destruct (mention_all_In f _ _ _ _ Hm Hi) as (cx1 & r1 & cx2 & H1 & H2 & H3).
    cbn in H1. assert (Hr1 : mention_returns E t false params_default cx1 r1 cx2) by now exists f.
    rewrite (mention_returns_ctx_free _ _ _ _ _ _ _ _ _ _ Hr Hr1) in Ho.
    eapply extends_registered; [exact H2|]. eapply mention_no_dangling; [|exact Hr1|exact Ho]. apply H3, closed_new.
  Qed.
  Lemma In_types t l : In (EvType t) l -> In (default_call t) (map default_call (types_of l)).
  Proof. intros H. apply in_map. apply in_flat_map. exists (EvType t). split; [exact H|now left]. Qed.

  Lemma doc_links_resolve a d l : describes E reason seg a d -> doc_link l d ->
    registered (og_components d) l \/ exists r, raw_response a r /\ occurs l r.
  Proof.
    intros H Hl. destruct (describes_components _ _ H) as (cx & Hm & Hs & _). unfold registered. rewrite Hs.
    destruct Hl as [(r & Hr & Ho)|(k & m & Hk & Ho)].
    - destruct (paths_ref_source _ _ _ (describes_means _ _ H) Hr) as [Hraw|(t & Ht & Hev)]; [right; eauto|]. left.
      eapply refers_registered; [exact Hm|apply In_types; exact Hev|exact Ht|exact Ho].
    - left. rewrite Hs in Hk. pose proof (history_no_dangling _ _ _ Hm) as Hc. apply (Hc k m l); [|exact Ho].
      apply bm_sorted_In_get; [|exact Hk]. destruct Hm as [f Hm]. eapply mention_all_wf in Hm; [|apply wf_new]. exact (proj1 Hm).
  Qed.

  (** ** Bodies *)
  Lemma described_bodies a d : describes E reason seg a d -> bodies_described (og_paths d).
  Proof.
    intros H o b Ho Hb. destruct (has_operation_declared _ _ _ (describes_means _ _ H) Ho) as (l & _ & (_ & _ & _ & _ & _ & _ & Hm & _)).
    destruct (last_of _ l) as [bd|]; [|congruence]. destruct Hm as (x & Hx & Hm). assert (x = b) by congruence. subst x.
    destruct bd as [pl|t]; destruct Hm as (-> & _); discriminate.
  Qed.

  (** ** Maps *)
  Lemma declare_up_sorted {K V} `{Ord K} (m : bmap K V) l : m = declare l -> bm_sorted m.
  Proof. intros ->. apply declare_sorted. Qed.
  Lemma refers_wf t r : refers E t r -> wf_ref r.
  Proof. intros (cx & cx' & H). eapply mention_returns_wf; eauto. Qed.
  Lemma described_wf a d : describes E reason seg a d -> (forall r, raw_response a r -> wf_ref r) -> wf_opg d.
  Proof.
    intros H Hraw. pose proof (describes_means _ _ H) as Ha.
    assert (Href : forall r, paths_ref r (og_paths d) -> wf_ref r).
    { intros r Hr. destruct (paths_ref_source _ _ _ Ha Hr) as [Hr'|(t & Ht & _)]; [now apply Hraw|now apply refers_wf in Ht]. }
    split; [|split].
    - destruct Ha as (_ & Ht & _). eapply declare_up_sorted; exact Ht.
    - split.
      + intros p v Hp. destruct (has_path_declared _ _ _ _ Ha Hp) as (pd & _ & Hm). destruct Hm as ((segs & up & ps & _ & _ & _ & _ & Hpar) & _ & _ & (os & _ & Hos)).
        cbn in Hpar, Hos. split; [eapply declare_up_sorted; exact Hos|]. split; [eapply declare_up_sorted; exact Hpar|].
        intros r Hr. apply Href. left. eauto.
      + intros o Ho. destruct (has_operation_declared _ _ _ Ha Ho) as (l & _ & Hm).
        destruct Hm as (_ & _ & _ & _ & _ & Hsec & _ & (rs & _ & Hrs) & (ps & _ & Hps) & (cs & _ & Hcs)). repeat split.
        * intros s Hs. rewrite Hsec in Hs. apply in_map_iff in Hs. destruct Hs as (x & <- & _). apply declare_sorted.
        * eapply declare_up_sorted; exact Hrs.
        * eapply declare_up_sorted; exact Hps.
        * eapply declare_up_sorted; exact Hcs.
        * intros r Hr. apply Href. right. eauto.
    - destruct (describes_components _ _ H) as (cx & [f Hm] & Hs & Hsec).
      apply mention_all_wf_components in Hm; [|split; [apply wf_new|intros k m []]]. destruct Hm as [[Hm1 _] Hm2]. split; [split|].
      + now rewrite Hs.
      + rewrite Hsec. unfold schemes_after. enough (G : forall l m, bm_sorted m -> bm_sorted (fold_left sec_step l m)) by (apply (G _ []); constructor).
        induction l as [|e l IH]; intros m Hms; [exact Hms|]. cbn. apply IH. destruct e; cbn; auto.
        * destruct (bm_get name m); [exact Hms|]. now apply bm_insert_sorted.
        * now apply bm_insert_sorted.
      + rewrite Hs. exact Hm2.
  Qed.
End Docs.
