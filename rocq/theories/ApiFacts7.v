(** Facts about describe_api!, in the form of the properties. *)
From Verif Require Import ApiSpec ApiFacts ApiFacts2 ApiFacts3 ApiFacts4 ApiFacts5 SchemaFacts GenFacts SerFacts SerFacts2 SerFacts3 SerFacts4.
Local Open Scope string_scope. Local Open Scope list_scope.
Local Opaque bm_insert.

Lemma lookup_entries {V} (f : V -> value) (m : bmap str V) n v : bm_get n m = Some v -> lookup n (map (fun e => (VStr (fst e), f (snd e))) m) = Some (f v).
Proof.
  induction m as [|[k x] m IH]; [discriminate|]. cbn [bm_get map lookup fst snd]. destruct (kcmp n k) eqn:Ec.
  - apply kcmp_eq in Ec. subst k. rewrite (proj2 (str_eqb_eq n n) eq_refl). congruence.
  - destruct (str_eqb n k) eqn:Ek; [|exact IH]. apply str_eqb_eq in Ek. subst k. rewrite (proj2 (kcmp_eq n n) eq_refl) in Ec. discriminate.
  - destruct (str_eqb n k) eqn:Ek; [|exact IH]. apply str_eqb_eq in Ek. subst k. rewrite (proj2 (kcmp_eq n n) eq_refl) in Ec. discriminate.
Qed.
Lemma member_vmap k l : member k (VMap l) = lookup (u k) l. Proof. reflexivity. Qed.
Ltac lookups := rewrite ?member_vmap, ?lookup_app, ?lookup_mem, ?lookup_opt, ?lookup_true, ?lookup_seq, ?lookup_nil.

Lemma member_components d : member "components" (ser_opg d) = Some (ser_components (og_components d)).
Proof. unfold ser_opg. lookups. reflexivity. Qed.
Lemma emitted_schema d n m : bm_get n (cx_schemas (og_components d)) = Some m ->
  exists l, at_ ["components"; "schemas"] (ser_opg d) = Some (VMap l) /\ lookup n l = Some (ser_model m).
Proof.
  intros Hm. unfold at_. cbn [fold_left]. rewrite member_components. unfold ser_components. lookups.
  destruct (cx_schemas (og_components d)) as [|e l] eqn:Es; [discriminate|]. rewrite <- Es in *.
  exists (map (fun e => (VStr (fst e), ser_model (snd e))) (cx_schemas (og_components d))). split; [rewrite Es; reflexivity|].
  now apply (lookup_entries ser_model).
Qed.
Lemma emitted_path d p v : In (p, v) (og_paths d) -> emits_path (ser_opg d) p (ser_path_value v).
Proof.
  intros Hi. unfold emits_path. exists (map (fun e => (VStr (render_path (fst e)), ser_path_value (snd e))) (og_paths d)). split.
  - unfold ser_opg. lookups. destruct (og_paths d); [destruct Hi|]. cbn [opt_list].
    destruct (opt_list _ (og_tags d)); destruct (opt_list _ (og_servers d)); reflexivity.
  - apply (in_map (fun e => (VStr (render_path (fst e)), ser_path_value (snd e))) _ (p, v)). exact Hi.
Qed.
Lemma operation_members ops : lookup (u "parameters") (map (fun e : http_method * operation => (VStr (method_name (fst e)), ser_operation_with ser_callback (snd e))) ops) = None.
Proof. induction ops as [|[m o] ops IH]; [reflexivity|]. cbn [map lookup fst]. rewrite IH. now destruct m. Qed.
Lemma emitted_path_parameter v n x : bm_get n (pv_parameters v) = Some x -> pr_in x = InPath -> pr_required x = true ->
  emits_path_parameter (ser_path_value v) n.
Proof.
  intros Hx Hin Hr. exists (map ser_parameter (pv_parameters v)), (ser_parameter (n, x)). split; [|split; [|split; [|split]]].
  - unfold ser_path_value, ser_path_value_with. lookups. rewrite operation_members. destruct (pv_parameters v); [discriminate|].
    destruct (pv_summary v); destruct (pv_description v); reflexivity.
  - apply in_map, bm_get_In, Hx.
  - reflexivity.
  - unfold ser_parameter. lookups. rewrite Hin. destruct (pr_description x); reflexivity.
  - unfold ser_parameter. lookups. rewrite Hr. destruct (pr_description x); reflexivity.
Qed.

Section Props.
  Variable E : env.
  Variable reason : N -> option str.
  Variable seg : list tree -> option segment.
  Notation cbm := (callback_means E reason seg).
  Notation pm := (path_means E reason seg cbm).
  Notation om := (op_means E reason cbm).

  (** ** Path parameters *)
  Definition decl_name (x : segment + param_decl) : str :=
    match x with
    | inl (SegLit _) => []
    | inl (SegNamed n _) => n
    | inl (SegType text _) => match type_param_name text with Some n => n | None => [] end
    | inr q => pd_name q
    end.
  Definition decl_means (x : segment + param_decl) (e : str * op_parameter) : Prop :=
    match x with inl s => segment_param E s e | inr q => param_means E q e end.
  Lemma decl_means_name x e : decl_means x e -> fst e = decl_name x.
  Proof.
    destruct x as [s|q], e as [n a]; cbn.
    - intros (_ & _ & _ & _ & r & _ & H). destruct s as [l|text t|n' t]; [destruct H| |now destruct H].
      destruct H as [H _]. apply type_parameter_name in H. now rewrite H.
    - now intros [-> _].
  Qed.
  Lemma Forall2_map_l {A A' B} (f : A' -> A) (P : A -> B -> Prop) l m : Forall2 (fun a => P (f a)) l m -> Forall2 P (map f l) m.
  Proof. induction 1; cbn; constructor; auto. Qed.

  Lemma path_parameter_exact pd p v n : pm pd (p, v) ->
    match last_with pd_name n (path_params_of pd) with
    | Some q => exists x, bm_get n (pv_parameters v) = Some x /\ param_means E q (n, x)
    | None =>
        (forall t, template_parameter seg pd n t -> exists x, bm_get n (pv_parameters v) = Some x /\ pr_in x = InPath /\ pr_required x = true) /\
        (forall x, bm_get n (pv_parameters v) = Some x ->
           pr_in x = InPath /\ pr_required x = true /\ pr_deprecated x = false /\ pr_description x = None /\
           exists t r, template_parameter seg pd n t /\ pr_schema x = Some r /\ refers E t r)
    end.
  Proof.
    intros ((segs & up & ps & H1 & H2 & H3 & H4 & H5) & _). cbn [snd fst] in *.
    set (ds := map (@inl segment param_decl) (filter is_param segs) ++ map (@inr segment param_decl) (path_params_of pd)).
    assert (HF : Forall2 decl_means ds (up ++ ps)).
    { apply Forall2_app_inv; apply Forall2_map_l; assumption. }
    assert (Hl := declare_last decl_name decl_means ds (up ++ ps) n HF (fun d e _ => decl_means_name d e)).
    rewrite <- H5 in Hl. unfold last_with, ds in Hl. rewrite last_of_app in Hl.
    assert (Hm : forall (X Y A : Type) (f : X -> Y) (sel : Y -> option A) l, last_of sel (map f l) = last_of (fun x => sel (f x)) l).
    { clear. intros X Y A f sel l. induction l as [|x l IH]; cbn; [reflexivity|]. now rewrite IH. }
    rewrite !Hm in Hl. cbn [decl_name] in Hl.
    assert (Hr : last_of (fun x : param_decl => match kcmp n (pd_name x) with Eq => Some (inr x) | _ => None end) (path_params_of pd)
                 = option_map (@inr segment param_decl) (last_with pd_name n (path_params_of pd))).
    { clear. unfold last_with. induction (path_params_of pd) as [|q l IH]; [reflexivity|]. cbn [last_of]. rewrite IH.
      destruct (last_of (fun x => match kcmp n (pd_name x) with Eq => Some x | _ => None end) l); [reflexivity|].
      cbn [option_map]. now destruct kcmp. }
    rewrite Hr in Hl. destruct (last_with pd_name n (path_params_of pd)) as [q|]; cbn [option_map] in Hl; [exact Hl|].
    clear Hr Hm. destruct (last_of _ (filter is_param segs)) as [x|] eqn:El.
    - destruct Hl as (a & Ha & Hd). apply last_of_In in El. destruct El as (s & Hs & Es). destruct (kcmp n _) eqn:Ec; try discriminate.
      injection Es as <-. apply kcmp_eq in Ec. apply filter_In in Hs. destruct Hs as [Hs _].
      destruct (Forall2_In_r _ _ _ _ H1 Hs) as (g & Hg & _ & Hsg).
      destruct Hd as (Hd1 & Hd2 & Hd3 & Hd4 & r & Hd5 & Hd6). split.
      + intros t _. exists a. auto.
      + intros x Hx. assert (x = a) by congruence. subst x. repeat (split; [assumption|]).
        destruct s as [l|text t|n' t]; [destruct Hd6| |]; destruct Hd6 as [Hn Ht].
        * exists t, r. split; [|now split]. exists g. split; [exact Hg|]. right. exists text. now split.
        * subst n'. exists t, r. split; [|now split]. exists g. split; [exact Hg|]. now left.
    - split; [|intros x Hx; congruence]. intros t (g & Hg & Hs). exfalso.
      assert (Hn : exists s, seg g = Some s /\ is_param s = true /\ decl_name (inl s) = n).
      { destruct Hs as [Hs|(text & Hs & Ht)]; eexists; (split; [exact Hs|]); (split; [reflexivity|]); cbn; [reflexivity|].
        apply type_parameter_name in Ht. now rewrite Ht. }
      destruct Hn as (s & Hs1 & Hs2 & Hs3). destruct (Forall2_In_l _ _ _ _ H1 Hg) as (s' & Hi & _ & Hs4).
      assert (s' = s) by congruence. subst s'.
      assert (Hf : In s (filter is_param segs)) by (apply filter_In; now split).
      apply (proj1 (last_of_None _ _) El) in Hf. cbn [decl_name] in Hs3, Hf. rewrite Hs3 in Hf.
      rewrite (proj2 (kcmp_eq n n) eq_refl) in Hf. discriminate.
  Qed.
  (** what stands in the path *)
  Lemma template_path pd p v n : pm pd (p, v) -> (In (PeParameter n) p <-> exists t, template_parameter seg pd n t).
  Proof.
    intros ((segs & up & ps & H1 & H2 & _) & _). cbn [fst] in H2. split.
    - intros Hi. destruct (Forall2_In_r _ _ _ _ H2 Hi) as (s & Hs & Hm). destruct (Forall2_In_r _ _ _ _ H1 Hs) as (g & Hg & _ & Hsg).
      destruct s as [l|text t|n' t]; cbn in Hm; [discriminate| |].
      + destruct Hm as (n' & Ht & [= ->]). exists t, g. split; [exact Hg|]. right. eauto.
      + injection Hm as ->. exists t, g. split; [exact Hg|]. now left.
    - intros (t & g & Hg & Hs). destruct (Forall2_In_l _ _ _ _ H1 Hg) as (s & Hi & _ & Hsg). destruct (Forall2_In_l _ _ _ _ H2 Hi) as (e & He & Hm).
      destruct Hs as [Hs|(text & Hs & Ht)]; rewrite Hs in Hsg; injection Hsg as <-; cbn in Hm.
      + now subst e.
      + destruct Hm as (n' & Ht' & ->). apply type_parameter_name in Ht, Ht'. assert (n' = n) by congruence. now subst n'.
  Qed.

  (** ** The last declaration wins *)
  Lemma methods_last pd p v m : pm pd (p, v) ->
    match last_with fst m (methods_of pd) with
    | None => bm_get m (pv_operations v) = None
    | Some (_, l) => exists o, bm_get m (pv_operations v) = Some o /\ om l o
    end.
  Proof.
    intros (_ & _ & _ & (os & Ho & Eo)). cbn [snd] in Eo. rewrite Eo.
    assert (H := declare_last fst (fun q e => fst e = fst q /\ om (snd q) (snd e)) (methods_of pd) os m Ho (fun d e _ H => proj1 H)).
    destruct (last_with fst m (methods_of pd)) as [[m' l]|]; [|exact H]. destruct H as (o & H1 & _ & H2). eauto.
  Qed.
  Definition response_code (r : N * option str * response_schema) : N := fst (fst r).
  Lemma responses_last l o c : om l o ->
    match last_with response_code c (responses_of l) with
    | None => bm_get c (op_responses o) = None
    | Some r => exists x, bm_get c (op_responses o) = Some x /\ response_means E reason r (c, x)
    end.
  Proof.
    intros (_ & _ & _ & _ & _ & _ & _ & (rs & Hr & Er) & _). rewrite Er.
    apply (declare_last response_code (response_means E reason) (responses_of l) rs c Hr).
    intros [[c' d] s] e _ H. exact (proj1 H).
  Qed.
  Lemma parameters_last l o n : om l o ->
    match last_with pd_name n (params_of l) with
    | None => bm_get n (op_parameters o) = None
    | Some q => exists x, bm_get n (op_parameters o) = Some x /\ param_means E q (n, x)
    end.
  Proof.
    intros (_ & _ & _ & _ & _ & _ & _ & _ & (rs & Hr & Er) & _). rewrite Er.
    apply (declare_last pd_name (param_means E) (params_of l) rs n Hr). intros q [k x] _ H. exact (proj1 H).
  Qed.
  Lemma callbacks_last l o n : om l o ->
    match last_with cd_name n (callbacks_of l) with
    | None => bm_get n (op_callbacks o) = None
    | Some q => exists x, bm_get n (op_callbacks o) = Some x /\ cbm q x
    end.
  Proof.
    intros (_ & _ & _ & _ & _ & _ & _ & _ & _ & (rs & Hr & Er)). rewrite Er.
    assert (H := declare_last cd_name (fun d e => fst e = cd_name d /\ cbm d (snd e)) (callbacks_of l) rs n Hr (fun d e _ H => proj1 H)).
    destruct (last_with cd_name n (callbacks_of l)) as [q|]; [|exact H]. destruct H as (x & H1 & _ & H2). eauto.
  Qed.
  Lemma tags_last a d n : api_means E reason seg a d ->
    bm_get n (og_tags d) = match last_with fst n (tags_of a) with None => None | Some t => Some {| tg_description := snd t |} end.
  Proof.
    intros (_ & Et & _). rewrite Et. fold (tags_of a).
    assert (Hf : Forall2 (fun t e => e = (fst t, {| tg_description := snd t |})) (tags_of a) (map (fun t => (fst t, {| tg_description := snd t |})) (tags_of a))).
    { induction (tags_of a); cbn; constructor; auto. }
    assert (H := declare_last fst _ (tags_of a) _ n Hf (fun d e _ H => f_equal fst H)).
    destruct (last_with fst n (tags_of a)) as [t|]; [|exact H]. destruct H as (v & H1 & H2). injection H2 as _ H2. congruence.
  Qed.

  (** ** References *)
  Lemma refs_resolve a d s : describes E reason seg a d -> has_ref s (ser_opg d) ->
    exists n, s = u "#/components/schemas/" ++ n /\
      ((exists l w, at_ ["components"; "schemas"] (ser_opg d) = Some (VMap l) /\ lookup n l = Some w) \/ exists r, raw_response a r /\ occurs n r).
  Proof.
    intros Hd Hr. destruct (refs_are_links _ _ Hr) as (n & -> & Hl). exists n. split; [reflexivity|].
    destruct (doc_links_resolve _ _ _ _ _ _ Hd Hl) as [Hg|Hraw]; [left|now right]. unfold registered in Hg.
    destruct (bm_get n (cx_schemas (og_components d))) as [m|] eqn:Eg; [|now destruct Hg].
    destruct (emitted_schema _ _ _ Eg) as (l & H1 & H2). eauto.
  Qed.

  (** ** Security *)
  Lemma requirement_names l n : bm_get n (requirement l) <> None <-> exists i, In i l /\ item_name i = n.
  Proof.
    unfold requirement. rewrite declare_get.
    assert (Hf : Forall2 (fun i e => e = (item_name i, @nil str)) l (map (fun i => (item_name i, [])) l)) by (induction l; cbn; constructor; auto).
    assert (H := declare_last item_name _ l _ n Hf (fun d e _ H => f_equal fst H)). rewrite declare_get in H.
    destruct (last_with item_name n l) as [i|] eqn:El.
    - destruct H as (v & H & _). rewrite H. split; [|discriminate]. intros _. exists i. now apply last_with_In in El.
    - rewrite H. split; [now intros []|]. intros (i & Hi & Hn). exfalso. exact (proj1 (last_with_None _ _ _) El i Hi Hn).
  Qed.
  Lemma operation_requirements a d o s n : describes E reason seg a d -> has_operation (og_paths d) o -> In s (op_security o) ->
    bm_get n s <> None -> bm_get n (cx_security (og_components d)) <> None \/ literal_scheme a n.
  Proof.
    intros Hd Ho Hs Hn. destruct (has_operation_declared _ _ _ _ _ _ (describes_means _ _ _ _ _ Hd) Ho) as (l & Hl & Hm).
    destruct Hm as (_ & _ & _ & _ & _ & Hsec & _). rewrite Hsec in Hs. apply in_map_iff in Hs. destruct Hs as (req & <- & Hreq).
    apply in_flat_map in Hreq. destruct Hreq as (p & Hp & Hreq). destruct p; try (now destruct Hreq).
    apply requirement_names in Hn. destruct Hn as (i & Hi & Hin).
    destruct i as [n' roles|n' sch roles]; cbn in Hin; subst n'.
    - right. exists l. eauto 8.
    - left. destruct (describes_components _ _ _ _ _ Hd) as (cx & _ & _ & Es). rewrite Es. apply schemes_after_iff.
      exists sch. right. apply use_events. exists l. eauto 8.
  Qed.
  Lemma scheme_registered a d n : describes E reason seg a d ->
    (bm_get n (cx_security (og_components d)) <> None <-> exists s, declares_scheme a n s \/ uses_scheme a n s).
  Proof.
    intros Hd. destruct (describes_components _ _ _ _ _ Hd) as (cx & _ & _ & Es). rewrite Es, schemes_after_iff.
    split; intros (s & [H|H]); exists s; [left|right|left|right].
    - now apply declare_events in H.
    - now apply use_events in H.
    - now apply declare_events.
    - now apply use_events.
  Qed.
  Lemma scheme_value a d n : describes E reason seg a d ->
    bm_get n (cx_security (og_components d)) =
      match last_of (event_declares n) (ev_api seg a) with Some s => Some s | None => first_of (event_uses n) (ev_api seg a) end.
  Proof. intros Hd. destruct (describes_components _ _ _ _ _ Hd) as (cx & _ & _ & Es). rewrite Es. apply schemes_after_get. Qed.
End Props.
