(** What the schemas of exact types accept can be read: by induction on the types a type's description refers to. *)
From Verif Require Import Attr AttrSpec AttrFacts Ast AstFacts Derive DeriveSpec Schema SchemaSpec SchemaFacts Gen GenSpec
  GenFacts GenFacts2 GenFacts3 GenFacts4 DeriveFacts DeriveFacts2 DeriveFacts5 SoundSpec SoundFacts SoundFacts2 SoundFacts3
  ReadsSpec ReadsFacts.
From Coq Require Import Arith Lia ZArith.

Lemma NoDup_fst_eq {A} (l : list (str * A)) n a b : NoDup (map fst l) -> In (n, a) l -> In (n, b) l -> a = b.
Proof.
  induction l as [|[k x] l IH]; [intros _ []|]. cbn. intros Hnd. inversion Hnd as [|? ? Hni Hnd']; subst.
  intros [Ha|Ha] [Hb|Hb]; auto.
  - congruence.
  - injection Ha as -> ->. destruct Hni. apply in_map_iff. exists (n, b). auto.
  - injection Hb as -> ->. destruct Hni. apply in_map_iff. exists (n, a). auto.
Qed.

Section Facts.
  Variable pe pp : str -> bool.
  Variable uni : N -> bool.
  Variable disc : str -> Z.
  Variable D : tid -> derive_input ty.
  Variable ev : str -> str.
  Variable E : env.
  Notation said := (said pe pp).
  Notation derive := (derive pe pp uni ev).
  Notation supp := (supp pe pp uni D ev False E).
  Notation reads := (reads pe pp uni disc D).
  Notation exact_inside := (exact_inside pe pp D).
  Notation field_exact := (field_exact pe pp D).
  Notation nullish := (nullish D).

  Definition ready (t : ty) : Prop := supp t /\ exact_inside t.
  Lemma ready_step t t' : ready t -> directly_inside pe pp D t t' -> ready t'.
  Proof. intros [H1 H2] Hd. split; [eapply supp_step; eauto|]. intros x Hx. apply H2. eapply inside_front; eauto. Qed.
  Lemma ready_exact t : ready t -> exact pe pp D t.
  Proof. intros [_ H]. apply H, in_self. Qed.

  (** what is known of the values accepted for the types one level down *)
  Definition known (t : ty) (j : json) : Prop := ready t -> reads t j.
  Notation kr := (kr E known).
  Notation km := (km E known).
  Notation kd := (kd E known).
  Notation kt := (kt E known).

  Lemma nullish_reads t : nullish t -> reads t JNull.
  Proof. induction 1; [apply rd_none|now apply rd_wrap|eapply rd_newtype; eauto]. Qed.

  Lemma field_read r i f g (p : params) inl c j : field_parsed pe pp r i f g -> field_exact f -> p_variants p = None ->
    p_nullable p = flag (fa_nullable (f_attrs g)) -> field_model_reference p g inl = Some c -> kr c j -> ready (fs_ty f) ->
    reads (fs_ty f) j.
  Proof.
    intros Hg (Hno & _ & Hnull) Hp Hn Hm Hk Hr. unfold field_model_reference in Hm. destruct Hg.
    destruct (fa_explicit (f_attrs g)) as [t|] eqn:Et; [destruct (Hno t); now apply fp_explicit|]. injection Hm as <-.
    cbn in Hk. rewrite fp_ty in Hk. destruct (Hk Hp) as [[Hq ->]|Hq]; [|now apply Hq].
    apply nullish_reads, Hnull, fp_nullable. rewrite Hn in Hq. destruct (fa_nullable (f_attrs g)); [reflexivity|discriminate].
  Qed.

  Lemma object_stmts r fs gs l inl t : fields_parsed pe pp r 0 fs gs -> serialised_fields pe pp r 0 fs l ->
    object_type_description ev gs inl = Some t ->
    exists stmts, t = TcObject stmts /\ map (fun s => fst (fst s)) stmts = map fst l /\
      forall n f, In (n, f) l -> exists g c i, In (n, c, negb (fa_optional (f_attrs g))) stmts /\ field_parsed pe pp r i f g /\
        field_model_reference (params_of_field ev (f_attrs g)) g (inl g) = Some c.
  Proof.
    intros Hp Hl Ho. destruct (object_names pe pp ev _ _ _ _ _ _ Hp Ho Hl) as (stmts & -> & Hn). exists stmts. split; auto. split; auto.
    unfold object_type_description in Ho. destruct (try_map _ _) as [stmts'|] eqn:Et; [|discriminate]. injection Ho as ->.
    destruct (fields_kept _ _ _ _ _ _ Hp) as (l' & Hl' & Hk).
    assert (l' = l) as -> by (eapply serialised_fields_unique; eauto; eapply fields_parsed_acc; eauto). clear Hl'.
    apply try_map_Forall2 in Et. clear -Hk Et. revert stmts Et.
    induction Hk as [|[n f] g l gs' [[i Hf] Hn] Hk IH]; intros stmts Et n' f' Hin; [destruct Hin|].
    inversion Et as [|? s ? ss Hs Hss]; subst. destruct Hin as [[= -> ->]|Hin].
    - destruct (field_model_reference _ g _) as [c|] eqn:Ec; [|discriminate]. injection Hs as <-. cbn [fst snd] in *. subst n'.
      exists g, c, i. split; [now left|auto].
    - destruct (IH _ Hss _ _ Hin) as (g' & c & i' & H1 & H2 & H3). exists g', c, i'. split; [now right|auto].
  Qed.

  Lemma fields_read r fs gs l inl stmts ms : fields_parsed pe pp r 0 fs gs -> serialised_fields pe pp r 0 fs l ->
    object_type_description ev gs inl = Some (TcObject stmts) -> NoDup (map fst l) ->
    (forall f, In f fs -> ~ field_skipped pe pp f -> field_exact f /\ ready (fs_ty f)) ->
    distinct_names (JObj ms) -> kt (TcObject stmts) (JObj ms) -> reads_fields pe pp uni disc D l ms.
  Proof.
    intros Hp Hl Ho Hnd Hall Hd Hk. destruct (object_stmts _ _ _ _ _ _ Hp Hl Ho) as (stmts' & [= <-] & Hn & Hsrc).
    inversion Hd as [| | | | | |? Hms _]; subst. pose proof Hnd as Hnd'. rewrite <- Hn in Hnd'. pose proof (kt_object_inv _ _ _ _ Hnd' Hk) as Hinv.
    constructor; auto.
    - intros n f Hin. destruct (serialised_fields_In _ _ _ _ _ _ _ _ Hl Hin) as [Hf Hs]. destruct (Hall _ Hf Hs) as [(_ & Hopt & _) _].
      destruct (Hsrc _ _ Hin) as (g & c & i & H1 & H2 & H3). destruct (Hinv _ _ _ H1) as [Hreq _].
      pose proof (fp_optional _ _ _ _ _ _ H2) as Ho2. destruct (fa_optional (f_attrs g)); [right|left].
      + apply Hopt. now apply Ho2.
      + now apply Hreq.
    - intros n f j Hin Hj. destruct (serialised_fields_In _ _ _ _ _ _ _ _ Hl Hin) as [Hf Hs]. destruct (Hall _ Hf Hs) as [He Hr].
      destruct (Hsrc _ _ Hin) as (g & c & i & H1 & H2 & H3). destruct (Hinv _ _ _ H1) as [_ Hkj].
      eapply field_read; eauto; reflexivity.
  Qed.

  (** *** Structs *)
  Lemma struct_reads id fs j : di_data (D id) = DaStruct (FNamed fs) -> ready (TNamed id) -> distinct_names j ->
    km (td_body (E id)) j -> reads (TNamed id) j.
  Proof.
    intros Hdd Hr Hd Hk. pose proof (ready_exact _ Hr) as Hex. cbn in Hex. unfold input_exact in Hex. rewrite Hdd in Hex. destruct Hex as [Hnn Hex].
    pose proof Hr as [Hs _]. apply supp_derived in Hs as [Hs Hsup]. destruct (derive_inv _ _ _ _ _ _ Hs) as (c & Hc & Hb & _).
    pose proof (cp_data _ _ _ _ _ Hc) as Hdata. rewrite Hdd in Hdata. inversion Hdata as [|? gs Hf Heq1 Heq2]; subst.
    unfold serialize_body in Hb. rewrite <- Heq2 in Hb. cbn [style_of] in Hb. unfold serialize_struct in Hb.
    destruct (object_type_description ev gs _) as [t|] eqn:Et; [|discriminate]. injection Hb as Hb. rewrite <- Hb in Hk.
    destruct Hc. rewrite Hdd in *. cbn [shape fields_list] in *. destruct (fields_kept _ _ _ _ _ _ Hf) as (l & Hl & _).
    destruct (object_stmts _ _ _ _ _ _ Hf Hl Et) as (stmts & -> & _).
    inversion Hsup as [? E0 _ _ Hm|? E0|? E0|? E0|? E0|? ? ? E0]; rewrite Hdd in E0; try discriminate. injection E0 as <-.
    destruct (Hm _ _ cp_rule Hl) as [Hnd _]. cbn [ReadsFacts.km ReadsFacts.kd] in Hk. destruct Hk as [[Hn _]|Hk]; [destruct Hnn; now apply cp_nullable|].
    destruct j as [| | | | | |ms]; try (now destruct Hk). eapply rd_struct; eauto. eapply fields_read; eauto.
    intros f Hin Hsk. split; [now apply Hex|]. eapply ready_step; [exact Hr|]. constructor. split; auto. now rewrite Hdd.
  Qed.

  Lemma newtype_reads id f j : di_data (D id) = DaStruct (FUnnamed [f]) -> ready (TNamed id) ->
    km (td_body (E id)) j -> reads (TNamed id) j.
  Proof.
    intros Hdd Hr Hk. pose proof (ready_exact _ Hr) as Hex. cbn in Hex. unfold input_exact in Hex. rewrite Hdd in Hex. destruct Hex as [Hno Hex].
    pose proof Hr as [Hs _]. apply supp_derived in Hs as [Hs Hsup]. destruct (derive_inv _ _ _ _ _ _ Hs) as (c & Hc & Hb & _).
    pose proof (cp_data _ _ _ _ _ Hc) as Hdata. rewrite Hdd in Hdata. inversion Hdata as [|? gs Hf Heq1 Heq2]; subst.
    unfold serialize_body in Hb. rewrite <- Heq2 in Hb. cbn [style_of length Nat.eqb] in Hb. cbn [fields_list] in Hf.
    inversion Hf as [|? ? g ? gs' Hg Hr']; subst. unfold serialize_newtype_struct in Hb. destruct Hc. rewrite Hdd in *. cbn [shape] in *.
    inversion Hsup as [? E0|? E0 Hlen|? E0 Hns|? E0|? E0|? ? ? E0]; rewrite Hdd in E0; try discriminate; injection E0 as <-.
    - now destruct Hlen.
    - destruct (ca_explicit (c_attrs c)) as [t|] eqn:Et; [destruct (Hno t); now apply cp_explicit|].
      injection Hb as Hb. rewrite <- Hb in Hk. eapply rd_newtype; eauto.
      assert (Hrf : ready (fs_ty f)). { eapply ready_step; [exact Hr|]. constructor. split; auto. rewrite Hdd. now left. }
      cbn in Hk. destruct (Hk eq_refl) as [[Hq ->]|Hq].
      + destruct Hex as (_ & _ & Hnull). apply nullish_reads, Hnull. apply (fp_nullable _ _ _ _ _ _ Hg).
        destruct (fa_nullable (f_attrs g)); [reflexivity|discriminate].
      + rewrite (fp_ty _ _ _ _ _ _ Hg) in Hq. now apply Hq.
  Qed.

  (** *** Types that carry a tag *)
  Lemma taggable_unmentioned tag t : taggable pe pp D tag t -> supp t -> forall cx m cx', schema_returns E t cx m cx' -> unmentioned tag m.
  Proof.
    induction 1 as [w t H IH|k t|id fs Hd Hm]; intros Hs cx m cx' Hret.
    - apply (proj1 (wrap_returns _ _ _ _ _ _)) in Hret. refine (IH _ _ _ _ Hret). eapply supp_step; [exact Hs|constructor].
    - apply returns_step in Hret as [fuel Hret]. cbn in Hret. binds. eexists. split; [reflexivity|]. split; [reflexivity|]. intros [].
    - apply supp_derived in Hs as [Hs _]. destruct (struct_body _ _ _ _ _ _ _ _ Hd Hs) as (rule & gs & t & d & b & Hr & Hf & Hacc & Ho & Hb).
      destruct (fields_kept _ _ _ _ _ _ Hf) as (l & Hl & _). destruct (object_names _ _ _ _ _ _ _ _ _ Hf Ho Hl) as (stmts & -> & Hn).
      apply returns_body in Hret as [fuel Hret]. rewrite Hb in Hret. eapply object_unmentioned; [|exact Hret].
      rewrite Hn. now apply (Hm rule).
  Qed.

  Lemma taggable_not_null tag t : taggable pe pp D tag t -> ready t -> reads t JNull -> False.
  Proof.
    induction 1 as [w t H IH|k t|id fs Hd Hm]; intros Hr Hj.
    - inversion Hj; subst. apply IH; auto. eapply ready_step; [exact Hr|constructor].
    - inversion Hj.
    - inversion Hj; subst; try congruence;
        match goal with H : enum_variant _ _ _ _ _ _ _ |- _ => destruct H as (vs' & l' & Hx & _); congruence end.
  Qed.

  (** *** Enums *)
  Section Enum.
    Variables (id : tid) (vs : list (variant_syn ty)).
    Hypothesis Hvs : di_data (D id) = DaEnum vs.
    Hypothesis Hr : ready (TNamed id).

    Lemma enum_source : exists c ws l, container_parsed pe pp uni (D id) c /\ enum_variants pe pp uni (D id) vs l /\
      Forall2 (kept_variant pe pp uni (ca_rename_rule (c_attrs c))) l (serialised ws) /\
      serialize_enum ev c ws = Some (td_body (E id)).
    Proof.
      pose proof Hr as [Hs _]. destruct (supp_derived _ _ _ _ _ _ _ _ Hs) as [Hd _]. destruct (derive_inv _ _ _ _ _ _ Hd) as (c & Hc & Hb & _).
      pose proof (cp_data _ _ _ _ _ Hc) as Hdata. rewrite Hvs in Hdata. inversion Hdata as [? ws Hw Heq1 Heq2|]; subst.
      destruct (variants_kept _ _ _ _ _ _ Hw) as (l & Hl & Hk).
      unfold serialize_body in Hb. rewrite <- Heq2 in Hb. exists c, ws, l. split; auto. split; [|auto].
      exists (ca_rename_rule (c_attrs c)). split; auto. pose proof (cp_rule _ _ _ _ _ Hc) as Hr'. now rewrite Hvs in Hr'.
    Qed.

    Lemma alternative_source r (f : variant ty -> option rcode) l ws cs c : Forall2 (kept_variant pe pp uni r) l ws ->
      try_map f ws = Some cs -> In c cs -> exists n v w, In (n, v) l /\ variant_parsed pe pp uni r v w /\ n = variant_name w /\ f w = Some c.
    Proof.
      intros Hk Ht Hin. apply try_map_Forall2 in Ht. revert cs Ht Hin.
      induction Hk as [|[n' v'] w l ws [Hv Hn] Hk IH]; intros cs Ht Hin.
      - inversion Ht; subst. destruct Hin.
      - inversion Ht as [|? c' ? cs' Hc Hcs]; subst. cbn [fst snd] in *. destruct Hin as [->|Hin].
        + exists n', v', w. split; [now left|auto].
        + destruct (IH _ Hcs Hin) as (n & v & w' & H1 & H2). exists n, v, w'. split; [now right|auto].
    Qed.

    Hypothesis Hni : ~ written_as_int pe pp (D id) vs.

    Lemma units_read j : (forall v, In v vs -> unit_variant v) -> km (td_body (E id)) j -> reads (TNamed id) j.
    Proof.
      intros Hu Hk. destruct enum_source as (c & ws & l & Hc & Hl & Hkept & Hb). destruct Hc.
      rewrite Hvs in *. cbn [shape] in *. unfold serialize_enum in Hb.
      rewrite cp_kind in Hb. cbn [decide_model_kind] in Hb, cp_kind_ok. rewrite (proj2 (all_units_iff vs) Hu) in Hb, cp_kind_ok.
      assert (Hb' : Some (serialize_newtype_enum c ws) = Some (td_body (E id))) by (destruct (ca_tag_type (c_attrs c)); auto; discriminate).
      injection Hb' as Hb'. unfold serialize_newtype_enum in Hb'. unfold AttrSpec.flag_takes in cp_repr.
      destruct (ca_has_repr (c_attrs c)); [destruct Hni; split; [now apply cp_repr|auto]|].
      rewrite (kept_names _ _ _ _ _ _ Hkept) in Hb'. rewrite <- Hb' in Hk. cbn in Hk. destruct Hk as [[Hx _]|Hk]; [discriminate|].
      destruct j; try (now destruct Hk). specialize (Hk _ eq_refl). apply in_map_iff in Hk as ([n v] & <- & Hin).
      pose proof Hr as [Hs _]. destruct (supp_derived _ _ _ _ _ _ _ _ Hs) as [_ Hsup].
      assert (Hrep : represents pe pp (di_attrs (D id)) RepExternal).
      { inversion Hsup as [? E0|? E0|? E0|? E0 _ _ Hrep|? E0 [Hrp _]|? w rep' E0 Hw Hnw]; rewrite Hvs in E0; try discriminate; injection E0 as <-.
        - exact Hrep.
        - destruct Hni. split; auto.
        - destruct Hnw. auto. }
      eapply rd_external_unit.
      - exists vs, l. split; [exact Hvs|]. split; [exact Hni|]. split; [exact Hrep|]. split; [exact Hl|exact Hin].
      - destruct Hl as (rr & _ & Hl). destruct (serialised_variants_In _ _ _ _ _ _ _ _ Hl Hin). auto.
    Qed.

    Section Mixed.
      Variables (w0 : variant_syn ty).
      Hypothesis Hw0 : In w0 vs.
      Hypothesis Hnu : ~ unit_variant w0.
      Hypothesis Hex : forall v, In v vs -> ~ variant_skipped pe pp v -> variant_exact pe pp D v.

      Lemma variant_ready v f : In v vs -> ~ variant_skipped pe pp v -> In f (fields_list (vs_fields v)) -> ~ field_skipped pe pp f ->
        ready (fs_ty f).
      Proof. intros. eapply ready_step; [exact Hr|]. constructor. split; auto. rewrite Hvs. exists v. auto. Qed.

      (** what the code of a struct variant accepts *)
      Lemma struct_variant_reads rep r v w fs mc j : variant_parsed pe pp uni r v w -> vs_fields v = FNamed fs ->
        In v vs -> ~ variant_skipped pe pp v -> variant_supported pe pp D False rep v ->
        object_model ev false (va_description (v_attrs w)) (v_fields w) (inline_in w) = Some mc ->
        distinct_names j -> km mc j -> exists ms, j = JObj ms /\ reads_payload pe pp uni disc D v j.
      Proof.
        intros Hw Hf Hv Hns Hsup Hm Hd Hk. pose proof (Hex _ Hv Hns) as He. unfold variant_exact in He. rewrite Hf in He.
        pose proof (variant_ready v) as Hrd. rewrite Hf in Hrd. cbn [fields_list] in Hrd.
        destruct Hw. rewrite Hf in vp_fields. cbn [fields_list] in vp_fields. unfold object_model in Hm.
        destruct (object_type_description _ _ _) as [t|] eqn:Et; [|discriminate]. injection Hm as <-.
        destruct (fields_kept _ _ _ _ _ _ vp_fields) as (l & Hl & _).
        destruct (object_stmts _ _ _ _ _ _ vp_fields Hl Et) as (stmts & -> & _).
        unfold variant_supported in Hsup. rewrite Hf in Hsup. destruct Hsup as [_ Hsup]. destruct (Hsup _ _ vp_rule Hl) as [Hnd _].
        cbn [ReadsFacts.km ReadsFacts.kd] in Hk. destruct Hk as [[Hx _]|Hk]; [discriminate|].
        destruct j as [| | | | | |ms]; try (now destruct Hk). exists ms. split; [reflexivity|]. eapply rp_struct; eauto.
        eapply fields_read; eauto.
      Qed.

      Lemma newtype_variant_reads rep r v w f c j : variant_parsed pe pp uni r v w -> vs_fields v = FUnnamed [f] ->
        In v vs -> ~ variant_skipped pe pp v -> variant_supported pe pp D False rep v ->
        newtype_variant ev w = Some c -> kr c j -> reads_payload pe pp uni disc D v j.
      Proof.
        intros Hw Hf Hv Hns Hsup Hm Hk. pose proof (Hex _ Hv Hns) as He. unfold variant_exact in He. rewrite Hf in He.
        pose proof (variant_ready v f) as Hrd. rewrite Hf in Hrd. cbn [fields_list] in Hrd.
        unfold variant_supported in Hsup. rewrite Hf in Hsup. destruct Hsup as [Hsk _].
        pose proof (vp_fields _ _ _ _ _ _ Hw) as Hg. rewrite Hf in Hg. cbn in Hg.
        inversion Hg as [|? ? g ? gs Hfg Hr' Heq1 Heq2 Heq3]; subst. unfold newtype_variant in Hm. rewrite <- Heq3 in Hm.
        eapply rp_newtype; eauto. refine (field_read _ _ f g _ _ c _ Hfg He _ _ Hm Hk _); try reflexivity.
        apply Hrd; auto. now left.
      Qed.

      Lemma untagged_reads j : represents pe pp (di_attrs (D id)) RepUntagged ->
        (forall v, In v vs -> ~ variant_skipped pe pp v -> variant_supported pe pp D False RepUntagged v) ->
        distinct_names j -> km (td_body (E id)) j -> reads (TNamed id) j.
      Proof.
        intros Hrep Hvsup Hd Hk. destruct enum_source as (c & ws & l & Hc & Hl & Hkept & Hb). pose proof Hc as Hc'. destruct Hc'.
        pose proof Hrep as Hrep'. apply (cp_tag vs) in Hrep'; auto. unfold serialize_enum in Hb.
        rewrite cp_kind, Hvs in Hb. cbn [decide_model_kind] in Hb. rewrite (mixed_kind _ _ Hw0 Hnu) in Hb.
        destruct (ca_tag_type (c_attrs c)) as [|t|t t'|]; try discriminate. cbn [fst] in Hb.
        unfold serialize_untagged_enum in Hb. destruct (try_map _ _) as [cs|] eqn:Et; [|discriminate]. injection Hb as Hb.
        rewrite <- Hb in Hk. cbn [ReadsFacts.km] in Hk. apply kd_oneof_inv in Hk as (rc & Hin & Hk).
        destruct (alternative_source _ _ _ _ _ _ Hkept Et Hin) as (n & v & w & Hnv & Hw & -> & Hu).
        pose proof Hl as (rr & _ & Hl'). destruct (serialised_variants_In _ _ _ _ _ _ _ _ Hl' Hnv) as [Hv Hns].
        assert (Hev : enum_variant pe pp uni (D id) RepUntagged (variant_name w) v).
        { exists vs, l. split; [exact Hvs|]. split; [exact Hni|]. split; [exact Hrep|]. split; [exact Hl|exact Hnv]. }
        eapply rd_untagged; [exact Hev|]. unfold untagged_variant in Hu. pose proof (vp_style _ _ _ _ _ _ Hw) as Hst.
        destruct (vs_fields v) as [fs|fs|] eqn:Ef; cbn [style_of] in Hst.
        - rewrite Hst in Hu. destruct (object_model _ _ _ _ _) as [mc|] eqn:Em; [|discriminate]. cbn in Hu. injection Hu as <-.
          destruct (struct_variant_reads _ _ _ _ _ _ _ Hw Ef Hv Hns (Hvsup _ Hv Hns) Em Hd Hk) as (ms & _ & H). exact H.
        - destruct fs as [|f [|f' fs] ]; cbn in Hst; rewrite Hst in Hu; try discriminate.
          eapply newtype_variant_reads; eauto.
        - rewrite Hst in Hu. discriminate.
      Qed.

      Lemma internal_reads tag j : represents pe pp (di_attrs (D id)) (RepInternal tag) ->
        (forall v, In v vs -> ~ variant_skipped pe pp v -> variant_supported pe pp D False (RepInternal tag) v) ->
        distinct_names j -> km (td_body (E id)) j -> reads (TNamed id) j.
      Proof.
        intros Hrep Hvsup Hd Hk. destruct enum_source as (c & ws & l & Hc & Hl & Hkept & Hb). pose proof Hc as Hc'. destruct Hc'.
        pose proof Hrep as Hrep'. apply (cp_tag vs) in Hrep'; auto. unfold serialize_enum in Hb.
        rewrite cp_kind, Hvs in Hb. cbn [decide_model_kind] in Hb. rewrite (mixed_kind _ _ Hw0 Hnu) in Hb.
        destruct (ca_tag_type (c_attrs c)) as [|t|t t'|]; try discriminate. cbn [fst] in Hb. cbn [rep_of] in Hrep'. assert (t = tag) as -> by congruence.
        unfold serialize_internal_tagged_enum in Hb. destruct (try_map _ _) as [cs|] eqn:Et; [|discriminate]. injection Hb as Hb.
        rewrite <- Hb in Hk. cbn [ReadsFacts.km] in Hk. apply kd_oneof_inv in Hk as (rc & Hin & Hk).
        destruct (alternative_source _ _ _ _ _ _ Hkept Et Hin) as (n & v & w & Hnv & Hw & -> & Hu).
        pose proof Hl as (rr & _ & Hl'). destruct (serialised_variants_In _ _ _ _ _ _ _ _ Hl' Hnv) as [Hv Hns].
        assert (Hev : enum_variant pe pp uni (D id) (RepInternal tag) (variant_name w) v).
        { exists vs, l. split; [exact Hvs|]. split; [exact Hni|]. split; [exact Hrep|]. split; [exact Hl|exact Hnv]. }
        pose proof (Hvsup _ Hv Hns) as Hsv. unfold internal_variant in Hu. destruct (internal_model ev w) as [mc|] eqn:Em; [|discriminate].
        injection Hu as <-. cbn [ReadsFacts.kr] in Hk. unfold internal_model in Em. pose proof (vp_style _ _ _ _ _ _ Hw) as Hst.
        destruct (vs_fields v) as [fs|fs|] eqn:Ef; cbn [style_of] in Hst.
        - (* named fields *)
          rewrite Hst in Em. assert (Hta : tag_absent E mc tag).
          { pose proof (vp_fields _ _ _ _ _ _ Hw) as Hfp. pose proof (vp_rule _ _ _ _ _ _ Hw) as Hrl. rewrite Ef in Hfp. cbn [fields_list] in Hfp.
            unfold object_model in Em. destruct (object_type_description _ _ _) as [t|] eqn:Eo; [|discriminate]. injection Em as <-.
            destruct (fields_kept _ _ _ _ _ _ Hfp) as (lf & Hlf & _).
            destruct (object_names _ _ _ _ _ _ _ _ _ Hfp Eo Hlf) as (stmts & -> & Hn). cbn. rewrite Hn. intros Hx.
            apply in_map_iff in Hx as ([n f] & Hnn & Hx). cbn in Hnn. subst n. unfold variant_supported in Hsv. rewrite Ef in Hsv.
            destruct Hsv as [_ Hsv]. destruct (Hsv _ _ Hrl Hlf) as [_ Hpl]. now apply (proj2 (Hpl _ _ Hx)). }
          specialize (Hk Hta). destruct j as [| | | | | |ms]; try contradiction.
          + destruct (struct_variant_reads _ _ _ _ _ _ _ Hw Ef Hv Hns Hsv Em Hd Hk) as (ms & Hx & _). discriminate.
          + destruct Hk as [Hi Hk]. inversion Hd as [| | | | | |? Hnd _]; subst.
            destruct (struct_variant_reads _ _ _ _ _ _ _ Hw Ef Hv Hns Hsv Em (distinct_without tag _ Hd) Hk) as (ms' & _ & Hp).
            eapply rd_internal; eauto.
        - (* one unnamed field *)
          destruct fs as [|f [|f' fs] ]; cbn in Hst; rewrite Hst in Em; try discriminate.
          pose proof (vp_fields _ _ _ _ _ _ Hw) as Hfp. rewrite Ef in Hfp. cbn [fields_list] in Hfp.
          inversion Hfp as [|? ? g ? gs Hg _ Heq1 Heq2 Heq3]; subst. rewrite <- Heq3 in Em. injection Em as <-.
          unfold variant_supported in Hsv. rewrite Ef in Hsv. destruct Hsv as (Hsk & _ & Htg). specialize (Htg _ eq_refl).
          assert (Hrd : ready (fs_ty f)) by (apply (variant_ready v f); auto; rewrite Ef; now left).
          cbn [ReadsFacts.km tag_absent] in Hk. rewrite (fp_ty _ _ _ _ _ _ Hg) in Hk.
          pose proof (Hex _ Hv Hns) as He. unfold variant_exact in He. rewrite Ef in He. destruct He as (_ & _ & Hnull).
          specialize (Hk (taggable_unmentioned _ _ Htg (proj1 Hrd))). destruct j as [| | | | | |ms]; try contradiction.
          + exfalso. apply (taggable_not_null _ _ Htg Hrd). destruct (Hk eq_refl) as [[Hq _]|Hq]; [|now apply Hq].
            apply nullish_reads, Hnull. apply (fp_nullable _ _ _ _ _ _ Hg). cbn in Hq. destruct (fa_nullable (f_attrs g)); [reflexivity|discriminate].
          + destruct Hk as [Hi Hk]. inversion Hd as [| | | | | |? Hnd _]; subst. destruct (Hk eq_refl) as [[_ Hq]|Hq]; [discriminate|].
            eapply rd_internal; eauto. eapply rp_newtype; eauto.
        - (* unit *)
          rewrite Hst in Em. cbn in Em. injection Em as <-. specialize (Hk (fun x => x)).
          destruct j as [| | | | | |ms]; try contradiction.
          + cbn in Hk. destruct Hk as [[Hx _]|[]]. discriminate.
          + destruct Hk as [Hi _]. inversion Hd as [| | | | | |? Hnd _]; subst. eapply rd_internal_unit; eauto.
      Qed.
    End Mixed.

    Lemma enum_reads j : distinct_names j -> km (td_body (E id)) j -> reads (TNamed id) j.
    Proof.
      intros Hd Hk. pose proof (ready_exact _ Hr) as Hex. cbn in Hex. unfold input_exact in Hex. rewrite Hvs in Hex. destruct Hex as [_ Hex].
      destruct (not_repr_kind vs) as [Hu|(w & Hw & Hnu)]; [now apply units_read|].
      destruct Hex as [Hu|[Hrep Hex]]; [destruct Hnu; auto|].
      pose proof Hr as [Hs _]. destruct (supp_derived _ _ _ _ _ _ _ _ Hs) as [Hdv Hsup].
      assert (Hvsup : forall rep, represents pe pp (di_attrs (D id)) rep ->
        forall v, In v vs -> ~ variant_skipped pe pp v -> variant_supported pe pp D False rep v).
      { intros rep Hre. inversion Hsup as [? E0|? E0|? E0|? E0 Hu|? E0 [_ Hu] |? w' rep' E0 _ _ Hre' _ Hok]; rewrite Hvs in E0; try discriminate; injection E0 as <-.
        - destruct Hnu. auto.
        - destruct Hnu. auto.
        - destruct (derive_inv _ _ _ _ _ _ Hdv) as (c & Hc & _). destruct Hc. apply (cp_tag vs) in Hre; auto. apply (cp_tag vs) in Hre'; auto.
          assert (rep' = rep) as -> by congruence. exact Hok. }
      destruct Hrep as [Hrep|[tag Hrep]].
      - eapply untagged_reads; eauto.
      - eapply internal_reads; eauto.
    Qed.
  End Enum.

  Lemma named_reads id j : ready (TNamed id) -> distinct_names j -> km (td_body (E id)) j -> reads (TNamed id) j.
  Proof.
    intros Hr Hd Hk. pose proof (ready_exact _ Hr) as Hex. cbn in Hex. unfold input_exact in Hex.
    destruct (di_data (D id)) as [vs|[fs|[|f [|f' fs] ]|]|] eqn:Ed; try contradiction.
    - eapply enum_reads; eauto. apply Hex.
    - eapply struct_reads; eauto.
    - eapply newtype_reads; eauto.
  Qed.

  Section Run.
    Variables (calls : list mention_call) (cx_end : components).
    Hypothesis Hun : names_unambiguous E (call_sites calls).
    Hypothesis Hret : mentions_return E calls cx_new cx_end.
    Notation roots := (call_sites calls).
    Notation S := (cx_schemas cx_end).
    Notation complete := (complete E cx_end known).

    Lemma prim_read p j : p <> PUnit -> valid_model S (prim_schema p) j -> prim_reads p j.
    Proof.
      intros Hp H. destruct p; cbn in H; try contradiction; inversion H; subst;
        first [apply pr_text; cbn; tauto|eapply pr_int; reflexivity|apply pr_float; auto|apply pr_float_int; auto|apply pr_bool; auto].
    Qed.

    Lemma mention_read t0 t i p cx r cx' j : visited E roots (SMention t i) -> p = params_default ->
      mention_returns E t i p cx r cx' -> complete t -> ready t0 -> directly_inside pe pp D t0 t -> distinct_names j -> valid S r j -> reads t j.
    Proof.
      intros Hv -> Hm Hc Hr Hi Hd Hj.
      destruct (mention_complete E calls cx_end Hun Hret known _ _ params_default _ _ _ _ Hv eq_refl Hm Hc Hd Hj) as [[Hx _]|Hx]; [discriminate|].
      apply Hx. eapply ready_step; eauto.
    Qed.

    Theorem accepted_read t : (exists s, visited E roots s /\ site_ty s = t) -> complete t.
    Proof.
      assert (Hacc : forall s, visited E roots s -> Acc (part E) (site_ty s)).
      { destruct Hret as [f Hf]. rewrite mention_all_exec in Hf. intros s Hs. eapply visited_acc; eauto. now apply unambiguous_unique. }
      intros (s0 & Hs0 & Ht). assert (Ha : Acc (part E) t) by (rewrite <- Ht; auto). assert (Hvis : exists s, visited E roots s /\ site_ty s = t) by eauto.
      clear s0 Hs0 Ht. induction Ha as [t _ IH].
      assert (Hsites : forall s, In s (sites_of E t) -> visited E roots s /\ complete (site_ty s)).
      { intros s Hs. destruct Hvis as (s1 & Hv1 & Ht1). assert (Hv : visited E roots s) by (eapply vis_step; [exact Hv1|now rewrite Ht1]).
        split; [exact Hv|]. apply IH; [exists s; auto|eauto]. }
      clear IH. intros j cx m cx' Hd Hr Hj Hrd. pose proof (ready_exact _ Hrd) as Hex.
      destruct t as [p|w t|t|ts|k t|k t|id].
      - apply returns_step in Hr as [fuel Hr]. cbn in Hr. injection Hr as <- <-. apply rd_prim. apply prim_read; auto. intros ->. exact Hex.
      - apply (proj1 (wrap_returns _ _ _ _ _ _)) in Hr. apply rd_wrap; [intros ->; exact Hex|].
        destruct (Hsites _ (or_introl eq_refl)) as [_ Hc]. eapply Hc; eauto. eapply ready_step; [exact Hrd|constructor].
      - apply (proj1 (option_returns _ _ _ _ _)) in Hr as (m0 & Hr & ->).
        destruct (applied_valid S nullable_params m0 j eq_refl Hj) as [[_ ->]|Hj']; [apply rd_none|apply rd_some].
        destruct (Hsites _ (or_introl eq_refl)) as [_ Hc]. eapply Hc; eauto. eapply ready_step; [exact Hrd|constructor].
      - destruct Hex.
      - apply returns_step in Hr as [fuel Hr]. cbn in Hr. binds. destruct (Hsites _ (or_introl eq_refl)) as [Hv Hc].
        inversion Hj as [| | | | | |? ? ? l Hall| | | |]; subst. inversion Hd; subst. apply rd_seq.
        + intros j' Hin. eapply (mention_read (TSeq k t)); [exact Hv|reflexivity|exists fuel; eassumption|exact Hc|exact Hrd|constructor|auto|auto].
        + intros n ->. destruct Hex.
      - apply returns_step in Hr as [fuel Hr]. cbn in Hr. binds. destruct (Hsites _ (or_introl eq_refl)) as [Hv Hc].
        inversion Hj as [| | | | | | |? ? ? ? ? l Hreq Hpr Had| | |]; subst. inversion Hd; subst. apply rd_dict.
        intros n j' Hin. eapply (mention_read (TDict k t)); [exact Hv|reflexivity|exists fuel; eassumption|exact Hc|exact Hrd|constructor|eauto|eauto].
      - apply returns_body in Hr as [fuel He]. apply named_reads; auto.
        eapply (proj1 (proj2 (code_complete E calls cx_end Hun Hret known fuel))); eauto.
    Qed.

    Theorem mention_readable c cx0 r cx1 j : In c calls -> p_variants (mc_params c) = None ->
      (p_nullable (mc_params c) = Some true -> nullish (mc_ty c)) ->
      supported_inside pe pp D False (mc_ty c) -> exact_inside (mc_ty c) -> derived_inside pe pp uni D ev E (mc_ty c) ->
      mention_returns E (mc_ty c) (mc_inline c) (mc_params c) cx0 r cx1 ->
      distinct_names j -> valid S r j -> reads (mc_ty c) j.
    Proof.
      intros Hin Hp Hn Hs Hx Hdv Hm Hd Hj.
      assert (Hv : visited E roots (SMention (mc_ty c) (mc_inline c))) by (apply vis_root; unfold call_sites; apply in_map_iff; exists c; auto).
      assert (Hc : complete (mc_ty c)) by (apply accepted_read; eexists; split; [exact Hv|reflexivity]).
      destruct (mention_complete E calls cx_end Hun Hret known _ _ _ _ _ _ _ Hv Hp Hm Hc Hd Hj) as [[Hq ->]|Hq].
      - now apply nullish_reads, Hn.
      - apply Hq. split; [split|]; auto.
    Qed.
  End Run.
End Facts.
