(** Sources whose alternatives are told apart have exclusive code. *)
From Verif Require Import Attr AttrSpec AttrFacts Ast AstFacts Derive DeriveSpec Schema SchemaSpec SchemaFacts Gen GenSpec
  GenFacts GenFacts2 GenFacts3 GenFacts4 GenFacts5 DeriveFacts DeriveFacts2 DeriveFacts3 DeriveFacts4 DeriveFacts5 SoundSpec FitsSpec SoundFacts SoundFacts2 SoundFacts3
  TidySpec TidyFacts TidyFacts2 StrictSpec StrictFacts StrictFacts2 StrictFacts3.
From Coq Require Import Arith Lia.

Section Facts.
  Variable pe pp : str -> bool.
  Variable uni : N -> bool.
  Variable D : tid -> derive_input ty.
  Variable ev : str -> str.
  Variable E : env.
  Variable bw : Prop.
  Notation derive := (derive pe pp uni ev).
  Notation has_kind := (has_kind pe pp D).
  Notation may_be_null := (may_be_null pe pp D).
  Notation derived_from := (derived_from pe pp uni D ev E).
  Definition okr (c : rcode) : Prop := forall s, In s (sites_r c) -> derived_from (site_ty s).
  Definition okm (c : mcode) : Prop := forall s, In s (sites_m c) -> derived_from (site_ty s).

  Lemma reference_excl p (g : field ty) b c : field_model_reference p g b = Some c -> excl_r bw E c.
  Proof.
    unfold field_model_reference. destruct (fa_explicit (f_attrs g)) as [[]|]; cbn; intros [= <-]; exact I.
  Qed.
  Lemma field_shape r j f g p b c k : field_parsed pe pp r j f g -> field_kind pe pp D f k -> field_model_reference p g b = Some c -> okr c ->
    (p_nullable p = Some true -> said pe pp PField (fs_attrs f) SNullable) -> code_shape E c k (field_null pe pp D f).
  Proof.
    intros Hg [Hno Hk] Hc Hok Hp. unfold field_model_reference in Hc.
    destruct (fa_explicit (f_attrs g)) as [t|] eqn:Et; [destruct Hno; exists t; now apply (fp_explicit _ _ _ _ _ _ Hg)|].
    injection Hc as <-. rewrite (fp_ty _ _ _ _ _ _ Hg) in *. split; [|right; auto].
    intros cx m cx' H. destruct (kind_shaped _ _ _ _ _ _ _ _ Hk (Hok (SMention (fs_ty f) b) (or_introl eq_refl)) _ _ _ H) as (H1 & b0 & H2 & H3).
    split; [exact H1|]. exists b0. split; [exact H2|]. left. auto.
  Qed.
  Notation names_in := names_in.
  Notation always_in := (always_in pe pp).
  Lemma field_membered r j f g p b c l : field_parsed pe pp r j f g -> field_members pe pp D f l -> field_model_reference p g b = Some c -> okr c ->
    (p_nullable p = Some true -> said pe pp PField (fs_attrs f) SNullable) -> code_members E c (names_in l) (always_in l) (field_null pe pp D f).
  Proof.
    intros Hg [Hno Hk] Hc Hok Hp. unfold field_model_reference in Hc.
    destruct (fa_explicit (f_attrs g)) as [t|] eqn:Et; [destruct Hno; exists t; now apply (fp_explicit _ _ _ _ _ _ Hg)|].
    injection Hc as <-. rewrite (fp_ty _ _ _ _ _ _ Hg) in *. split; [|right; auto].
    intros cx m cx' H. destruct (members_membered _ _ _ _ _ _ _ _ Hk (Hok (SMention (fs_ty f) b) (or_introl eq_refl)) _ _ _ H) as (o & b0 & H1 & H2 & H3 & H4 & H5 & H6).
    exists o, b0. do 5 (split; [assumption|]). left. auto.
  Qed.
  Definition field_code (f : field_syn ty) (c : rcode) : Prop :=
    okr c /\ excl_r bw E c /\ (forall k, field_kind pe pp D f k -> code_shape E c k (field_null pe pp D f)) /\
    forall l, field_members pe pp D f l -> code_members E c (names_in l) (always_in l) (field_null pe pp D f).
  Lemma members_codes c1 c2 l1 l2 n1 n2 : bw -> members_apart pe pp l1 l2 -> code_members E c1 (names_in l1) (always_in l1) n1 ->
    code_members E c2 (names_in l2) (always_in l2) n2 -> ~ (n1 /\ n2) -> codes_apart bw E c1 c2.
  Proof.
    intros Hw [(k1 & f1 & Hi1 & Ho1 & Hn1) (k2 & f2 & Hi2 & Ho2 & Hn2)] H1 H2 Hn.
    eapply (co_members bw E c1 c2 _ _ _ _ n1 n2 k1 k2 Hw H1 H2); [exists f1; now split|exact Hn1|exists f2; now split|exact Hn2|exact Hn].
  Qed.
  Lemma field_codes r i fs gs inl l : fields_parsed pe pp r i fs gs ->
    try_map (fun f => field_model_reference (params_of_field ev (f_attrs f)) f (inl f)) gs = Some l ->
    (forall c, In c l -> okr c) -> Forall2 field_code fs l.
  Proof.
    intros Hp Ht. apply try_map_Forall2 in Ht. revert l Ht. induction Hp as [i|i f g fs gs Hg Hp IH]; intros l Ht Hok; inversion Ht as [|? c ? l' Hc Hl]; subst; constructor.
    - split; [apply Hok; now left|]. split; [eapply reference_excl; eauto|]. split.
      + intros k Hk. eapply field_shape; eauto; [apply Hok; now left|]. eapply params_null; eauto.
      + intros m Hm. eapply field_membered; eauto; [apply Hok; now left|]. eapply params_null; eauto.
    - apply IH; [exact Hl|]. intros c' Hc'. apply Hok. now right.
  Qed.
  Lemma fields_codes f1 f2 c1 c2 : fields_apart pe pp D bw f1 f2 -> field_code f1 c1 -> field_code f2 c2 -> codes_apart bw E c1 c2.
  Proof.
    intros [[(k1 & k2 & H1 & H2 & Hk)|(Hw & l1 & l2 & H1 & H2 & Hl)] Hn] (_ & _ & Hs1 & Hm1) (_ & _ & Hs2 & Hm2).
    - eapply co_kind; [exact (Hs1 _ H1)|exact (Hs2 _ H2)|exact Hk|exact Hn].
    - exact (members_codes _ _ _ _ _ _ Hw Hl (Hm1 _ H1) (Hm2 _ H2) Hn).
  Qed.
  Lemma codes_excl fs l : Forall2 field_code fs l -> forall c, In c l -> excl_r bw E c.
  Proof. intros H c Hc. destruct (Forall2_In_r _ _ _ _ H Hc) as (f & _ & (_ & He & _)). exact He. Qed.
  Lemma tuple_excl r fs gs inl t : fields_parsed pe pp r 0 fs gs -> ForallOrdPairs (fields_apart pe pp D bw) fs ->
    tuple_type_description ev gs inl = Some t -> (forall s, In s (sites_t t) -> derived_from (site_ty s)) -> excl_t bw E t.
  Proof.
    intros Hp Ha. unfold tuple_type_description. destruct (try_map _ gs) as [l|] eqn:Et; [|discriminate]. intros [= <-] Hok. cbn in Hok.
    assert (Hf : Forall2 field_code fs l).
    { eapply field_codes; eauto. intros c Hc s Hs. apply Hok. apply in_flat_map. eauto. }
    cbn. split.
    - eapply pairs_Forall2; [|exact Hf|exact Ha]. intros. eapply fields_codes; eauto.
    - apply all_excl. eapply codes_excl; eauto.
  Qed.
  Lemma object_excl gs inl t : object_type_description ev gs inl = Some t -> excl_t bw E t.
  Proof.
    unfold object_type_description. destruct (try_map _ _) as [l|] eqn:Et; [|discriminate]. intros [= <-]. cbn.
    apply try_map_Forall2 in Et. apply all_excl_stmts. intros s Hs. destruct (Forall2_In_r _ _ _ _ Et Hs) as (g & _ & Hg).
    destruct (field_model_reference _ g _) as [c|] eqn:Ec; [|discriminate]. injection Hg as <-. cbn. eapply reference_excl; eauto.
  Qed.
  Lemma object_kind gs inl t : object_type_description ev gs inl = Some t -> tkind t = KObject.
  Proof. unfold object_type_description. destruct (try_map _ _); [|discriminate]. now intros [= <-]. Qed.
  Lemma tuple_kind gs inl t : tuple_type_description ev gs inl = Some t -> tkind t = KArray_.
  Proof. unfold tuple_type_description. destruct (try_map _ _); [|discriminate]. now intros [= <-]. Qed.

  (** ** Variants *)
  Section Variant.
    Variables (r : rename_rule) (v : variant_syn ty) (x : variant ty).
    Hypothesis Hw : variant_parsed pe pp uni r v x.
    Definition content_code (rep : representation) (c : rcode) : Prop :=
      excl_r bw E c /\ (forall k, content_kind pe pp D rep v k -> code_shape E c k (content_null pe pp D v)) /\
      forall l, content_members pe pp D rep v l -> code_members E c (names_in l) (always_in l) (content_null pe pp D v).
    Lemma newtype_code rep c : v_style x = StNewType -> newtype_variant ev x = Some c -> okr c -> content_code rep c.
    Proof.
      intros Hs Hc Hok. unfold newtype_variant in Hc. pose proof (vp_fields _ _ _ _ _ _ Hw) as Hp. rewrite (vp_style _ _ _ _ _ _ Hw) in Hs.
      destruct (vs_fields v) as [fs|fs|] eqn:Ef; cbn in Hs; try discriminate. destruct (Nat.eqb_spec (length fs) 1) as [Hl|]; [|discriminate].
      destruct fs as [|f [|]]; try discriminate. cbn [fields_list] in Hp. destruct (v_fields x) as [|g gs]; inversion Hp as [|? ? ? ? ? Hg Hp']; subst.
      split; [eapply reference_excl; exact Hc|]. split.
      - intros k Hk. unfold content_kind in Hk. rewrite Ef in Hk.
        apply code_shape_weaken with (field_null pe pp D f); [intros Hx; now exists f|].
        eapply field_shape; eauto. unfold params_or. cbn [p_nullable]. eapply params_null; eauto.
      - intros l Hm. unfold content_members in Hm. rewrite Ef in Hm.
        apply code_members_weaken with (field_null pe pp D f); [intros Hx; now exists f|].
        eapply field_membered; eauto. unfold params_or. cbn [p_nullable]. eapply params_null; eauto.
    Qed.
    Lemma object_code rep b c : b = false -> (forall t ct, rep <> RepAdjacent t ct) -> v_style x = StStruct ->
      inline_reference (object_model ev b (va_description (v_attrs x)) (v_fields x) (inline_in x)) = Some c -> content_code rep c.
    Proof.
      intros -> Hr Hs. destruct (style_struct _ _ _ _ _ _ Hw Hs) as (fs & Hf). unfold inline_reference, object_model.
      destruct (object_type_description _ _ _) as [t|] eqn:Et; [|discriminate]. intros [= <-]. split; [exact (object_excl _ _ _ Et)|].
      split.
      - intros k. unfold content_kind. rewrite Hf. intros ->. cbn. rewrite (object_kind _ _ _ Et).
        split; [destruct rep; try reflexivity; exfalso; eapply Hr; reflexivity|discriminate].
      - intros l. unfold content_members. rewrite Hf. intros (_ & rule & Hru & Hl). pose proof (vp_fields _ _ _ _ _ _ Hw) as Hp. rewrite Hf in Hp. cbn [fields_list] in Hp.
        assert (rule = va_rename_rule (v_attrs x)) as -> by (eapply has_rule_unique; [eapply vp_acc; exact Hw|exact Hru|exact (vp_rule _ _ _ _ _ _ Hw)]).
        destruct (object_members _ _ _ _ _ _ _ _ _ Hp Et Hl) as (stmts & -> & H1 & H2). cbn. split; [exact H1|]. split; [exact H2|discriminate].
    Qed.
    Lemma tuple_code rep b c : b = false -> variant_apart pe pp D bw rep v -> v_style x = StTuple \/ v_style x = StStruct /\ (exists t ct, rep = RepAdjacent t ct) ->
      inline_reference (tuple_model ev b (va_description (v_attrs x)) (v_fields x) (inline_in x)) = Some c -> okr c -> content_code rep c.
    Proof.
      intros -> Ha Hs. unfold inline_reference, tuple_model. pose proof (vp_fields _ _ _ _ _ _ Hw) as Hp.
      destruct (tuple_type_description _ _ _) as [t|] eqn:Et; [|discriminate]. intros [= <-] Hok. unfold variant_apart in Ha.
      assert (Hnm : forall l, ~ content_members pe pp D rep v l).
      { intros l Hl. unfold content_members in Hl. destruct Hs as [Hs|[Hs (tg & ct & ->)]].
        - destruct (style_tuple _ _ _ _ _ _ Hw Hs) as (fs & Hf & Hlen). rewrite Hf in Hl. now destruct fs as [|f [|f' fs]].
        - destruct (style_struct _ _ _ _ _ _ Hw Hs) as (fs & Hf). rewrite Hf in Hl. destruct Hl as [Hl _]. now destruct (Hl tg ct). }
      assert (Hx : ForallOrdPairs (fields_apart pe pp D bw) (fields_list (vs_fields v)) /\ forall k, content_kind pe pp D rep v k -> k = KArray_).
      { unfold content_kind. destruct Hs as [Hs|[Hs (tg & ct & ->)]].
        - destruct (style_tuple _ _ _ _ _ _ Hw Hs) as (fs & Hf & Hl). rewrite Hf in *. cbn [fields_list]. destruct Ha as [Ha|Ha]; [contradiction|].
          split; [exact Ha|]. intros k. destruct fs as [|f [|f' fs]]; auto. now destruct Hl.
        - destruct (style_struct _ _ _ _ _ _ Hw Hs) as (fs & Hf). rewrite Hf in *. cbn [fields_list]. split; [exact Ha|auto]. }
      destruct Hx as [Hx Hk]. split.
      - eapply (tuple_excl _ _ _ _ _ Hp Hx Et). exact Hok.
      - split.
        + intros k Hc. apply Hk in Hc. subst k. cbn. rewrite (tuple_kind _ _ _ Et). split; [reflexivity|discriminate].
        + intros l Hl. exfalso. exact (Hnm _ Hl).
    Qed.
    Lemma external_code c : variant_apart pe pp D bw RepExternal v -> external_variant ev x = Some c -> okr c -> content_code RepExternal c.
    Proof.
      intros Ha Hc Hok. unfold external_variant in Hc. destruct (v_style x) eqn:Es.
      - eapply object_code; eauto; discriminate.
      - eapply tuple_code; eauto.
      - eapply newtype_code; eauto.
      - injection Hc as <-. split; [exact I|]. pose proof (style_unit _ _ _ _ _ _ Hw Es) as Hu. split.
        + intros k. unfold content_kind. rewrite Hu. intros ->. cbn. split; [reflexivity|discriminate].
        + intros l. unfold content_members. rewrite Hu. intros [].
    Qed.
    Lemma untagged_code c : variant_apart pe pp D bw RepUntagged v -> untagged_variant ev x = Some c -> okr c -> content_code RepUntagged c.
    Proof.
      intros Ha Hc Hok. unfold untagged_variant in Hc. destruct (v_style x) eqn:Es; try discriminate.
      - eapply object_code; eauto; discriminate.
      - eapply newtype_code; eauto.
    Qed.
    Lemma adjacent_code tag ct c : variant_apart pe pp D bw (RepAdjacent tag ct) v -> adjacent_variant ev x = Some c -> okr c -> content_code (RepAdjacent tag ct) c.
    Proof.
      intros Ha Hc Hok. unfold adjacent_variant in Hc. destruct (v_style x) eqn:Es; try discriminate.
      - eapply tuple_code; eauto.
      - eapply tuple_code; eauto.
      - eapply newtype_code; eauto.
    Qed.
    Lemma named_free fs gs inl t pos attrs tag : has_rule pe pp pos attrs r -> fields_parsed pe pp r 0 fs gs -> no_field_named pe pp tag pos attrs fs ->
      object_type_description ev gs inl = Some t -> exists stmts, t = TcObject stmts /\ ~ In tag (map (fun s => fst (fst s)) stmts).
    Proof.
      intros Hr Hp Hn Ht. destruct (fields_kept _ _ _ _ _ _ Hp) as (l & Hl & _). edestruct object_names as (stmts & -> & He); [exact Hp|exact Ht|exact Hl|].
      exists stmts. split; [reflexivity|]. rewrite He. exact (Hn _ _ Hr Hl).
    Qed.
  End Variant.
  Lemma object_without_returned tag t : object_without pe pp D tag t -> derived_from t -> forall cx m cx', schema_returns E t cx m cx' -> without_property tag m.
  Proof.
    induction 1 as [w t H IH|k t|id fs Hd Hn]; intros Hs cx m cx' Hret.
    - apply (proj1 (wrap_returns _ _ _ _ _ _)) in Hret. refine (IH _ _ _ _ Hret). eapply derived_step; [exact Hs|]. exists (SCall t). split; [now left|reflexivity].
    - apply returns_step in Hret as [fuel Hret]. cbn in Hret. binds. eexists. split; reflexivity.
    - apply derived_self in Hs. destruct (struct_body pe pp uni D ev E _ _ Hd Hs) as (rule & gs & t & d & b & Hr & Hf & Hacc & Ho & Hb).
      destruct (named_free _ _ _ _ _ _ _ _ Hr Hf Hn Ho) as (stmts & -> & Hni).
      apply returns_body in Hret as [fuel Hret]. rewrite Hb in Hret. eapply object_without_tag; eauto.
  Qed.
  Lemma object_without_kind tag t : object_without pe pp D tag t -> has_kind t KObject.
  Proof. induction 1; econstructor; eauto. Qed.
  Lemma internal_code ct tag n v w r c : variant_parsed pe pp uni r v w -> content_without pe pp D tag v -> internal_variant ev ct tag w = Some c -> okr c ->
    n = variant_name w ->
    exists m, c = RcTagged m tag n (c_ident ct) (ca_nullable (c_attrs ct)) /\ tag_free E m tag /\ never_null E m /\ excl_m bw E m.
  Proof.
    intros Hw Hc Hi Hok ->. unfold internal_variant in Hi. destruct (internal_model ev w) as [m|] eqn:Em; [|discriminate]. injection Hi as <-.
    exists m. split; [reflexivity|]. unfold content_without in Hc. unfold internal_model in Em. pose proof (vp_fields _ _ _ _ _ _ Hw) as Hp.
    destruct (v_style w) eqn:Es; try discriminate.
    - destruct (style_struct _ _ _ _ _ _ Hw Es) as (fs & Hf). rewrite Hf in *. cbn [fields_list] in Hp. unfold object_model in Em.
      destruct (object_type_description _ _ _) as [t|] eqn:Et; [|discriminate]. injection Em as <-.
      destruct (named_free _ _ _ _ _ _ _ _ (vp_rule _ _ _ _ _ _ Hw) Hp Hc Et) as (stmts & -> & Hni). split; [exact Hni|]. split; [reflexivity|]. exact (object_excl _ _ _ Et).
    - pose proof (vp_style _ _ _ _ _ _ Hw) as Hst. rewrite Es in Hst. destruct (vs_fields v) as [fs|fs|] eqn:Ef; cbn in Hst; try discriminate.
      destruct (Nat.eqb_spec (length fs) 1) as [Hl|]; [|discriminate]. destruct fs as [|f [|]]; try discriminate. cbn [fields_list] in Hp.
      destruct (v_fields w) as [|g gs]; inversion Hp as [|? ? ? ? ? Hg Hp']; subst. injection Em as <-. rewrite (fp_ty _ _ _ _ _ _ Hg) in *.
      destruct Hc as [Hc Hn]. assert (Hder : derived_from (fs_ty f)) by (apply (Hok (SCall (fs_ty f))); now left).
      split; [intros cx m cx' H; exact (object_without_returned _ _ Hc Hder _ _ _ H)|]. split; [|exact I]. split.
      + unfold params_or. cbn [p_nullable]. intros Hx. apply Hn. right. eapply params_null; eauto.
      + intros cx m cx' H. destruct (kind_shaped _ _ _ _ _ _ _ _ (object_without_kind _ _ Hc) Hder _ _ _ H) as (_ & b & Hb & Hb').
        rewrite Hb. destruct b; [|reflexivity]. destruct Hn. left. auto.
    - cbn in Em. injection Em as <-. split; [intros []|]. split; [reflexivity|exact I].
  Qed.

  (** ** Enums *)
  Lemma contents_codes rep l ws rule (f : variant ty -> option rcode) cs : Forall2 (kept_variant pe pp uni rule) l ws ->
    (forall n v w c, In (n, v) l -> variant_parsed pe pp uni rule v w -> f w = Some c -> okr c -> content_code v rep c) ->
    try_map f ws = Some cs -> (forall c, In c cs -> okr c) ->
    Forall2 (fun v c => content_code v rep c) (map snd l) cs.
  Proof.
    intros Hk Hf Ht. apply try_map_Forall2 in Ht. revert cs Ht. induction Hk as [|[n v] w l ws [Hp _] Hk IH]; intros cs Ht Hok;
      inversion Ht as [|? c ? cs' Hc Hcs]; subst; constructor.
    - apply (Hf n v w); [now left|exact Hp|exact Hc|apply Hok; now left].
    - apply IH; [intros n0 v0 w0 c0 Hi0; apply (Hf n0 v0 w0 c0); now right|exact Hcs|intros c0 Hc0; apply Hok; now right].
  Qed.
  Lemma contents_excl rep l cs : Forall2 (fun v c => content_code v rep c) l cs -> ForallOrdPairs (contents_apart pe pp D bw rep) l ->
    excl_d bw E (DcOneOf cs).
  Proof.
    intros Hf Ha. split.
    - eapply pairs_Forall2; [|exact Hf|exact Ha].
      intros v1 v2 c1 c2 [[(k1 & k2 & H1 & H2 & Hk)|(Hw & l1 & l2 & H1 & H2 & Hl)] Hn] (_ & Hs1 & Hm1) (_ & Hs2 & Hm2).
      + eapply co_kind; [exact (Hs1 _ H1)|exact (Hs2 _ H2)|exact Hk|exact Hn].
      + exact (members_codes _ _ _ _ _ _ Hw Hl (Hm1 _ H1) (Hm2 _ H2) Hn).
    - apply all_excl. intros c Hc. destruct (Forall2_In_r _ _ _ _ Hf Hc) as (v & _ & [He _]). exact He.
  Qed.
  Lemma pairs_short {A} (R : A -> A -> Prop) l : length l <= 1 -> ForallOrdPairs R l.
  Proof. destruct l as [|a [|b l]]; cbn; intros H; [constructor|repeat constructor|lia]. Qed.
  Theorem derive_excl i td : derive i = DOk td -> input_apart pe pp uni D bw i -> okm (td_body td) -> excl_m bw E (td_body td).
  Proof.
    intros Hd Hi Hok. unfold input_apart in Hi. destruct (di_data i) as [vs|[fs|fs|]|] eqn:Ed.
    - destruct Hi as [Hint Hpay]. destruct (enum_code_of _ _ _ _ _ _ _ Hd Ed) as (c & ws & l & Hec).
      destruct (has_payload_dec vs) as [Hp|Hu].
      2:{ assert (Hnp : ~ has_payload vs) by (intros (w & Hw & Hn); auto). rewrite (ec_units _ _ _ _ _ _ _ _ _ _ Hec Hnp).
          unfold serialize_newtype_enum. pose proof (cp_repr _ _ _ _ _ (ec_container _ _ _ _ _ _ _ _ _ _ Hec)) as Hrepr. rewrite Ed in Hrepr. cbn [shape] in Hrepr.
          unfold AttrSpec.flag_takes in Hrepr. destruct (ca_has_repr (c_attrs c)); [|exact I].
          assert (Hl : length (serialised ws) <= 1).
          { apply Nat.le_trans with (length ws); [unfold serialised; clear; induction ws as [|w ws IH]; cbn; [lia|destruct (negb _); cbn; lia]|].
            rewrite <- (Forall2_length _ _ _ (ec_all _ _ _ _ _ _ _ _ _ _ Hec)). apply Hint. split; [now apply Hrepr|exact Hu]. }
          cbn. split.
          - apply pairs_short. destruct (serialised ws) as [|w [|w' l']]; cbn in *; try lia. destruct (v_discriminant w); cbn; lia.
          - apply all_excl. intros r Hr. apply in_flat_map in Hr as (w & _ & Hr). destruct (v_discriminant w); [|destruct Hr]. destruct Hr as [<-|[]]. exact I. }
      pose proof (ec_payload _ _ _ _ _ _ _ _ _ _ Hec Hp) as Hb. destruct (Hpay Hp _ _ (ec_rep _ _ _ _ _ _ _ _ _ _ Hec) (ec_variants _ _ _ _ _ _ _ _ _ _ Hec)) as [Hv Halt].
      pose proof (ec_kept _ _ _ _ _ _ _ _ _ _ Hec) as Hk.
      destruct (ca_tag_type (c_attrs c)) as [|tag|tag content|]; cbn [rep_of] in *.
      + unfold serialize_external_tagged_enum in Hb. destruct (try_map _ _) as [cs|] eqn:Et; [|discriminate]. injection Hb as Hb; rewrite <- Hb in Hok |- *; clear Hb. cbn [okm] in Hok.
        cbn [excl_m excl_d excl_t excl_r]. apply (contents_excl RepExternal (map snd l)); [|exact Halt]. eapply contents_codes; [exact Hk| |exact Et|].
        * intros n v w c0 Hin Hw Hc0 Hokc. eapply external_code; eauto.
        * intros c0 Hc0 s Hs. apply Hok. cbn. apply in_flat_map. eauto.
      + unfold serialize_internal_tagged_enum in Hb. destruct (try_map _ _) as [cs|] eqn:Et; [|discriminate]. injection Hb as Hb; rewrite <- Hb in Hok |- *; clear Hb.
        destruct Halt as [Hnd Hcw]. cbn [excl_m excl_d].
        assert (Hf : Forall2 (fun nv c0 => exists m, c0 = RcTagged m tag (fst nv) (c_ident c) (ca_nullable (c_attrs c)) /\ tag_free E m tag /\ never_null E m /\ excl_m bw E m) l cs).
        { assert (Hokc : forall c0, In c0 cs -> okr c0) by (intros c0 Hc0 s Hs; apply Hok; cbn; apply in_flat_map; eauto).
          apply try_map_Forall2 in Et. clear - Hk Et Hcw Hokc. generalize dependent (serialised ws). clear ws. intros ws Et Hk. revert cs Et Hokc. induction Hk as [|[n v] w l ws [Hpv Hn] Hk IH]; intros cs Et Hokc;
            inversion Et as [|? c0 ? cs' Hc0 Hcs]; subst; constructor.
          - cbn [fst snd] in *. eapply internal_code; eauto; [eapply Hcw; now left|apply Hokc; now left].
          - apply IH; auto; [intros; eapply Hcw; right; eauto|]. intros. apply Hokc. now right. }
        split.
        * assert (Hpn : ForallOrdPairs (fun (nv1 nv2 : str * variant_syn ty) => fst nv1 <> fst nv2) l).
          { clear - Hnd. induction l as [|[n v] l IH]; constructor; cbn in Hnd; inversion Hnd; subst; auto. apply Forall_forall. intros [n' v'] Hi Hx. cbn in Hx. subst n'.
            match goal with H : ~ In n _ |- _ => apply H end. apply in_map_iff. now exists (n, v'). }
          eapply pairs_Forall2; [|exact Hf|exact Hpn]. intros nv1 nv2 c1 c2 Hne (m1 & -> & Hf1 & Hn1 & _) (m2 & -> & Hf2 & Hn2 & _).
          eapply co_tag; [reflexivity|reflexivity|exact Hne|assumption..].
        * apply all_excl. intros c0 Hc0. destruct (Forall2_In_r _ _ _ _ Hf Hc0) as (nv & _ & (m & -> & _ & _ & He)). exact He.
      + unfold serialize_adjacent_tagged_enum in Hb. destruct (try_map _ _) as [cs|] eqn:Et; [|discriminate]. injection Hb as Hb; rewrite <- Hb in Hok |- *; clear Hb.
        cbn [excl_m excl_d excl_t excl_r fold_right fst snd names_model]. split; [exact I|]. split; [|exact I].
        apply (contents_excl (RepAdjacent tag content) (map snd l)); [|exact Halt]. eapply contents_codes; [exact Hk| |exact Et|].
        * intros n v w c0 Hin Hw Hc0 Hokc. eapply adjacent_code; eauto.
        * intros c0 Hc0 s Hs. apply Hok. cbn. rewrite app_nil_r. apply in_flat_map. eauto.
      + unfold serialize_untagged_enum in Hb. destruct (try_map _ _) as [cs|] eqn:Et; [|discriminate]. injection Hb as Hb; rewrite <- Hb in Hok |- *; clear Hb.
        cbn [excl_m]. apply (contents_excl RepUntagged (map snd l)); [|exact Halt]. eapply contents_codes; [exact Hk| |exact Et|].
        * intros n v w c0 Hin Hw Hc0 Hokc. eapply untagged_code; eauto.
        * intros c0 Hc0 s Hs. apply Hok. cbn. apply in_flat_map. eauto.
    - destruct (derive_inv _ _ _ _ _ _ Hd) as (c & Hc & Hb & _). pose proof (cp_data _ _ _ _ _ Hc) as Hdata. rewrite Ed in Hdata.
      inversion Hdata as [|f gs Hf E1 E2]; subst f. unfold serialize_body in Hb. rewrite <- E2 in Hb. cbn [style_of] in Hb. unfold serialize_struct in Hb.
      destruct (object_type_description _ _ _) as [t|] eqn:Et; [|discriminate]. injection Hb as Hb; rewrite <- Hb in Hok |- *; clear Hb. exact (object_excl _ _ _ Et).
    - destruct (derive_inv _ _ _ _ _ _ Hd) as (c & Hc & Hb & _). pose proof (cp_data _ _ _ _ _ Hc) as Hdata. rewrite Ed in Hdata.
      inversion Hdata as [|f gs Hf E1 E2]; subst f. unfold serialize_body in Hb. rewrite <- E2 in Hb. cbn [style_of fields_list] in *.
      destruct (Nat.eqb_spec (length fs) 1) as [Hl|Hl].
      + destruct gs as [|g gs]; [discriminate|]. unfold serialize_newtype_struct in Hb. destruct (ca_explicit (c_attrs c)) as [[]|]; cbn in Hb; try discriminate; injection Hb as Hb; rewrite <- Hb in Hok |- *; clear Hb; exact I.
      + destruct Hi as [Hi|Hi]; [contradiction|]. unfold serialize_tuple_struct in Hb. destruct (tuple_type_description _ _ _) as [t|] eqn:Et; [|discriminate].
        injection Hb as Hb; rewrite <- Hb in Hok |- *; clear Hb. exact (tuple_excl _ _ _ _ _ Hf Hi Et Hok).
    - destruct (derive_inv _ _ _ _ _ _ Hd) as (c & Hc & Hb & _). pose proof (cp_data _ _ _ _ _ Hc) as Hdata. rewrite Ed in Hdata.
      inversion Hdata as [|f gs Hf E1 E2]; subst f. unfold serialize_body in Hb. rewrite <- E2 in Hb. discriminate.
    - destruct (derive_inv _ _ _ _ _ _ Hd) as (c & Hc & Hb & _). pose proof (cp_data _ _ _ _ _ Hc) as Hdata. rewrite Ed in Hdata. inversion Hdata.
  Qed.
  Theorem told_apart_excl t t' : told_apart pe pp uni D bw ev E t -> reached E t t' -> excl_type bw E t'.
  Proof.
    intros [Hd Ht] Hr.
    assert (Hall : forall t'', reached E t t'' -> derived_from t'').
    { intros t'' Hr'' id Hi. apply Hd. destruct Hr'' as [->|Hr'']; [destruct Hi as [Hi|Hi]; auto|]. right. destruct Hi as [<-|Hi]; [exact Hr''|].
      clear -Hr'' Hi. induction Hr'' as [t1 t2 H|t1 t2 t3 H Hc IH]; [now apply cont_more with t2|apply cont_more with t2; auto]. }
    destruct t' as [p|wr t'|t'|ts|k t'|k t'|id]; try exact I.
    - cbn. assert (Ha : ForallOrdPairs (types_apart pe pp D bw) ts) by (apply Ht; destruct Hr as [<-|Hr]; auto).
      assert (Hm : forall x, In x ts -> derived_from x) by (intros x Hx; apply Hall; apply (reached_closed E t (TTuple ts) (SMention x false) Hr); cbn; apply in_map_iff; eauto).
      clear -Ha Hm. assert (Hs : forall x k, In x ts -> has_kind x k -> code_shape E (RcMention x false params_default) k (may_be_null x)).
      { intros x k Hx Hk. split; [exact (kind_shaped _ _ _ _ _ _ _ _ Hk (Hm _ Hx))|discriminate]. }
      assert (Hs' : forall x l, In x ts -> written_fields pe pp D x l -> code_members E (RcMention x false params_default) (names_in l) (always_in l) (may_be_null x)).
      { intros x k Hx Hk. split; [exact (members_membered _ _ _ _ _ _ _ _ Hk (Hm _ Hx))|discriminate]. }
      induction Ha as [|x ts Hx Ha IH]; constructor.
      + apply Forall_forall. intros y Hy. rewrite Forall_forall in Hx. destruct (Hx y Hy) as [[(k1 & k2 & H1 & H2 & Hk)|(Hw & l1 & l2 & H1 & H2 & Hl)] Hn].
        * eapply co_kind; [apply Hs; [now left|exact H1]|apply Hs; [now right|exact H2]|exact Hk|exact Hn].
        * eapply members_codes; [exact Hw|exact Hl|apply Hs'; [now left|exact H1]|apply Hs'; [now right|exact H2]|exact Hn].
      + apply IH; [intros; apply Hm; now right|intros; apply Hs; auto; now right|intros; apply Hs'; auto; now right].
    - destruct (Hd id) as [H1 H2]; [destruct Hr as [<-|Hr]; auto|]. apply (derive_excl _ _ H1 H2).
      intros s Hs. apply Hall. exact (reached_closed E t (TNamed id) s Hr Hs).
  Qed.

  Lemma visited_reached calls t : reachable E calls t -> exists c, In c calls /\ reached E (mc_ty c) t.
  Proof.
    intros (s & Hv & <-). induction Hv as [s Hi|s s' Hv IH Hi].
    - unfold call_sites in Hi. apply in_map_iff in Hi as (c & <- & Hc). exists c. split; [exact Hc|now left].
    - destruct IH as (c & Hc & Hr). exists c. split; [exact Hc|]. now apply reached_closed with (site_ty s).
  Qed.
End Facts.

Section Source.
  Variable pe pp : str -> bool.
  Variable uni : N -> bool.
  Variable D : tid -> derive_input ty.
  Variable ev : str -> str.
  Variable E : env.
  Theorem readings_agree_source calls cx_end : names_unambiguous E (call_sites calls) -> mentions_return E calls cx_new cx_end ->
    (forall c, In c calls -> told_apart pe pp uni D False ev E (mc_ty c)) ->
    forall c cx0 r cx1 j, In c calls -> mention_returns E (mc_ty c) (mc_inline c) (mc_params c) cx0 r cx1 ->
    (valid (cx_schemas cx_end) r j <-> accepts (cx_schemas cx_end) r j).
  Proof.
    intros Hun Hret Ht c cx0 r cx1 j Hc Hm. eapply mention_reads; eauto.
    intros t Hr. destruct (visited_reached _ _ _ Hr) as (c' & Hc' & Hr'). eapply told_apart_excl; eauto.
  Qed.
  Theorem accepted_source calls cx_end : names_unambiguous E (call_sites calls) -> mentions_return E calls cx_new cx_end ->
    (forall c, In c calls -> told_apart pe pp uni D True ev E (mc_ty c)) ->
    forall c cx0 r cx1 j, In c calls -> mention_returns E (mc_ty c) (mc_inline c) (mc_params c) cx0 r cx1 ->
    fits (cx_schemas cx_end) r j -> accepts (cx_schemas cx_end) r j.
  Proof.
    intros Hun Hret Ht c cx0 r cx1 j Hc Hm. eapply mention_accepted; eauto.
    intros t Hr. destruct (visited_reached _ _ _ Hr) as (c' & Hc' & Hr'). eapply told_apart_excl; eauto.
  Qed.
End Source.
