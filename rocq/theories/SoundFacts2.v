(** What serde writes is accepted by the generated schemas. *)
From Verif Require Import Attr AttrSpec AttrFacts Ast AstFacts Derive DeriveSpec Schema SchemaSpec SchemaFacts Gen GenSpec
  GenFacts GenFacts2 GenFacts3 GenFacts4 DeriveFacts DeriveFacts2 DeriveFacts5 SoundSpec SoundFacts.
From Coq Require Import Arith Lia ZArith.

Section By.
  Variable pe pp : str -> bool.
  Variable loose : Prop.
  Variable R : ty -> json -> Prop.
  (** the members that a flattened field of the type adds *)
  Variable F : ty -> list (str * json) -> Prop.
  Notation said := (said pe pp).

  Inductive fields_by : list (str * field_syn ty) -> list (str * json) -> Prop :=
  | fb_nil : fields_by [] []
  | fb_omit n f l ms : said PField (fs_attrs f) SSkipIf -> fields_by l ms -> fields_by ((n, f) :: l) ms
  | fb_emit n f l j ms : ~ said PField (fs_attrs f) SFlatten -> R (fs_ty f) j -> fields_by l ms -> fields_by ((n, f) :: l) ((n, j) :: ms)
  | fb_flatten n f l ms' ms : said PField (fs_attrs f) SFlatten -> F (fs_ty f) ms' -> fields_by l ms -> fields_by ((n, f) :: l) (ms' ++ ms).
  (** members of these fields, and perhaps others *)
  Definition fields_like (l : list (str * field_syn ty)) (ms : list (str * json)) : Prop :=
    (forall n j, In (n, j) ms -> (exists f, In (n, f) l /\ ~ said PField (fs_attrs f) SFlatten /\ R (fs_ty f) j) \/ loose /\ ~ In n (map fst l)) /\
    (forall n f, In (n, f) l -> ~ said PField (fs_attrs f) SSkipIf -> ~ said PField (fs_attrs f) SFlatten -> In n (keys ms)).
  Inductive unnamed_by : list (field_syn ty) -> list json -> Prop :=
  | ub_nil : unnamed_by [] []
  | ub_omit f fs l : field_skipped pe pp f \/ said PField (fs_attrs f) SSkipIf -> unnamed_by fs l -> unnamed_by (f :: fs) l
  | ub_emit f fs j l : ~ field_skipped pe pp f -> R (fs_ty f) j -> unnamed_by fs l -> unnamed_by (f :: fs) (j :: l).
  Inductive payload_by : variant_syn ty -> json -> Prop :=
  | pb_newtype v f j : vs_fields v = FUnnamed [f] -> R (fs_ty f) j -> payload_by v j
  | pb_tuple v fs l : vs_fields v = FUnnamed fs -> length fs <> 1 -> unnamed_by fs l -> payload_by v (JArr l)
  | pb_struct v fs rule l ms : vs_fields v = FNamed fs -> has_rule pe pp PVariant (vs_attrs v) rule ->
      serialised_fields pe pp rule 0 fs l -> fields_like l ms -> payload_by v (JObj ms).

  Lemma fields_by_src l ms n j : fields_by l ms -> In (n, j) ms ->
    (exists f, In (n, f) l /\ ~ said PField (fs_attrs f) SFlatten /\ R (fs_ty f) j) \/
    exists n' f ms', In (n', f) l /\ said PField (fs_attrs f) SFlatten /\ F (fs_ty f) ms' /\ In n (keys ms').
  Proof.
    assert (Hc : forall x l, ((exists f, In (n, f) l /\ ~ said PField (fs_attrs f) SFlatten /\ R (fs_ty f) j) \/
        exists n' f ms', In (n', f) l /\ said PField (fs_attrs f) SFlatten /\ F (fs_ty f) ms' /\ In n (keys ms')) ->
      (exists f, In (n, f) (x :: l) /\ ~ said PField (fs_attrs f) SFlatten /\ R (fs_ty f) j) \/
        exists n' f ms', In (n', f) (x :: l) /\ said PField (fs_attrs f) SFlatten /\ F (fs_ty f) ms' /\ In n (keys ms')).
    { intros x l0 [(g & Hg & H)|(n' & g & ms' & Hg & H)]; [left; exists g|right; exists n', g, ms']; (split; [now right|exact H]). }
    induction 1 as [|n' f l ms Hs H IH|n' f l j' ms Hs Hr H IH|n' f l ms' ms Hs Hf H IH]; intros Hin.
    - destruct Hin.
    - auto.
    - destruct Hin as [[= <- <-]|Hin]; [left; exists f; split; [now left|auto]|auto].
    - apply in_app_iff in Hin as [Hin|Hin]; [|auto]. right. exists n', f, ms'. split; [now left|]. do 2 (split; [assumption|]).
      apply in_map_iff. exists (n, j). auto.
  Qed.
  Lemma fields_by_present l ms n f : fields_by l ms -> In (n, f) l -> ~ said PField (fs_attrs f) SSkipIf ->
    ~ said PField (fs_attrs f) SFlatten -> In n (keys ms).
  Proof.
    intros H Hin Hs Hn. induction H as [|n' g l ms Hg H IH|n' g l j' ms Hg Hr H IH|n' g l ms' ms Hg Hf H IH].
    - destruct Hin.
    - destruct Hin as [[= -> ->]|Hin]; [contradiction|auto].
    - destruct Hin as [[= -> ->]|Hin]; [now left|right; auto].
    - destruct Hin as [[= -> ->]|Hin]; [contradiction|]. unfold keys. rewrite map_app. apply in_app_iff. right. exact (IH Hin).
  Qed.
  (** the members of fields [l'], seen as those of fewer fields *)
  Lemma fields_by_like l l' ms : incl l l' -> (forall n f, In (n, f) l' -> In (n, f) l \/ loose /\ ~ In n (map fst l)) ->
    (forall n f ms' k, In (n, f) l' -> said PField (fs_attrs f) SFlatten -> F (fs_ty f) ms' -> In k (keys ms') -> loose /\ ~ In k (map fst l)) ->
    fields_by l' ms -> fields_like l ms.
  Proof.
    intros Hi Hn Hf H. split.
    - intros n j Hj. destruct (fields_by_src _ ms n j H Hj) as [(f & Hl & Hfl & Hr)|(n' & f & ms' & Hl & Hfl & Hms & Hk)].
      + destruct (Hn _ _ Hl) as [Hl'|Hl']; [left; eauto|now right].
      + right. eauto.
    - intros n f Hl Hs Hfl. eapply fields_by_present; eauto.
  Qed.
  Lemma fields_like_keys l ms n : fields_like l ms -> In n (keys ms) -> In n (map fst l) \/ loose.
  Proof.
    intros [H _] Hin. unfold keys in Hin. apply in_map_iff in Hin as ([k j] & <- & Hin).
    destruct (H _ _ Hin) as [(f & Hf & _)|[Hl _] ]; [left|now right]. apply in_map_iff. exists (k, f). auto.
  Qed.
  (** fewer fields *)
  Lemma fields_like_fewer l l' ms : incl l l' -> (forall n f, In (n, f) l' -> In (n, f) l \/ loose /\ ~ In n (map fst l)) ->
    fields_like l' ms -> fields_like l ms.
  Proof.
    intros Hi Hn [H1 H2]. split.
    - intros n j Hj. destruct (H1 n j Hj) as [(f & Hf & Hr)|[Hl Hno] ].
      + destruct (Hn n f Hf) as [Hf'|Hf']; [left; eauto|now right].
      + right. split; [exact Hl|]. intros Hin. apply Hno. apply in_map_iff in Hin as ([k f] & <- & Hin). apply in_map_iff. exists (k, f). auto.
    - intros n f Hf. now apply (H2 n f), Hi.
  Qed.
  Lemma unnamed_by_src fs l j : unnamed_by fs l -> In j l -> exists f, In f fs /\ ~ field_skipped pe pp f /\ R (fs_ty f) j.
  Proof.
    induction 1 as [|f fs l Hs H IH|f fs j' l Hs Hr H IH]; intros Hin.
    - destruct Hin.
    - destruct (IH Hin) as (g & Hg & Hj). exists g. split; [now right|auto].
    - destruct Hin as [<-|Hin]; [exists f; split; [now left|auto]|].
      destruct (IH Hin) as (g & Hg & Hj). exists g. split; [now right|auto].
  Qed.
End By.

Lemma described_plain pe pp (avoid : str -> Prop) l l' (loose' : Prop) D' :
  (forall n f, In (n, f) l -> (field_plain pe pp D' f \/ flattened_apart pe pp D' loose' l' f) /\ ~ avoid n) ->
  forall n f, In (n, f) l -> field_plain pe pp D' f \/ said pe pp PField (fs_attrs f) SFlatten /\
    (said pe pp PField (fs_attrs f) SSkipIf \/ said pe pp PField (fs_attrs f) SOptional).
Proof. intros H n f Hin. destruct (H n f Hin) as [[Hp|(_ & H1 & H2 & _)] _]; auto. Qed.
Lemma fields_like_impl pe pp loose (R1 R2 : ty -> json -> Prop) l ms :
  (forall n f j, In (n, f) l -> R1 (fs_ty f) j -> R2 (fs_ty f) j) -> fields_like pe pp loose R1 l ms -> fields_like pe pp loose R2 l ms.
Proof.
  intros Hi [H1 H2]. split; [|exact H2]. intros n j Hj. destruct (H1 n j Hj) as [(f & Hf & Hfl & Hr)|H]; [left|now right]. exists f. do 2 (split; [assumption|]). now apply (Hi n).
Qed.
Lemma unnamed_by_impl pe pp (R1 R2 : ty -> json -> Prop) fs l :
  (forall f j, In f fs -> ~ field_skipped pe pp f -> R1 (fs_ty f) j -> R2 (fs_ty f) j) ->
  unnamed_by pe pp R1 fs l -> unnamed_by pe pp R2 fs l.
Proof.
  intros Hi H. revert Hi. induction H as [|f fs l Hs H IH|f fs j l Hs Hr H IH]; intros Hi.
  - constructor.
  - apply ub_omit; [exact Hs|]. apply IH. intros f' j' Hin. apply Hi. now right.
  - apply ub_emit; [exact Hs|apply Hi; [now left|exact Hs|exact Hr]|]. apply IH. intros f' j' Hin. apply Hi. now right.
Qed.

Lemma serialised_fields_In {A} pe pp r i (fs : list (field_syn A)) l n f : serialised_fields pe pp r i fs l -> In (n, f) l ->
  In f fs /\ ~ field_skipped pe pp f.
Proof.
  induction 1 as [i|i f0 fs l Hs H IH|i f0 n0 fs l Hs Hn H IH]; intros Hin.
  - destruct Hin.
  - destruct (IH Hin). split; [now right|auto].
  - destruct Hin as [[= <- <-]|Hin]; [split; [now left|auto]|]. destruct (IH Hin). split; [now right|auto].
Qed.
Lemma serialised_variants_In {A} pe pp uni r (vs : list (variant_syn A)) l n v : serialised_variants pe pp uni r vs l -> In (n, v) l ->
  In v vs /\ ~ variant_skipped pe pp v.
Proof.
  induction 1 as [|v0 vs l Hs H IH|v0 n0 vs l Hs Hn H IH]; intros Hin.
  - destruct Hin.
  - destruct (IH Hin). split; [now right|auto].
  - destruct Hin as [[= <- <-]|Hin]; [split; [now left|auto]|]. destruct (IH Hin). split; [now right|auto].
Qed.

Section Facts.
  Variable pe pp : str -> bool.
  Variable uni : N -> bool.
  Variable ev : str -> str.
  Notation said := (said pe pp).
  Notation takes := (takes pe pp).
  Notation flag_takes := (flag_takes pe pp).
  Notation acceptable := (acceptable pe pp).
  Notation derive := (derive pe pp uni ev).

  Lemma serialised_fields_unique {A} r i (fs : list (field_syn A)) l1 l2 :
    (forall f, In f fs -> acceptable PField (fs_attrs f)) ->
    serialised_fields pe pp r i fs l1 -> serialised_fields pe pp r i fs l2 -> l1 = l2.
  Proof.
    intros Ha H. revert l2. induction H as [i|i f fs l Hs H IH|i f n fs l Hs Hn H IH]; intros l2 H2; inversion H2; subst; auto.
    - apply IH; auto. intros. apply Ha. now right.
    - contradiction.
    - contradiction.
    - f_equal; [f_equal; eapply field_named_unique; eauto; apply Ha; now left|]. apply IH; auto. intros. apply Ha. now right.
  Qed.
  Lemma serialised_variants_unique {A} r (vs : list (variant_syn A)) l1 l2 :
    (forall v, In v vs -> acceptable PVariant (vs_attrs v)) ->
    serialised_variants pe pp uni r vs l1 -> serialised_variants pe pp uni r vs l2 -> l1 = l2.
  Proof.
    intros Ha H. revert l2. induction H as [|v vs l Hs H IH|v n vs l Hs Hn H IH]; intros l2 H2; inversion H2; subst; auto.
    - apply IH; auto. intros. apply Ha. now right.
    - contradiction.
    - contradiction.
    - f_equal; [f_equal; eapply variant_named_unique; eauto; apply Ha; now left|]. apply IH; auto. intros. apply Ha. now right.
  Qed.

  Lemma fields_parsed_acc {A} r i (fs : list (field_syn A)) gs : fields_parsed pe pp r i fs gs ->
    forall f, In f fs -> acceptable PField (fs_attrs f).
  Proof. induction 1 as [|i f g fs gs Hf H IH]; intros x []; [subst; apply (fp_acc _ _ _ _ _ _ Hf)|auto]. Qed.
  Lemma variants_parsed_acc {A} r (vs : list (variant_syn A)) ws : Forall2 (variant_parsed pe pp uni r) vs ws ->
    forall v, In v vs -> acceptable PVariant (vs_attrs v).
  Proof. induction 1 as [|v w vs ws Hf H IH]; intros x []; [subst; apply (vp_acc _ _ _ _ _ _ Hf)|auto]. Qed.

  Lemma harmless_field r i f (g : field ty) : field_parsed pe pp r i f g -> harmless (params_of_field ev (f_attrs g)).
  Proof. intros H. split; [reflexivity|]. cbn. unfold flag. destruct (fa_nullable (f_attrs g)); discriminate. Qed.
  Lemma harmless_or p q : harmless p -> harmless (params_or p q).
  Proof. intros [H1 H2]. split; cbn; auto. Qed.

  (** [j] is of the kinds that all JSON of [t] is of *)
  Definition kinded (D : tid -> derive_input ty) (t : ty) (j : json) : Prop :=
    forall (null : Prop) k, always pe pp D null k t -> of_kind k j \/ null /\ j = JNull.

  Section Code.
    Variable loose : Prop.
    Variable E : env.
    Variable D : tid -> derive_input ty.
    Variable P : ty -> json -> Prop.
    Hypothesis HP : forall t j, P t j -> kinded D t j.

    Lemma newtype_model_code n p t c (null : Prop) j : newtype_model n p t = Some c -> (null -> n = true) ->
      of_kind t j \/ null /\ j = JNull -> jm loose E P c j.
    Proof.
      intros Hm Hn Hj. unfold newtype_model in Hm.
      destruct t; try discriminate; injection Hm as <-; destruct Hj as [Hj|[Hj ->] ]; try (left; auto; fail);
        destruct j; try (now destruct Hj); cbn; try exact I; discriminate.
    Qed.

    Lemma field_code r i f g p inl c j : field_parsed pe pp r i f g -> field_plain pe pp D f -> harmless p ->
      field_model_reference p g inl = Some c -> P (fs_ty f) j -> jr loose E P c j.
    Proof.
      intros [] [_ Hpl] Hp Hm Hj. unfold field_model_reference in Hm. destruct (fa_explicit (f_attrs g)) as [t|] eqn:Et.
      - destruct (Hpl t (proj1 (fp_explicit t) eq_refl)) as [->|Ha]; [injection Hm as <-; exact I|].
        assert (Hc : t = ETAny \/ exists m, newtype_model (fa_nullable (f_attrs g)) p t = Some m /\ c = RcInline m).
        { destruct t; [right|right|right|right|now left]; (eexists; split; [reflexivity|now injection Hm as <-]). }
        destruct Hc as [->|(m & Hm' & ->)]; [injection Hm as <-; exact I|].
        cbn [jr]. eapply newtype_model_code; [exact Hm'| |exact (HP _ _ Hj _ _ Ha)]. intros Hn. now apply fp_nullable.
      - injection Hm as <-. cbn. rewrite fp_ty. auto.
    Qed.

    Lemma object_code r fs gs l ms inl t : fields_parsed pe pp r 0 fs gs -> serialised_fields pe pp r 0 fs l ->
      NoDup (map fst l) ->
      (forall n f, In (n, f) l -> field_plain pe pp D f \/ said PField (fs_attrs f) SFlatten /\
         (said PField (fs_attrs f) SSkipIf \/ said PField (fs_attrs f) SOptional)) -> fields_like pe pp loose P l ms ->
      object_type_description ev gs inl = Some t ->
      exists stmts, t = TcObject stmts /\ map (fun s => fst (fst s)) stmts = map fst l /\ jt loose E P t (JObj ms).
    Proof.
      intros Hp Hl Hnd Hpl Hms Ho. unfold object_type_description in Ho.
      destruct (try_map _ _) as [stmts|] eqn:Et; [|discriminate]. injection Ho as <-.
      destruct (fields_kept _ _ _ _ _ _ Hp) as (l' & Hl' & Hk).
      assert (l' = l) as -> by (eapply serialised_fields_unique; eauto; eapply fields_parsed_acc; eauto). clear Hl'.
      apply try_map_Forall2 in Et. exists stmts. split; [reflexivity|].
      assert (Hsrc : Forall2 (fun nf s => exists g c j', s = (fst nf, c, negb (fa_optional (f_attrs g))) /\
        field_parsed pe pp r j' (snd nf) g /\ field_model_reference (params_of_field ev (f_attrs g)) g (inl g) = Some c) l stmts).
      { clear -Hk Et. revert stmts Et. induction Hk as [|[n f] g l gs' [[j Hf] Hn] Hk IH]; intros stmts Et.
        - inversion Et. constructor.
        - inversion Et as [|? s ? ss Hs Hss]; subst. constructor; [|now apply IH].
          destruct (field_model_reference _ g _) as [c|] eqn:Ec; [|discriminate]. injection Hs as <-. cbn [fst snd] in *. subst n.
          exists g, c, j. split; [reflexivity|]. split; [exact Hf|exact Ec]. }
      assert (Hnames : map (fun s => fst (fst s)) stmts = map fst l)
        by (clear -Hsrc; induction Hsrc as [|nf s l ss (g & c & j & -> & _) H IH]; cbn; congruence).
      split; [exact Hnames|].
      apply jt_object.
      - intros k Hk'. rewrite Hnames. eapply fields_like_keys; eauto.
      - intros n c req Hin.
        assert (Hnf : exists f g j', In (n, f) l /\ req = negb (fa_optional (f_attrs g)) /\ field_parsed pe pp r j' f g /\
          field_model_reference (params_of_field ev (f_attrs g)) g (inl g) = Some c).
        { clear -Hsrc Hin. induction Hsrc as [|[n' f] s l ss (g & c' & j & -> & Hf & Hc) H IH]; [destruct Hin|].
          destruct Hin as [[= <- <- <-]|Hin].
          - exists f, g, j. split; [now left|auto].
          - destruct (IH Hin) as (f' & g' & j' & Hx & Hy). exists f', g', j'. split; [now right|auto]. }
        destruct Hnf as (f & g & j' & Hf & -> & Hg & Hc). split.
        + intros Hopt. assert (Hno : ~ (said PField (fs_attrs f) SSkipIf \/ said PField (fs_attrs f) SOptional)).
          { intros Hs. assert (fa_optional (f_attrs g) = true) by now apply (fp_optional _ _ _ _ _ _ Hg). rewrite H in Hopt. discriminate. }
          apply (proj2 Hms n f Hf); [tauto|]. destruct (Hpl n f Hf) as [[Hfl _]|[_ Hx] ]; [exact Hfl|contradiction].
        + intros j Hj. destruct (proj1 Hms n j Hj) as [(f' & Hf' & Hfl & Hpj)|[_ Hno] ]; [|destruct Hno; apply in_map_iff; exists (n, f); auto].
          assert (f' = f) as ->.
          { clear -Hnd Hf Hf'. induction l as [|[k x] l IH]; [destruct Hf|]. cbn in Hnd. inversion Hnd as [|? ? Hni Hnd']; subst.
            destruct Hf as [Hf|Hf], Hf' as [Hf'|Hf']; auto.
            - congruence.
            - injection Hf as -> ->. destruct Hni. apply in_map_iff. exists (n, f'). auto.
            - injection Hf' as -> ->. destruct Hni. apply in_map_iff. exists (n, f). auto. }
          destruct (Hpl n f Hf) as [Hpf|[Hx _] ]; [|contradiction]. eapply field_code; eauto. eapply harmless_field; eauto.
    Qed.

    Lemma tuple_code r i fs gs l inl t : fields_parsed pe pp r i fs gs ->
      (forall f, In f fs -> ~ field_skipped pe pp f -> field_plain pe pp D f) -> unnamed_by pe pp P fs l ->
      tuple_type_description ev gs inl = Some t -> jt loose E P t (JArr l).
    Proof.
      intros Hp Hpl Hl Ho. unfold tuple_type_description in Ho. destruct (try_map _ _) as [cs|] eqn:Et; [|discriminate].
      injection Ho as <-. cbn [jt]. intros j Hj. apply (jd_oneof_any loose E P cs).
      destruct (unnamed_by_src _ _ _ _ _ _ Hl Hj) as (f & Hf & Hs & Hpj).
      apply try_map_Forall2 in Et.
      assert (Hc : exists k g c, field_parsed pe pp r k f g /\ In c cs /\
        field_model_reference (params_of_field ev (f_attrs g)) g (inl g) = Some c).
      { clear -Hp Et Hf. revert cs Et. induction Hp as [|i f0 g fs gs Hg Hp IH]; intros cs Et; [destruct Hf|].
        inversion Et as [|? c ? cs' Hc Hcs]; subst. destruct Hf as [->|Hf].
        - exists i, g, c. split; auto. split; [now left|auto].
        - destruct (IH Hf _ Hcs) as (k & g' & c' & H1 & H2 & H3). exists k, g', c'. split; auto. split; [now right|auto]. }
      destruct Hc as (k & g & c & Hg & Hc & He). exists c. split; auto. eapply field_code; eauto. eapply harmless_field; eauto.
    Qed.

    Section Variant.
      Variables (r : rename_rule) (v : variant_syn ty) (w : variant ty).
      Hypothesis Hw : variant_parsed pe pp uni r v w.

      Lemma newtype_code f c j : vs_fields v = FUnnamed [f] -> field_plain pe pp D f -> P (fs_ty f) j ->
        newtype_variant ev w = Some c -> jr loose E P c j.
      Proof.
        intros Hf Hpl Hj Hn. pose proof (vp_fields _ _ _ _ _ _ Hw) as Hg. rewrite Hf in Hg. cbn in Hg.
        inversion Hg as [|? ? g ? gs Hfg Hr Heq1 Heq2 Heq3]; subst. unfold newtype_variant in Hn. rewrite <- Heq3 in Hn.
        eapply field_code; eauto. apply harmless_or. eapply harmless_field; eauto.
      Qed.

      Lemma struct_code avoid fs rule l ms mc : vs_fields v = FNamed fs -> members_described pe pp D loose PVariant (vs_attrs v) fs avoid ->
        has_rule pe pp PVariant (vs_attrs v) rule -> serialised_fields pe pp rule 0 fs l -> fields_like pe pp loose P l ms ->
        object_model ev false (va_description (v_attrs w)) (v_fields w) (inline_in w) = Some mc ->
        jm loose E P mc (JObj ms) /\ forall tag, avoid tag -> tag_free E mc tag.
      Proof.
        intros Hf Hpl Hr Hl Hms Hm. destruct Hw. rewrite Hf in vp_fields. cbn [fields_list] in vp_fields.
        assert (rule = va_rename_rule (v_attrs w)) as -> by (eapply has_rule_unique; eauto).
        destruct (Hpl _ _ Hr Hl) as [Hnd Hfp]. unfold object_model in Hm.
        destruct (object_type_description _ _ _) as [t|] eqn:Et; [|discriminate]. injection Hm as <-.
        destruct (object_code _ _ _ _ _ (inline_in w) t vp_fields Hl Hnd (described_plain _ _ _ _ _ _ _ Hfp) Hms Et) as (stmts & -> & Hn & Hj).
        split; [exact Hj|]. intros tag Ha. cbn. rewrite Hn. intros Hin. apply in_map_iff in Hin as ([n f] & <- & Hin).
        now apply (proj2 (Hfp _ _ Hin)).
      Qed.

      Lemma tuple_variant_code fs l mc : vs_fields v = FUnnamed fs ->
        (forall f, In f fs -> ~ field_skipped pe pp f -> field_plain pe pp D f) -> unnamed_by pe pp P fs l ->
        tuple_model ev false (va_description (v_attrs w)) (v_fields w) (inline_in w) = Some mc -> jm loose E P mc (JArr l).
      Proof.
        intros Hf Hpl Hl Hm. destruct Hw. rewrite Hf in vp_fields. cbn [fields_list] in vp_fields. unfold tuple_model in Hm.
        destruct (tuple_type_description _ _ _) as [t|] eqn:Et; [|discriminate]. injection Hm as <-.
        eapply tuple_code; eauto.
      Qed.
    End Variant.

    Lemma alternative_code r (f : variant ty -> option rcode) l ws cs n v : Forall2 (kept_variant pe pp uni r) l ws ->
      try_map f ws = Some cs -> In (n, v) l -> exists w c, variant_parsed pe pp uni r v w /\ n = variant_name w /\ f w = Some c /\ In c cs.
    Proof.
      intros Hk Ht Hin. apply try_map_Forall2 in Ht. revert cs Ht.
      induction Hk as [|[n' v'] w l ws [Hv Hn] Hk IH]; intros cs Ht; [destruct Hin|].
      inversion Ht as [|? c ? cs' Hc Hcs]; subst. cbn [fst snd] in *. destruct Hin as [[= -> ->]|Hin].
      - exists w, c. split; auto. split; auto. split; auto. now left.
      - destruct (IH Hin _ Hcs) as (w' & c' & H1 & H2 & H3 & H4). exists w', c'. split; auto. split; auto. split; auto. now right.
    Qed.
  End Code.
End Facts.
