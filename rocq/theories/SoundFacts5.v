(** What serde writes is accepted by the generated schemas: documents of [describe_api!], and the strict
    reading of [oneOf] for internally tagged enums. *)
From Verif Require Import Attr AttrSpec AttrFacts Ast AstFacts Derive DeriveSpec Schema SchemaSpec SchemaFacts Gen GenSpec
  GenFacts GenFacts2 GenFacts3 GenFacts4 DeriveFacts DeriveFacts2 DeriveFacts5.
From Verif Require Import Api ApiSpec ApiFacts ApiFacts2 ApiFacts3 ApiFacts7 ApiFacts8.
From Verif Require Import SoundSpec AddSpec FitsSpec FitsFacts SoundFacts SoundFacts2 SoundFacts3 SoundFacts4.
From Coq Require Import Arith Lia ZArith.

(** tags may be allowed *)
Lemma described_loosely pe pp D pos attrs fs avoid : members_described pe pp D False pos attrs fs avoid ->
  forall tags, members_described pe pp D tags pos attrs fs avoid.
Proof.
  intros H tags rule l Hr Hl. destruct (H rule l Hr Hl) as [Hn Hp]. split; [exact Hn|]. intros n f Hin.
  destruct (Hp n f Hin) as [ [Hf|[ [] _] ] Ha]. auto.
Qed.
Lemma supported_loosely pe pp D t : supported_inside pe pp D False t -> forall tags, supported_inside pe pp D tags t.
Proof.
  intros H tags t' Hi. specialize (H _ Hi). destruct t' as [| | | | | |id]; try exact H. cbn in *. inversion H.
  all: try (econstructor; eauto; fail).
  - eapply is_struct; eauto; [intros t0 Ht; now destruct (H2 _ Ht)|]. now apply described_loosely.
  - eapply is_enum; eauto. intros v Hv Hs. match goal with Hx : forall v, In v _ -> _ |- _ => specialize (Hx v Hv Hs); rename Hx into Hsup end.
    unfold variant_supported in *. destruct (vs_fields v); try exact Hsup. destruct Hsup as [Hx Hm]. split; [exact Hx|]. now apply described_loosely.
Qed.

Section Tags.
  Variable pe pp : str -> bool.
  Variable uni : N -> bool.
  Variable disc : str -> Z.
  Variable D : tid -> derive_input ty.
  Variable ev : str -> str.
  Variable loose : Prop.
  Variable E : env.
  Notation supp := (supp pe pp uni D ev loose E).

  Lemma applied_object p m o : object_of m = Some o -> object_of (apply_params p m) = Some o.
  Proof.
    destruct m as [d [ [b t] |l|l|l] ]; try discriminate. destruct t; try discriminate. cbn. intros [= ->].
    unfold apply_params. cbn. destruct p as [d' [n|] v f e]; reflexivity.
  Qed.

  Lemma internal_carries tag n v c1 ref c2 : variant_supported pe pp D loose (RepInternal tag) v ->
    (forall f, vs_fields v = FUnnamed [f] -> supp (fs_ty f)) ->
    internal_alternative pe pp ev E tag (n, v) c1 ref c2 -> carries_tag tag n ref.
  Proof.
    intros Hsup Hs (pm & am & Hp & -> & Ht). cbn [fst snd] in *.
    assert (Hw : without_property tag pm).
    { inversion Hp as [pm' o Hx Hdesc Hnull Ho Hobj|f p q m0 cxx Hx _ _ Hret|fs' pm' cxx Hx Hpay]; subst.
      - eexists. split; [exact Ho|reflexivity].
      - unfold variant_supported in Hsup. rewrite Hx in Hsup. destruct Hsup as (_ & _ & Hsup).
        destruct (taggable_returned pe pp uni D ev loose E _ _ (Hsup _ eq_refl) (Hs _ Hx) _ _ _ Hret) as (o & Ho & Hg).
        exists o. split; [now apply applied_object|exact Hg].
      - unfold variant_supported in Hsup. rewrite Hx in Hsup. destruct Hsup as [_ Hm].
        destruct Hpay as (b & rule & _ & Hr & _ & _ & l & rs & o & Hl & Hf & Ho & _ & Hg & _). exists o. split; [exact Ho|].
        rewrite Hg. destruct (last_value tag (combine (map fst l) rs)) as [r|] eqn:El; [|reflexivity]. exfalso.
        assert (Hi : In tag (map fst (combine (map fst l) rs))) by (apply last_value_In; congruence).
        apply in_map_iff in Hi as ([n0 r0] & Hn0 & Hi). cbn in Hn0. subst n0. apply in_combine_l in Hi.
        apply in_map_iff in Hi as ([n' f] & Hn & Hin). cbn in Hn. subst n'.
        destruct (Hm _ _ Hr Hl) as [_ Hpl]. now apply (proj2 (Hpl _ _ Hin)). }
    destruct Hw as (o & Ho & Hg). destruct Ht as [o1 o2 t Ho1 Hno Ho2 Hgt Hn Hrest Hreq _ _ _|Hyes _].
    - exists am, o2, t. repeat (split; auto). rewrite Hreq. apply in_or_app. right. now left.
    - exfalso. exact (Hyes _ Ho Hg).
  Qed.

  Section Enum.
    Variables (id : tid) (vs : list (variant_syn ty)) (w : variant_syn ty) (tag : str).
    Hypothesis Hs : supp (TNamed id).
    Hypothesis Hvs : di_data (D id) = DaEnum vs.
    Hypothesis Hw : In w vs.
    Hypothesis Hnu : ~ unit_variant w.
    Hypothesis Hrep : represents pe pp (di_attrs (D id)) (RepInternal tag).
    Variables (cx cx' : components) (m : model).
    Hypothesis Hret : schema_returns E (TNamed id) cx m cx'.

    Lemma internal_all_carry : exists l rs, enum_variants pe pp uni (D id) vs l /\ m_data m = OneOf rs /\
      Forall2 (fun nv r => carries_tag tag (fst nv) r) l rs.
    Proof.
      destruct (supp_derived _ _ _ _ _ _ _ _ Hs) as [Hd Hsup].
      destruct (internal_enum_described _ _ _ _ _ _ _ _ _ _ Hd Hret _ Hvs _ _ Hw Hnu Hrep) as (l & rs & Hl & Hio & Hk & Hrs & _).
      exists l, rs. split; [exact Hl|]. split.
      { unfold kind_of, alternatives_of in *. destruct (m_data m) as [ [b t] |l0|l0|l0]; try discriminate. congruence. }
      assert (Hvsup : forall v, In v vs -> ~ variant_skipped pe pp v -> variant_supported pe pp D loose (RepInternal tag) v).
      { inversion Hsup as [? E0|? E0|? E0|? E0 Hu|? E0 [_ Hu] |? w' rep' E0 Hin Hnw Hrep' _ Hv]; rewrite Hvs in E0; try discriminate; injection E0 as <-.
        - destruct Hnu. auto.
        - destruct Hnu. auto.
        - destruct (derive_inv _ _ _ _ _ _ Hd) as (c & Hc & _). destruct Hc. apply (cp_tag vs) in Hrep; auto. apply (cp_tag vs) in Hrep'; auto.
          assert (rep' = RepInternal tag) as -> by congruence. exact Hv. }
      eapply in_order_Forall2; [exact Hio|]. intros [n v] c1 ref c2 Hin Ha. cbn [fst].
      destruct Hl as (rule & Hrule & Hl). destruct (serialised_variants_In _ _ _ _ _ _ _ _ Hl Hin) as (Hiv & Hnsk).
      eapply internal_carries; [apply Hvsup; eauto| |exact Ha]. intros f Hf. eapply supp_step; [exact Hs|]. constructor.
      pose proof (Hvsup _ Hiv Hnsk) as Hsv. unfold variant_supported in Hsv. rewrite Hf in Hsv. split; [apply Hsv|].
      rewrite Hvs. exists v. rewrite Hf. split; auto. split; auto. now left.
    Qed.

    Lemma carries_valid S n r ms : carries_tag tag n r -> valid S r (JObj ms) -> In (tag, JStr n) ms /\ forall j, In (tag, j) ms -> j = JStr n.
    Proof.
      intros (am & o & t & -> & Ho & Hg & (Hk & He & _ & _ & Hn) & Hreq) Hv. inversion Hv as [| |? ? Hv']; subst.
      destruct am as [d dt]. cbn in Ho. unfold object_of in Ho. cbn in Ho. destruct dt as [ [b td] |l|l|l]; try discriminate.
      destruct td; try discriminate. injection Ho as ->. inversion Hv' as [| | | | | | |d' n' props add req l Hr Hp Ha| | |]; subst.
      cbn [mo_required mo_properties] in *.
      assert (Hj : forall j, In (tag, j) ms -> j = JStr n).
      { intros j Hj. pose proof (Hp _ _ _ Hj Hg) as Hvj. inversion Hvj as [| |? ? Hvm]; subst. destruct t as [dd dtt].
        unfold kind_of, enum_of, nullable_of in *. cbn in *. destruct dtt as [ [b' td] |l|l|l]; try discriminate. destruct td as [s|s|s| |s|s]; try discriminate.
        injection Hn as ->. inversion Hvm as [|? ? ? x Hx| | | | | | | | |]; subst. specialize (Hx _ He). destruct Hx as [<-|[] ]. reflexivity. }
      split; [|exact Hj]. specialize (Hr _ Hreq). unfold keys in Hr. apply in_map_iff in Hr as ([k j] & Hk' & Hin). cbn in Hk'. subst k.
      now rewrite <- (Hj _ Hin).
    Qed.

    Lemma internal_exactly_one S rs l ms : enum_variants pe pp uni (D id) vs l -> NoDup (map fst l) -> alternatives_of m = Some rs ->
      valid_model S m (JObj ms) -> exactly_one S rs (JObj ms).
    Proof.
      intros Hl Hnd Hrs Hv. destruct internal_all_carry as (l' & rs' & Hl' & Hm & Hc).
      assert (l' = l) as ->.
      { destruct (enum_code pe pp uni D ev loose E id vs Hvs Hs) as (c & ws & l0 & _ & Hdet & _). rewrite (Hdet _ Hl). now apply Hdet. }
      assert (rs' = rs) as -> by (unfold alternatives_of in Hrs; rewrite Hm in Hrs; congruence).
      destruct m as [d dt]. cbn in Hm. subst dt. inversion Hv as [| | | | | | | |? ? r ? Hin Hvr| |]; subst.
      apply in_split in Hin as (r1 & r2 & ->). apply Forall2_app_inv_r in Hc as (l1 & l2' & Hc1 & Hc2 & ->).
      inversion Hc2 as [|nv ? l2 ? Hc0 Hc3]; subst. exists r1, r, r2. split; [reflexivity|]. split; [exact Hvr|].
      intros r' Hr' Hv'. destruct (carries_valid _ _ _ _ Hc0 Hvr) as [Hi Hu].
      assert (exists nv', In nv' (l1 ++ l2) /\ carries_tag tag (fst nv') r') as (nv' & Hn' & Hc').
      { apply in_app_or in Hr' as [Hr'|Hr'].
        - destruct (Forall2_In_r _ _ _ _ Hc1 Hr') as (x & Hx & Hxc). exists x. split; [apply in_or_app; now left|exact Hxc].
        - destruct (Forall2_In_r _ _ _ _ Hc3 Hr') as (x & Hx & Hxc). exists x. split; [apply in_or_app; now right|exact Hxc]. }
      destruct (carries_valid _ _ _ _ Hc' Hv') as [Hi' _]. apply Hu in Hi'. injection Hi' as Heq.
      rewrite map_app in Hnd. cbn in Hnd. apply NoDup_remove_2 in Hnd. apply Hnd. rewrite <- map_app, <- Heq. now apply in_map.
    Qed.

    Lemma internal_object j : emits pe pp uni disc D (TNamed id) j -> exists ms, j = JObj ms.
    Proof.
      destruct (supp_derived _ _ _ _ _ _ _ _ Hs) as [Hd _]. destruct (derive_inv _ _ _ _ _ _ Hd) as (c & Hc & _).
      assert (Hother : forall rep n v, enum_variant pe pp uni (D id) rep n v -> rep = RepInternal tag).
      { intros rep n v (vs' & l & Hd' & _ & Hrep' & _). rewrite Hvs in Hd'. injection Hd' as <-. destruct Hc.
        apply (cp_tag vs) in Hrep; auto. apply (cp_tag vs) in Hrep'; auto. congruence. }
      inversion 1; subst; eauto; try congruence;
        try (match goal with H : enum_variant _ _ _ _ ?rep _ _ |- _ => specialize (Hother _ _ _ H); discriminate Hother end);
        try (match goal with H : transparent_field _ _ _ _ |- _ => destruct H as (? & ? & Hd0 & _); rewrite Hvs in Hd0; discriminate Hd0 end).
      match goal with H : written_as_int _ _ _ ?vs', H0 : _ = DaEnum ?vs' |- _ => destruct H as [_ Hu]; rewrite Hvs in H0; injection H0 as <- end.
      destruct Hnu. auto.
    Qed.
  End Enum.
End Tags.

Section Api.
  Variable pe pp : str -> bool.
  Variable uni : N -> bool.
  Variable disc : str -> Z.
  Variable D : tid -> derive_input ty.
  Variable ev : str -> str.
  (** as for [meets] *)
  Variable loose : Prop.
  (** as for [mention_meets] *)
  Variable D1 : tid -> derive_input ty.
  Hypothesis Hadd : forall id, D1 id = D id \/ loose /\ data_added pe pp D1 (D id) (D1 id).
  Hypothesis Hflat : flattened_kept pe pp D D1.
  Variable E : env.
  Variable reason : N -> option str.
  Variable seg : list tree -> option segment.
  Variables (a : api) (d : opg).
  Hypothesis Hd : describes E reason seg a d.
  (** no two of the types reachable from the invocation share a name *)
  Hypothesis Hun : forall ts, (forall t, In t ts <-> names_type seg a t) -> names_unambiguous E (map (fun t => SMention t false) ts).
  Notation emits := (emits pe pp uni disc D1).
  Notation supported_inside := (supported_inside pe pp D loose).
  Notation derived_inside := (derived_inside pe pp uni D ev E).
  Notation S := (cx_schemas (og_components d)).

  Lemma refers_meets t r j : names_type seg a t -> refers E t r -> supported_inside t -> derived_inside t -> emits t j -> meets loose S r j.
  Proof.
    intros Ht (cx0 & cx1 & Hm) Hs Hdv Hj. destruct (components_of_types _ _ _ _ _ Hd) as (ts & cx & Hts & Hr & ->).
    eapply (mention_meets pe pp uni disc D ev loose D1 Hadd Hflat E (map default_call ts) cx) with (c := default_call t).
    - rewrite call_sites_default. now apply Hun.
    - exact Hr.
    - now apply in_map, Hts.
    - apply harmless_default.
    - exact Hs.
    - exact Hdv.
    - exact Hm.
    - exact Hj.
  Qed.

  Lemma body_meets o x : has_operation (og_paths d) o -> op_body o = Some x ->
    exists l b t, declares_operation a l /\ op_means E reason (callback_means E reason seg) l o /\ In (OpBody b) l /\ body_type b t /\
      (supported_inside t -> derived_inside t -> forall j, emits t j -> meets loose S (rb_schema x) j).
  Proof.
    intros Ho Hx. destruct (has_operation_declared _ _ _ _ _ _ (describes_means _ _ _ _ _ Hd) Ho) as (l & Hl & Hm).
    pose proof Hm as Hm'. destruct Hm as (_ & _ & _ & _ & _ & _ & Hb & _). destruct (last_of _ l) as [b|] eqn:El; [|congruence].
    destruct Hb as (x' & Hx' & Hb). assert (x' = x) by congruence. subst x'.
    apply last_of_In in El as (q & Hq & Hs). destruct q; try discriminate. injection Hs as ->.
    assert (exists t, body_type b t /\ refers E t (rb_schema x)) as (t & Ht & Hr).
    { destruct b as [pl|t].
      - destruct Hb as (_ & _ & t & Ht & Hr). exists t. split; [|exact Hr]. apply last_of_In in Ht as (q & Hq' & Hs).
        destruct q; try discriminate. injection Hs as ->. exact Hq'.
      - destruct Hb as (_ & _ & Hr). exists t. split; [reflexivity|exact Hr]. }
    exists l, b, t. split; [exact Hl|]. split; [exact Hm'|]. split; [exact Hq|]. split; [exact Ht|]. intros Hs Hdv j Hj.
    eapply refers_meets; eauto. eapply nt_body; eauto.
  Qed.

  Lemma response_meets o c x r : has_operation (og_paths d) o -> bm_get c (op_responses o) = Some x -> rs_schema x = Some r ->
    exists l desc s, declares_operation a l /\ op_means E reason (callback_means E reason seg) l o /\ In (OpResponse c desc s) l /\
      (s = RsRaw (Some r) \/ exists t, response_type s t /\
        (supported_inside t -> derived_inside t -> forall j, emits t j -> meets loose S r j)).
  Proof.
    intros Ho Hx Hr. destruct (has_operation_declared _ _ _ _ _ _ (describes_means _ _ _ _ _ Hd) Ho) as (l & Hl & Hm).
    pose proof (responses_last E reason seg l o c Hm) as Hrl. destruct (last_with response_code c (responses_of l)) as [ [ [c' g] s] |] eqn:El; [|congruence].
    apply last_with_In in El. destruct El as [Hi Hc]. cbn in Hc. subst c'. destruct Hrl as (x' & Hx' & _ & _ & Hsch). cbn [fst snd] in Hsch.
    assert (x' = x) by congruence. subst x'. unfold responses_of in Hi. apply in_flat_map in Hi. destruct Hi as (q & Hq & Hi).
    destruct q; try (now destruct Hi). destruct Hi as [ [= -> -> ->] |[] ]. exists l, g, s. split; [exact Hl|]. split; [exact Hm|]. split; [exact Hq|].
    destruct s as [| |t|rr].
    - rewrite Hr in Hsch. discriminate.
    - right. exists (TPrim PUnit). split; [reflexivity|]. destruct Hsch as (r' & Hr' & Hrf). intros Hs Hdv j Hj.
      assert (r' = r) by congruence. subst r'. eapply refers_meets; eauto. eapply nt_response; eauto. reflexivity.
    - right. exists t. split; [reflexivity|]. destruct Hsch as (r' & Hr' & Hrf). intros Hs Hdv j Hj.
      assert (r' = r) by congruence. subst r'. eapply refers_meets; eauto. eapply nt_response; eauto. reflexivity.
    - left. congruence.
  Qed.

End Api.

Section Ends.
  Variable pe pp : str -> bool.
  Variable uni : N -> bool.
  Variable disc : str -> Z.
  Variable D : tid -> derive_input ty.
  Variable ev : str -> str.
  Variable E : env.
  Variable reason : N -> option str.
  Variable seg : list tree -> option segment.
  Variables (a : api) (d : opg).
  Hypothesis Hd : describes E reason seg a d.
  Hypothesis Hun : forall ts, (forall t, In t ts <-> names_type seg a t) -> names_unambiguous E (map (fun t => SMention t false) ts).
  Notation emits := (emits pe pp uni disc D).
  Notation supported_inside := (supported_inside pe pp D).
  Notation derived_inside := (derived_inside pe pp uni D ev E).
  Notation S := (cx_schemas (og_components d)).

  Lemma refers_accepts t r j : names_type seg a t -> refers E t r -> supported_inside True t -> derived_inside t -> emits t j -> valid S r j.
  Proof. intros. eapply meets_valid, refers_meets; eauto using flattened_same. Qed.
  Lemma body_accepts o x : has_operation (og_paths d) o -> op_body o = Some x ->
    exists l b t, declares_operation a l /\ op_means E reason (callback_means E reason seg) l o /\ In (OpBody b) l /\ body_type b t /\
      (supported_inside True t -> derived_inside t -> forall j, emits t j -> valid S (rb_schema x) j).
  Proof.
    intros Ho Hx. destruct (body_meets pe pp uni disc D ev True D (fun id => or_introl eq_refl) (flattened_same pe pp D) E reason seg a d Hd Hun _ _ Ho Hx) as (l & b & t & H1 & H2 & H3 & H4 & H5). exists l, b, t. repeat (split; [assumption|]).
    intros Hs Hdv j Hj. eapply meets_valid; eauto.
  Qed.
  Lemma response_accepts o c x r : has_operation (og_paths d) o -> bm_get c (op_responses o) = Some x -> rs_schema x = Some r ->
    exists l desc s, declares_operation a l /\ op_means E reason (callback_means E reason seg) l o /\ In (OpResponse c desc s) l /\
      (s = RsRaw (Some r) \/ exists t, response_type s t /\
        (supported_inside True t -> derived_inside t -> forall j, emits t j -> valid S r j)).
  Proof.
    intros Ho Hx Hr. destruct (response_meets pe pp uni disc D ev True D (fun id => or_introl eq_refl) (flattened_same pe pp D) E reason seg a d Hd Hun _ _ _ _ Ho Hx Hr) as (l & g & s & H1 & H2 & H3 & H4). exists l, g, s.
    repeat (split; [assumption|]). destruct H4 as [H4|(t & H4 & H5)]; [now left|]. right. exists t. split; [exact H4|].
    intros Hs Hdv j Hj. eapply meets_valid; eauto.
  Qed.

  Lemma refers_fits t r j : names_type seg a t -> refers E t r -> supported_inside False t -> derived_inside t -> emits t j -> fits S r j.
  Proof. intros. eapply meets_fits, refers_meets; eauto using flattened_same. Qed.
  Lemma body_fits o x : has_operation (og_paths d) o -> op_body o = Some x ->
    exists l b t, declares_operation a l /\ op_means E reason (callback_means E reason seg) l o /\ In (OpBody b) l /\ body_type b t /\
      (supported_inside False t -> derived_inside t -> forall j, emits t j -> fits S (rb_schema x) j).
  Proof.
    intros Ho Hx. destruct (body_meets pe pp uni disc D ev False D (fun id => or_introl eq_refl) (flattened_same pe pp D) E reason seg a d Hd Hun _ _ Ho Hx) as (l & b & t & H1 & H2 & H3 & H4 & H5). exists l, b, t. repeat (split; [assumption|]).
    intros Hs Hdv j Hj. eapply meets_fits; eauto.
  Qed.
  Lemma response_fits o c x r : has_operation (og_paths d) o -> bm_get c (op_responses o) = Some x -> rs_schema x = Some r ->
    exists l desc s, declares_operation a l /\ op_means E reason (callback_means E reason seg) l o /\ In (OpResponse c desc s) l /\
      (s = RsRaw (Some r) \/ exists t, response_type s t /\
        (supported_inside False t -> derived_inside t -> forall j, emits t j -> fits S r j)).
  Proof.
    intros Ho Hx Hr. destruct (response_meets pe pp uni disc D ev False D (fun id => or_introl eq_refl) (flattened_same pe pp D) E reason seg a d Hd Hun _ _ _ _ Ho Hx Hr) as (l & g & s & H1 & H2 & H3 & H4). exists l, g, s.
    repeat (split; [assumption|]). destruct H4 as [H4|(t & H4 & H5)]; [now left|]. right. exists t. split; [exact H4|].
    intros Hs Hdv j Hj. eapply meets_fits; eauto.
  Qed.
End Ends.
