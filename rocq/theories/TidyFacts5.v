(** Sources whose schemas are accepted by OpenAPI: exactly those that are filled. *)
From Verif Require Import Attr AttrSpec AttrFacts Ast AstFacts Derive DeriveSpec DeriveFacts DeriveFacts2 Schema SchemaSpec SchemaFacts Gen GenSpec
  GenFacts GenFacts2 GenFacts3 GenFacts4 GenFacts5 SoundSpec SerSpec SerFacts4 OpenApiFacts TidySpec TidyFacts TidyFacts2 TidyFacts3 TidyFacts4.
From Coq Require Import Arith.

Lemma all_plain l : fold_right (fun r P => plain_r r /\ P) True l <-> forall r, In r l -> plain_r r.
Proof.
  induction l as [|r l IH]; cbn; [split; [intros _ r []|auto]|]. rewrite IH. split; [intros [H1 H2] r' [<-|Hi]; auto|intros H; split; auto].
Qed.
Lemma all_plain_stmts (l : list (str * rcode * bool)) :
  fold_right (fun s P => plain_r (snd (fst s)) /\ P) True l <-> forall s, In s l -> plain_r (snd (fst s)).
Proof.
  induction l as [|r l IH]; cbn; [split; [intros _ r []|auto]|]. rewrite IH. split; [intros [H1 H2] r' [<-|Hi]; auto|intros H; split; auto].
Qed.
Lemma Forall2_nonempty' {X Y} (R : X -> Y -> Prop) l l' : Forall2 R l l' -> l' <> [] -> l <> [].
Proof. intros [|]; [congruence|discriminate]. Qed.

Lemma Forall2_In_l' {X Y} (R : X -> Y -> Prop) l l' x : Forall2 R l l' -> In x l -> exists y, In y l' /\ R x y.
Proof. induction 1 as [|x' y l l' H Hf IH]; intros Hi; [destruct Hi|]. destruct Hi as [<-|Hi]; [exists y; split; [now left|exact H]|]. destruct (IH Hi) as (y' & ? & ?). exists y'. split; [now right|assumption]. Qed.

Section Facts.
  Variable pe pp : str -> bool.
  Variable uni : N -> bool.
  Variable ev : str -> str.

  Lemma apart_once pos attrs fs : names_apart pe pp pos attrs fs -> required_once pe pp pos attrs fs.
  Proof.
    intros Ha rule l req Hr Hl. specialize (Ha _ _ Hr Hl). clear Hl. induction 1 as [|n f l req Hf Hq IH|n f l req Hf Hq IH].
    - constructor.
    - apply IH. now inversion Ha.
    - inversion Ha as [|? ? Hn Ha']; subst. constructor; [|auto]. intros Hi. apply Hn. clear -Hi Hq. cbn.
      induction Hq as [|n0 f0 l req Hf Hq IH|n0 f0 l req Hf Hq IH]; [destruct Hi|right; auto|]. destruct Hi as [<-|Hi]; [now left|right; auto].
  Qed.
  Lemma newtype_plain b p t c : newtype_model b p t = Some c -> plain_m c.
  Proof. destruct t; cbn; intros [= <-]; exact I. Qed.
  Lemma reference_plain p (g : field ty) b r : p_variants p = None -> field_model_reference p g b = Some r -> plain_r r.
  Proof.
    intros Hp. unfold field_model_reference. destruct (fa_explicit (f_attrs g)) as [t|].
    - assert (H : forall t, match newtype_model (fa_nullable (f_attrs g)) p t with Some m => Some (RcInline m) | None => None end = Some r -> plain_r r).
      { intros t'. destruct (newtype_model _ p t') as [m|] eqn:E; [|discriminate]. intros [= <-]. now apply newtype_plain in E. }
      destruct t; try apply H. intros [= <-]. exact I.
    - intros [= <-]. exact Hp.
  Qed.
  Lemma tuple_plain gs inl t : tuple_type_description ev gs inl = Some t -> plain_t t /\ (neat_t t -> gs <> []).
  Proof.
    unfold tuple_type_description. destruct (try_map _ gs) as [l|] eqn:Et; [|discriminate]. intros [= <-]. cbn.
    apply try_map_Forall2 in Et. split; [|intros [Hn _]; exact (Forall2_nonempty' _ _ _ Et Hn)]. apply all_plain. intros r Hr.
    destruct (Forall2_In_r _ _ _ _ Et Hr) as (g & _ & Hg). eapply reference_plain; [|exact Hg]. reflexivity.
  Qed.
  Lemma kept_names r l gs stmts (f : field ty -> option rcode) : Forall2 (kept pe pp r) l gs ->
    try_map (fun g => match f g with Some c => Some (n_serialized (fa_name (f_attrs g)), c, negb (fa_optional (f_attrs g))) | None => None end) gs = Some stmts ->
    map (fun s => fst (fst s)) stmts = map fst l.
  Proof.
    intros Hk. revert stmts. induction Hk as [|nf g l gs [_ Hn] Hk IH]; intros stmts Ht; apply try_map_Forall2 in Ht; inversion Ht as [|? c ? cs' Hc Hcs]; subst; [reflexivity|].
    apply try_map_Forall2 in Hcs. cbn. rewrite (IH _ Hcs). destruct (f g); [|discriminate]. injection Hc as <-. cbn. now rewrite Hn.
  Qed.
  Lemma object_plain pos attrs r fs gs inl t : has_rule pe pp pos attrs r -> fields_parsed pe pp r 0 fs gs -> names_apart pe pp pos attrs fs ->
    object_type_description ev gs inl = Some t -> plain_t t.
  Proof.
    intros Hr Hp Ho. unfold object_type_description. destruct (try_map _ _) as [l|] eqn:Et; [|discriminate]. intros [= <-]. cbn.
    destruct (fields_kept _ _ _ _ _ _ Hp) as (l0 & Hl & Hk). split.
    - left. rewrite (kept_names r l0 _ l _ Hk Et). now apply (Ho r).
    - apply try_map_Forall2 in Et. apply all_plain_stmts. intros s Hs. destruct (Forall2_In_r _ _ _ _ Et Hs) as (g & _ & Hg).
      destruct (field_model_reference _ g _) as [c|] eqn:Ec; [|discriminate]. injection Hg as <-. cbn. eapply reference_plain; [|exact Ec]. reflexivity.
  Qed.

  Section Variant.
    Variables (r : rename_rule) (v : variant_syn ty) (w : variant ty).
    Hypothesis Hw : variant_parsed pe pp uni r v w.
    Hypothesis Ha : forall fs, vs_fields v = FNamed fs -> names_apart pe pp PVariant (vs_attrs v) fs.
    Lemma newtype_variant_plain c : newtype_variant ev w = Some c -> plain_r c.
    Proof. unfold newtype_variant. destruct (v_fields w) as [|g gs]; [discriminate|]. apply reference_plain. reflexivity. Qed.
    Lemma object_variant_plain fs b c : vs_fields v = FNamed fs ->
      object_model ev b (va_description (v_attrs w)) (v_fields w) (inline_in w) = Some c -> plain_m c.
    Proof.
      intros Hf. unfold object_model. destruct (object_type_description _ _ _) as [t|] eqn:Et; [|discriminate]. intros [= <-]. cbn.
      pose proof (vp_fields _ _ _ _ _ _ Hw) as Hp. rewrite Hf in Hp. eapply object_plain; [|exact Hp|now apply Ha|exact Et]. apply Hw.
    Qed.
    Lemma tuple_variant_plain b c : tuple_model ev b (va_description (v_attrs w)) (v_fields w) (inline_in w) = Some c ->
      plain_m c /\ (neat_m c -> fields_list (vs_fields v) <> []).
    Proof.
      unfold tuple_model. destruct (tuple_type_description _ _ _) as [t|] eqn:Et; [|discriminate]. intros [= <-]. cbn.
      apply tuple_plain in Et as [H1 H2]. split; [exact H1|]. intros Hn. specialize (H2 Hn). pose proof (vp_fields _ _ _ _ _ _ Hw) as Hp.
      inversion Hp; congruence.
    Qed.
    Definition told (rep : representation) (c : rcode) : Prop := plain_r c /\ (neat_r c -> variant_describable pe pp rep v).
    Lemma inline_told om c rep : (forall m, om = Some m -> told rep (RcInline m)) -> inline_reference om = Some c -> told rep c.
    Proof. destruct om; [|discriminate]. intros H [= <-]. now apply H. Qed.
    Lemma newtype_fields : v_style w = StNewType -> exists f, vs_fields v = FUnnamed [f].
    Proof.
      intros Hs. pose proof (vp_style _ _ _ _ _ _ Hw) as Hv. rewrite Hv in Hs. destruct (vs_fields v) as [fs|fs|]; cbn in Hs; try discriminate.
      destruct (Nat.eqb_spec (length fs) 1) as [Hl|]; [|discriminate]. destruct fs as [|f [|]]; try discriminate. now exists f.
    Qed.
    Lemma newtype_told rep c : v_style w = StNewType -> newtype_variant ev w = Some c -> told rep c.
    Proof.
      intros Hs Hc. split; [now apply newtype_variant_plain|]. intros _. destruct (newtype_fields Hs) as (f & Hf). unfold variant_describable. rewrite Hf. discriminate.
    Qed.
    Lemma object_told rep fs m b : vs_fields v = FNamed fs -> (forall t c, rep <> RepAdjacent t c) ->
      object_model ev b (va_description (v_attrs w)) (v_fields w) (inline_in w) = Some m -> told rep (RcInline m).
    Proof.
      intros Hf Hrep Hm. split; [eapply object_variant_plain; eauto|]. intros _. unfold variant_describable. rewrite Hf.
      assert (Ho : required_once pe pp PVariant (vs_attrs v) fs) by (apply apart_once; auto). destruct rep; auto. edestruct Hrep; reflexivity.
    Qed.
    Lemma external_told c : external_variant ev w = Some c -> told RepExternal c.
    Proof.
      unfold external_variant. destruct (v_style w) eqn:Es.
      - destruct (style_struct _ _ _ _ _ _ Hw Es) as (fs & Hf). apply inline_told. intros m. apply object_told with fs; [exact Hf|discriminate].
      - destruct (style_tuple _ _ _ _ _ _ Hw Es) as (fs & Hf & _). apply inline_told. intros m Hm. apply tuple_variant_plain in Hm as [H1 H2].
        split; [exact H1|]. intros Hn. specialize (H2 Hn). unfold variant_describable. rewrite Hf in *. exact H2.
      - now apply newtype_told.
      - intros [= <-]. split; [exact I|]. intros _. unfold variant_describable. now rewrite (style_unit _ _ _ _ _ _ Hw Es).
    Qed.
    Lemma untagged_told c : untagged_variant ev w = Some c -> told RepUntagged c.
    Proof.
      unfold untagged_variant. destruct (v_style w) eqn:Es; try discriminate.
      - destruct (style_struct _ _ _ _ _ _ Hw Es) as (fs & Hf). apply inline_told. intros m. apply object_told with fs; [exact Hf|discriminate].
      - now apply newtype_told.
    Qed.
    Lemma adjacent_told tag content c : adjacent_variant ev w = Some c -> told (RepAdjacent tag content) c.
    Proof.
      unfold adjacent_variant. destruct (v_style w) eqn:Es; try discriminate.
      - destruct (style_struct _ _ _ _ _ _ Hw Es) as (fs & Hf). apply inline_told. intros m Hm. apply tuple_variant_plain in Hm as [H1 H2].
        split; [exact H1|]. intros Hn. specialize (H2 Hn). unfold variant_describable. rewrite Hf in *. exact H2.
      - destruct (style_tuple _ _ _ _ _ _ Hw Es) as (fs & Hf & _). apply inline_told. intros m Hm. apply tuple_variant_plain in Hm as [H1 H2].
        split; [exact H1|]. intros Hn. specialize (H2 Hn). unfold variant_describable. rewrite Hf in *. exact H2.
      - now apply newtype_told.
    Qed.
    Lemma internal_told ct tag c : internal_variant ev ct tag w = Some c -> told (RepInternal tag) c.
    Proof.
      unfold internal_variant. destruct (internal_model ev w) as [m|] eqn:Em; [|discriminate]. intros [= <-].
      unfold internal_model in Em. destruct (v_style w) eqn:Es; try discriminate.
      - destruct (style_struct _ _ _ _ _ _ Hw Es) as (fs & Hf). apply (object_told (RepInternal tag) fs) in Em; [exact Em|exact Hf|discriminate].
      - destruct (v_fields w) as [|g gs]; [discriminate|]. injection Em as <-. split; [reflexivity|]. intros _.
        destruct (newtype_fields Es) as (f & Hf). unfold variant_describable. rewrite Hf. discriminate.
      - cbn in Em. injection Em as <-. split; [split; [left; constructor|exact I]|]. intros _. unfold variant_describable. now rewrite (style_unit _ _ _ _ _ _ Hw Es).
    Qed.
  End Variant.
  Lemma variants_told r vs ws (f : variant ty -> option rcode) cs rep : Forall2 (variant_parsed pe pp uni r) vs ws ->
    (forall v w c, variant_parsed pe pp uni r v w -> (forall fs, vs_fields v = FNamed fs -> names_apart pe pp PVariant (vs_attrs v) fs) ->
       f w = Some c -> told v rep c) ->
    (forall v fs, In v vs -> ~ variant_skipped pe pp v -> vs_fields v = FNamed fs -> names_apart pe pp PVariant (vs_attrs v) fs) ->
    try_map f (serialised ws) = Some cs ->
    (forall r, In r cs -> plain_r r) /\ (cs <> [] -> serialised ws <> []) /\
    ((forall r, In r cs -> neat_r r) -> forall v, In v vs -> ~ variant_skipped pe pp v -> variant_describable pe pp rep v).
  Proof.
    intros Hw Hf Ha Ht. apply try_map_Forall2 in Ht. split; [|split].
    - intros c Hc. destruct (Forall2_In_r _ _ _ _ Ht Hc) as (w & Hi & Hg). unfold serialised in Hi. apply filter_In in Hi as [Hi Hs].
      destruct (Forall2_In_r _ _ _ _ Hw Hi) as (v & Hiv & Hp). apply (Hf v w); auto. intros fs. apply Ha; auto.
      intros Hk. apply (vp_skip _ _ _ _ _ _ Hp) in Hk. rewrite Hk in Hs. discriminate.
    - exact (Forall2_nonempty' _ _ _ Ht).
    - intros Hn v Hv Hk. destruct (Forall2_In_l' _ _ _ _ Hw Hv) as (w & Hi & Hp).
      assert (Hs : In w (serialised ws)).
      { unfold serialised. apply filter_In. split; [exact Hi|]. destruct (va_skip (v_attrs w)) eqn:Es; [|reflexivity].
        destruct Hk. now apply (vp_skip _ _ _ _ _ _ Hp). }
      destruct (Forall2_In_l' _ _ _ _ Ht Hs) as (c & Hc & Hg). apply (Hf v w c); auto.
  Qed.

  Theorem derive_told i td : derive pe pp uni ev i = DOk td -> fields_apart pe pp i ->
    plain_m (td_body td) /\ (neat_m (td_body td) -> input_filled pe pp i).
  Proof.
    intros Hd Ha. destruct (derive_inv _ _ _ _ _ _ Hd) as (c & Hc & Hb & Hid & Hin).
    destruct td as [n0 i0 b]. cbn [td_body td_ident td_inline] in *. clear Hd Hid Hin. unfold fields_apart in Ha. unfold input_filled.
    pose proof (cp_data _ _ _ _ _ Hc) as Hdata. unfold serialize_body in Hb. inversion Hdata as [vs ws Hw E1 E2|f gs Hf E1 E2].
    - rewrite <- E1 in *. rewrite <- E2 in Hb. clear Hdata E2.
      assert (Hlive : forall w0, In w0 (serialised ws) -> exists v, In v vs /\ ~ variant_skipped pe pp v /\ v_discriminant w0 = vs_discriminant v).
      { intros w0 Hw0. unfold serialised in Hw0. apply filter_In in Hw0 as [Hi Hs]. destruct (Forall2_In_r _ _ _ _ Hw Hi) as (v & Hiv & Hp).
        exists v. split; [exact Hiv|]. split; [|apply Hp]. intros Hk. apply (vp_skip _ _ _ _ _ _ Hp) in Hk. rewrite Hk in Hs. discriminate. }
      assert (Hsome : serialised ws <> [] -> exists v, In v vs /\ ~ variant_skipped pe pp v).
      { destruct (serialised ws) as [|w0 l]; [congruence|]. intros _. destruct (Hlive w0) as (v & H1 & H2 & _); [now left|eauto]. }
      assert (Hrep : forall rep, represents pe pp (di_attrs i) rep <-> rep = rep_of (ca_tag_type (c_attrs c))) by (intros rep; now apply (cp_tag _ _ _ _ _ Hc vs)).
      pose proof (cp_kind _ _ _ _ _ Hc) as Hkind. rewrite <- E1 in Hkind. cbn [decide_model_kind] in Hkind.
      unfold serialize_enum in Hb. rewrite Hkind in Hb. destruct (forallb (fun v => is_unit (vs_fields v)) vs) eqn:Eu.
      + assert (Hb' : Some (serialize_newtype_enum c ws) = Some b) by (destruct (ca_tag_type (c_attrs c)); cbn in Hb; first [exact Hb|discriminate Hb]). injection Hb' as <-.
        assert (Hunits : forall v, In v vs -> unit_variant v) by now apply all_units_iff.
        assert (Hrest : forall rep, represents pe pp (di_attrs i) rep ->
          (forall v, In v vs -> ~ variant_skipped pe pp v -> variant_describable pe pp rep v) /\
          (forall t c v, rep = RepAdjacent t c -> In v vs -> ~ unit_variant v -> t <> c)).
        { intros rep _. split; [|intros t c0 v _ Hv Hn; now apply Hunits in Hv].
          intros v Hv _. unfold variant_describable. now rewrite (Hunits v Hv). }
        unfold serialize_newtype_enum. pose proof (cp_repr _ _ _ _ _ Hc) as Hrepr. rewrite <- E1 in Hrepr. cbn [shape] in Hrepr.
        unfold AttrSpec.flag_takes in Hrepr. destruct (ca_has_repr (c_attrs c)).
        * cbn. split.
          -- apply all_plain. intros r Hr. apply in_flat_map in Hr as (w & _ & Hr). destruct (v_discriminant w); [|destruct Hr]. destruct Hr as [<-|[]]. exact I.
          -- intros [Hne _]. split; [|exact Hrest].
             assert (Hex : exists w0 d, In w0 (serialised ws) /\ v_discriminant w0 = Some d).
             { clear -Hne. induction (serialised ws) as [|w l IH]; [now destruct Hne|]. destruct (v_discriminant w) as [d|] eqn:Ed; [exists w, d; split; [now left|exact Ed]|].
               cbn in Hne. rewrite Ed in Hne. destruct (IH Hne) as (w0 & d & H1 & H2). exists w0, d. split; [now right|exact H2]. }
             destruct Hex as (w0 & d & Hw0 & Hd). destruct (Hlive w0 Hw0) as (v & H1 & H2 & H3). exists v. split; [exact H1|]. split; [exact H2|]. intros _. congruence.
        * cbn. split; [exact I|]. intros Hne. split; [|exact Hrest]. destruct Hsome as (v & H1 & H2); [intros Hx; rewrite Hx in Hne; now apply Hne|].
          exists v. split; [exact H1|]. split; [exact H2|]. intros [Hx _]. apply Hrepr in Hx. discriminate.
      + assert (Hpay : exists v, In v vs /\ ~ unit_variant v).
        { clear -Eu. induction vs as [|v vs IH]; [discriminate|]. cbn in Eu. destruct (is_unit (vs_fields v)) eqn:Ei.
          - destruct (IH Eu) as (v' & ? & ?). exists v'. split; [now right|assumption].
          - exists v. split; [now left|]. intros Hx. rewrite Hx in Ei. discriminate. }
        destruct Hpay as (wv & Hwv & Hnu).
        assert (Hint : ~ written_as_int pe pp i vs) by (intros [_ Hx]; now apply Hx in Hwv).
        assert (Hfin : serialised ws <> [] -> exists v, In v vs /\ ~ variant_skipped pe pp v /\ (written_as_int pe pp i vs -> vs_discriminant v <> None)).
        { intros Hx. destruct (Hsome Hx) as (v & H1 & H2). exists v. split; [exact H1|]. split; [exact H2|]. intros Hy. now destruct Hint. }
        destruct (ca_tag_type (c_attrs c)) as [|tag|tag content|] eqn:Etag; cbn [fst rep_of] in *.
        * unfold serialize_external_tagged_enum in Hb. destruct (try_map _ _) as [cs|] eqn:Et; [|discriminate]. injection Hb as <-. cbn. rewrite all_plain, all_neat.
          edestruct (variants_told _ _ _ _ _ RepExternal Hw (fun v w c Hp Hn Hc => external_told _ v w Hp Hn c Hc) Ha Et) as (H1 & H2 & H3).
          split; [exact H1|]. intros [Hn Hn']. split; [auto|]. intros rep Hr. apply Hrep in Hr as ->. split; [auto|discriminate].
        * unfold serialize_internal_tagged_enum in Hb. destruct (try_map _ _) as [cs|] eqn:Et; [|discriminate]. injection Hb as <-. cbn. rewrite all_plain, all_neat.
          edestruct (variants_told _ _ _ _ _ (RepInternal tag) Hw (fun v w c0 Hp Hn Hc => internal_told _ v w Hp Hn _ tag c0 Hc) Ha Et) as (H1 & H2 & H3).
          split; [exact H1|]. intros [Hn Hn']. split; [auto|]. intros rep Hr. apply Hrep in Hr as ->. split; [auto|discriminate].
        * unfold serialize_adjacent_tagged_enum in Hb. destruct (try_map _ _) as [cs|] eqn:Et; [|discriminate]. injection Hb as <-. cbn. rewrite all_plain, all_neat.
          edestruct (variants_told _ _ _ _ _ (RepAdjacent tag content) Hw (fun v w c0 Hp Hn Hc => adjacent_told _ v w Hp Hn tag content c0 Hc) Ha Et) as (H1 & H2 & H3).
          split.
          -- split; [|split; [exact I|split; [exact H1|exact I]]]. destruct (str_eq_dec tag content) as [->|Hne].
             ++ right. intros Hx. inversion Hx as [|? ? Hx' _]; subst. apply Hx'. now left.
             ++ left. repeat constructor; [|intros []]. intros [Hx|[]]. congruence.
          -- intros (Hd & _ & [Hne Hn] & _). split; [auto|]. intros rep Hr. apply Hrep in Hr as ->. split; [auto|].
             intros t0 c0 v [= <- <-] _ _ Hx. subst. inversion Hd as [|? ? Hx' _]; subst. apply Hx'. now left.
        * unfold serialize_untagged_enum in Hb. destruct (try_map _ _) as [cs|] eqn:Et; [|discriminate]. injection Hb as <-. cbn. rewrite all_plain, all_neat.
          edestruct (variants_told _ _ _ _ _ RepUntagged Hw (fun v w c0 Hp Hn Hc => untagged_told _ v w Hp Hn c0 Hc) Ha Et) as (H1 & H2 & H3).
          split; [exact H1|]. intros [Hn Hn']. split; [auto|]. intros rep Hr. apply Hrep in Hr as ->. split; [auto|discriminate].
    - rewrite <- E1 in *. rewrite <- E2 in Hb. clear Hdata E2. pose proof (cp_rule _ _ _ _ _ Hc) as Hr. rewrite <- E1 in Hr. cbn [shape] in Hr.
      destruct f as [fs|fs|]; cbn [style_of fields_list] in *.
      + unfold serialize_struct in Hb. destruct (object_type_description _ _ _) as [t|] eqn:Et; [|discriminate]. injection Hb as <-. cbn.
        split; [eapply object_plain; eauto|]. intros _. now apply apart_once.
      + destruct (Nat.eqb (length fs) 1) eqn:El.
        * assert (Hne : fs <> []) by (intros ->; discriminate). split; [|auto].
          destruct gs as [|g gs]; [discriminate|]. unfold serialize_newtype_struct in Hb. destruct (ca_explicit (c_attrs c)) as [t|].
          -- destruct t; try discriminate; eapply newtype_plain; exact Hb.
          -- injection Hb as <-. reflexivity.
        * unfold serialize_tuple_struct in Hb. destruct (tuple_type_description _ _ _) as [t|] eqn:Et; [|discriminate]. injection Hb as <-. cbn.
          apply tuple_plain in Et as [H1 H2]. split; [exact H1|]. intros Hn. specialize (H2 Hn). inversion Hf; congruence.
      + discriminate.
  Qed.
End Facts.

Section Histories.
  Variables (pe pp : str -> bool) (uni : N -> bool) (ev : str -> str) (D : tid -> derive_input ty) (E : env).
  Variables (calls : list mention_call) (cx : components).
  Notation seen := (visited E (call_sites calls)).
  Hypothesis Hm : mentions_return E calls cx_new cx.
  Hypothesis Hv : forall c, In c calls -> p_variants (mc_params c) = None.

  Lemma refs_wf c cx0 r cx1 : mention_returns E (mc_ty c) (mc_inline c) (mc_params c) cx0 r cx1 -> wf_ref r.
  Proof. intros [f Hf]. eapply mention_wf_ref; [|exact Hf]. intros t c0 m c1. apply get_schema_wf_model. Qed.
  Lemma components_wf : wf_components cx.
  Proof. destruct Hm as [f Hs]. eapply mention_all_wf_components; [exact Hs|split; [split; constructor|intros ? ? []]]. Qed.
  (** in terms of [tidy] *)
  Lemma accepted_iff : accepted E calls cx <->
    (forall n m, In (n, m) (cx_schemas cx) -> component_name n /\ tidy m) /\
    (forall c cx0 r cx1, In c calls -> mention_returns E (mc_ty c) (mc_inline c) (mc_params c) cx0 r cx1 -> tidy_ref r).
  Proof.
    pose proof components_wf as [_ Hw]. split; intros [H1 H2]; (split; [intros n m Hi; destruct (H1 n m Hi) as [Ha Hb]; split; [exact Ha|]; apply is_schema_iff; auto; eapply Hw, Hi|]);
      intros c cx0 r cx1 Hc Hr; specialize (H2 _ _ _ _ Hc Hr); apply is_schema_ref; auto; eapply refs_wf; exact Hr.
  Qed.

  Definition seen_type (t : ty) : Prop := exists s, seen s /\ site_ty s = t.
  Lemma seen_closed t s : seen_type t -> In s (sites_of E t) -> seen_type (site_ty s).
  Proof. intros (s0 & H0 & <-) Hs. exists s. split; [now apply vis_step with s0|reflexivity]. Qed.
  Lemma neat_accepted : (forall s, seen s -> neat_own E (site_ty s)) ->
    (forall n m, In (n, m) (cx_schemas cx) -> tidy m) /\
    (forall c cx0 r cx1, In c calls -> mention_returns E (mc_ty c) (mc_inline c) (mc_params c) cx0 r cx1 -> tidy_ref r).
  Proof.
    intros Hn. assert (Hp : forall t, seen_type t -> neat_own E t) by (intros t (s & Hs & <-); auto).
    assert (Hroot : forall c, In c calls -> seen_type (mc_ty c)).
    { intros c Hc. exists (SMention (mc_ty c) (mc_inline c)). split; [|reflexivity]. constructor. unfold call_sites. apply in_map_iff. eauto. }
    set (Q := fun cx => forall n m, In (n, m) (cx_schemas cx) -> tidy m).
    assert (Qi : forall t n m cx, seen_type t -> type_name E t = Some n -> tidy m -> Q cx -> Q (cx_insert_schema n m cx)).
    { intros t n m cx0 _ _ Ht Hq k m0 Hin. cbn in Hin. apply bm_insert_In in Hin as [[-> ->]|Hin]; [exact Ht|now apply (Hq k)]. }
    split.
    - change (Q cx). destruct Hm as [f Hf]. assert (H0 : Q cx_new) by (intros ? ? []). revert H0 Hf. generalize cx_new as cx0.
      assert (Hsub : incl calls calls) by apply incl_refl. revert Hsub. generalize calls at 1 3 as l. clear - Hp Hroot Hv Qi.
      induction l as [|c l IH]; intros Hsub cx0 H0 Hf; cbn in Hf; binds; [exact H0|]. eapply IH; [intros x Hx; apply Hsub; now right| |eassumption].
      assert (Hc : In c calls) by (apply Hsub; now left).
      assert (Hpv : p_variants (mc_params c) <> Some []) by (rewrite (Hv c Hc); discriminate).
      match goal with H : mention _ _ _ _ _ _ = Ok _ |- _ =>
        exact (proj2 (mention_good E seen_type Q Qi _ (get_schema_good E seen_type Hp Q Qi seen_closed f) _ _ _ _ _ _ (Hroot c Hc) Hpv H0 H)) end.
    - intros c cx0 r cx1 Hc [f Hf].
      assert (Hpv : p_variants (mc_params c) <> Some []) by (rewrite (Hv c Hc); discriminate).
      assert (Ti : forall t n m cx, seen_type t -> type_name E t = Some n -> tidy m -> (fun _ : components => True) cx -> (fun _ => True) (cx_insert_schema n m cx)) by auto.
      exact (proj1 (mention_good E seen_type _ Ti _ (get_schema_good E seen_type Hp _ Ti seen_closed f) _ _ _ _ _ _ (Hroot c Hc) Hpv I Hf)).
  Qed.

  Hypothesis Hd : forall s id, seen s -> site_ty s = TNamed id -> derive pe pp uni ev (D id) = DOk (E id).
  Lemma filled_neat i td : derive pe pp uni ev i = DOk td -> input_filled pe pp i -> neat_m (td_body td).
  Proof. apply derive_filled_neat. Qed.
  Theorem types_iff : names_unambiguous E (call_sites calls) ->
    (forall s id, seen s -> site_ty s = TNamed id -> fields_apart pe pp (D id)) ->
    (accepted E calls cx <->
     (forall s, seen s -> match site_ty s with TNamed id => input_filled pe pp (D id) | TTuple ts => ts <> [] | _ => True end) /\
     (forall t n, linked E (call_sites calls) t -> type_name E t = Some n -> component_name n)).
  Proof.
    intros Hu Ha. rewrite accepted_iff. split.
    - intros [H1 H2]. assert (Hp : forall s, seen s -> plain_type E (site_ty s)).
      { intros s Hs. destruct (site_ty s) as [| | | | | |id] eqn:Es; cbn; auto. apply (derive_told pe pp uni ev (D id)); eauto. }
      split; [|intros t n; eapply linked_name; eauto]. intros s Hs. pose proof (visited_neat E calls cx Hu Hm Hv Hp H1 H2 s Hs) as Hn.
      destruct (site_ty s) as [| | | | | |id] eqn:Es; cbn in Hn; auto. eapply (derive_told pe pp uni ev (D id)); eauto.
    - intros [H1 H2]. destruct neat_accepted as [H3 H4].
      + intros s Hs. specialize (H1 s Hs). destruct (site_ty s) as [| | | | | |id] eqn:Es; cbn; auto. eapply filled_neat; eauto.
      + split; [|exact H4]. intros n m Hi. split; [|eapply H3; exact Hi].
        assert (Hg : bm_get n (cx_schemas cx) = Some m) by (apply bm_sorted_In_get; [apply components_wf|exact Hi]).
        destruct (registered_has_source E calls cx n m Hm Hg) as (t & c0 & c1 & Hl & Hn & _). eauto.
  Qed.
End Histories.
