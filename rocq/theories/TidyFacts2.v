(** The code derived from describable sources is neat. *)
From Verif Require Import Attr AttrSpec AttrFacts Ast AstFacts Derive DeriveSpec DeriveFacts DeriveFacts2 Schema SchemaSpec SchemaFacts Gen GenSpec
  GenFacts SoundSpec TidySpec TidyFacts.
From Coq Require Import Arith.

Lemma all_neat l : fold_right (fun r P => neat_r r /\ P) True l <-> forall r, In r l -> neat_r r.
Proof.
  induction l as [|r l IH]; cbn; [split; [intros _ r []|auto]|]. rewrite IH. split; [intros [H1 H2] r' [<-|Hi]; auto|intros H; split; auto].
Qed.
Lemma all_neat_stmts (l : list (str * rcode * bool)) :
  fold_right (fun s P => neat_r (snd (fst s)) /\ P) True l <-> forall s, In s l -> neat_r (snd (fst s)).
Proof.
  induction l as [|r l IH]; cbn; [split; [intros _ r []|auto]|]. rewrite IH. split; [intros [H1 H2] r' [<-|Hi]; auto|intros H; split; auto].
Qed.
Lemma Forall2_In_r {X Y} (R : X -> Y -> Prop) l l' y : Forall2 R l l' -> In y l' -> exists x, In x l /\ R x y.
Proof. induction 1 as [|x y' l l' H Hf IH]; intros Hi; [destruct Hi|]. destruct Hi as [<-|Hi]; [exists x; split; [now left|exact H]|]. destruct (IH Hi) as (x' & ? & ?). exists x'. split; [now right|assumption]. Qed.
Lemma Forall2_nonempty {X Y} (R : X -> Y -> Prop) l l' : Forall2 R l l' -> l <> [] -> l' <> [].
Proof. intros [|]; [congruence|discriminate]. Qed.

Section Facts.
  Variable pe pp : str -> bool.
  Variable uni : N -> bool.
  Variable ev : str -> str.

  Lemma newtype_neat b p t c : newtype_model b p t = Some c -> neat_m c.
  Proof. destruct t; cbn; intros [= <-]; cbn; auto; discriminate. Qed.
  Lemma reference_neat p (g : field ty) b r : p_variants p <> Some [] -> field_model_reference p g b = Some r -> neat_r r.
  Proof.
    intros Hp. unfold field_model_reference. destruct (fa_explicit (f_attrs g)) as [t|].
    - assert (H : forall t, match newtype_model (fa_nullable (f_attrs g)) p t with Some m => Some (RcInline m) | None => None end = Some r -> neat_r r).
      { intros t'. destruct (newtype_model _ p t') as [m|] eqn:E; [|discriminate]. intros [= <-]. now apply newtype_neat in E. }
      destruct t; try apply H. intros [= <-]. exact I.
    - intros [= <-]. exact Hp.
  Qed.
  Lemma tuple_neat gs inl t : gs <> [] -> tuple_type_description ev gs inl = Some t -> neat_t t.
  Proof.
    intros Hn. unfold tuple_type_description. destruct (try_map _ gs) as [l|] eqn:Et; [|discriminate]. intros [= <-]. cbn.
    apply try_map_Forall2 in Et. split; [exact (Forall2_nonempty _ _ _ Et Hn)|]. apply all_neat. intros r Hr.
    destruct (Forall2_In_r _ _ _ _ Et Hr) as (g & _ & Hg). eapply reference_neat; [|exact Hg]. discriminate.
  Qed.
  Lemma kept_required r l gs stmts (f : field ty -> option rcode) : Forall2 (kept pe pp r) l gs ->
    try_map (fun g => match f g with Some c => Some (n_serialized (fa_name (f_attrs g)), c, negb (fa_optional (f_attrs g))) | None => None end) gs = Some stmts ->
    required_names pe pp l (map (fun s => fst (fst s)) (filter snd stmts)).
  Proof.
    intros Hk. revert stmts. induction Hk as [|nf g l gs [[j Hf] Hn] Hk IH]; intros stmts Ht.
    - cbn in Ht. injection Ht as <-. constructor.
    - apply try_map_Forall2 in Ht. inversion Ht as [|? c ? cs' Hc Hcs]; subst. apply try_map_Forall2 in Hcs. specialize (IH _ Hcs).
      destruct (f g) as [c0|] eqn:Ec; [|discriminate]. injection Hc as <-. destruct nf as [n x]. cbn [fst snd] in *. subst n.
      pose proof (fp_optional _ _ _ _ _ _ Hf) as Ho. cbn [filter snd]. destruct (fa_optional (f_attrs g)); cbn [negb map fst].
      + apply rn_optional; auto. now apply Ho.
      + apply rn_required; auto. intros Hx. apply Ho in Hx. discriminate.
  Qed.
  Lemma object_neat pos attrs r fs gs inl t : has_rule pe pp pos attrs r -> fields_parsed pe pp r 0 fs gs -> required_once pe pp pos attrs fs ->
    object_type_description ev gs inl = Some t -> neat_t t.
  Proof.
    intros Hr Hp Ho. unfold object_type_description. destruct (try_map _ _) as [l|] eqn:Et; [|discriminate]. intros [= <-]. cbn.
    destruct (fields_kept _ _ _ _ _ _ Hp) as (l0 & Hl & Hk). split.
    - apply (Ho r l0); auto. eapply kept_required; eauto. exact Et.
    - apply try_map_Forall2 in Et. apply all_neat_stmts. intros s Hs. destruct (Forall2_In_r _ _ _ _ Et Hs) as (g & _ & Hg).
      destruct (field_model_reference _ g _) as [c|] eqn:Ec; [|discriminate]. injection Hg as <-. cbn. eapply reference_neat; [|exact Ec]. discriminate.
  Qed.

  Section Variant.
    Variables (r : rename_rule) (v : variant_syn ty) (w : variant ty).
    Hypothesis Hw : variant_parsed pe pp uni r v w.
    Lemma newtype_variant_neat c : newtype_variant ev w = Some c -> neat_r c.
    Proof. unfold newtype_variant. destruct (v_fields w) as [|g gs]; [discriminate|]. apply reference_neat. discriminate. Qed.
    Lemma object_variant_neat fs b c : vs_fields v = FNamed fs -> required_once pe pp PVariant (vs_attrs v) fs ->
      object_model ev b (va_description (v_attrs w)) (v_fields w) (inline_in w) = Some c -> neat_m c.
    Proof.
      intros Hf Ho. unfold object_model. destruct (object_type_description _ _ _) as [t|] eqn:Et; [|discriminate]. intros [= <-]. cbn.
      pose proof (vp_fields _ _ _ _ _ _ Hw) as Hp. rewrite Hf in Hp. eapply object_neat; eauto. apply Hw.
    Qed.
    Lemma tuple_variant_neat b c : fields_list (vs_fields v) <> [] ->
      tuple_model ev b (va_description (v_attrs w)) (v_fields w) (inline_in w) = Some c -> neat_m c.
    Proof.
      intros Hf. unfold tuple_model. destruct (tuple_type_description _ _ _) as [t|] eqn:Et; [|discriminate]. intros [= <-]. cbn.
      eapply tuple_neat; [|exact Et]. pose proof (vp_fields _ _ _ _ _ _ Hw) as Hp. inversion Hp; congruence.
    Qed.
    Lemma inline_neat om c : (forall m, om = Some m -> neat_m m) -> inline_reference om = Some c -> neat_r c.
    Proof. destruct om; [|discriminate]. intros H [= <-]. now apply H. Qed.
    Lemma external_neat c : variant_describable pe pp RepExternal v -> external_variant ev w = Some c -> neat_r c.
    Proof.
      unfold variant_describable, external_variant. intros Hv. destruct (v_style w) eqn:Es.
      - destruct (style_struct _ _ _ _ _ _ Hw Es) as (fs & Hf). rewrite Hf in Hv. apply inline_neat. intros m. now apply object_variant_neat with fs.
      - destruct (style_tuple _ _ _ _ _ _ Hw Es) as (fs & Hf & _). rewrite Hf in Hv. apply inline_neat. intros m. apply tuple_variant_neat. now rewrite Hf.
      - apply newtype_variant_neat.
      - intros [= <-]. cbn. discriminate.
    Qed.
    Lemma untagged_neat c : variant_describable pe pp RepUntagged v -> untagged_variant ev w = Some c -> neat_r c.
    Proof.
      unfold variant_describable, untagged_variant. intros Hv. destruct (v_style w) eqn:Es; try discriminate.
      - destruct (style_struct _ _ _ _ _ _ Hw Es) as (fs & Hf). rewrite Hf in Hv. apply inline_neat. intros m. now apply object_variant_neat with fs.
      - apply newtype_variant_neat.
    Qed.
    Lemma adjacent_neat tag content c : variant_describable pe pp (RepAdjacent tag content) v -> adjacent_variant ev w = Some c -> neat_r c.
    Proof.
      unfold variant_describable, adjacent_variant. intros Hv. destruct (v_style w) eqn:Es; try discriminate.
      - destruct (style_struct _ _ _ _ _ _ Hw Es) as (fs & Hf). rewrite Hf in Hv. apply inline_neat. intros m. apply tuple_variant_neat. now rewrite Hf.
      - destruct (style_tuple _ _ _ _ _ _ Hw Es) as (fs & Hf & _). rewrite Hf in Hv. apply inline_neat. intros m. apply tuple_variant_neat. now rewrite Hf.
      - apply newtype_variant_neat.
    Qed.
    Lemma internal_neat ct tag c : variant_describable pe pp (RepInternal tag) v -> internal_variant ev ct tag w = Some c -> neat_r c.
    Proof.
      unfold variant_describable, internal_variant. intros Hv. destruct (internal_model ev w) as [m|] eqn:Em; [|discriminate]. intros [= <-]. cbn.
      unfold internal_model in Em. destruct (v_style w) eqn:Es; try discriminate.
      - destruct (style_struct _ _ _ _ _ _ Hw Es) as (fs & Hf). rewrite Hf in Hv. now apply object_variant_neat with fs false.
      - destruct (v_fields w) as [|g gs]; [discriminate|]. injection Em as <-. discriminate.
      - cbn in Em. injection Em as <-. cbn. split; [constructor|exact I].
    Qed.
  End Variant.
  Lemma variants_neat r vs ws (f : variant ty -> option rcode) cs rep : Forall2 (variant_parsed pe pp uni r) vs ws ->
    (forall v w c, variant_parsed pe pp uni r v w -> variant_describable pe pp rep v -> f w = Some c -> neat_r c) ->
    (forall v, In v vs -> ~ variant_skipped pe pp v -> variant_describable pe pp rep v) ->
    serialised ws <> [] -> try_map f (serialised ws) = Some cs -> cs <> [] /\ forall r, In r cs -> neat_r r.
  Proof.
    intros Hw Hf Hv Hn Ht. apply try_map_Forall2 in Ht. split; [exact (Forall2_nonempty _ _ _ Ht Hn)|]. intros c Hc.
    destruct (Forall2_In_r _ _ _ _ Ht Hc) as (w & Hi & Hg). unfold serialised in Hi. apply filter_In in Hi as [Hi Hs].
    destruct (Forall2_In_r _ _ _ _ Hw Hi) as (v & Hiv & Hp). apply (Hf v w); auto. apply Hv; auto.
    intros Hk. apply (vp_skip _ _ _ _ _ _ Hp) in Hk. rewrite Hk in Hs. discriminate.
  Qed.

  Theorem derive_filled_neat i td : derive pe pp uni ev i = DOk td -> input_filled pe pp i -> neat_m (td_body td).
  Proof.
    intros Hd Hi. destruct (derive_inv _ _ _ _ _ _ Hd) as (c & Hc & Hb & Hid & Hin). unfold input_filled in Hi. destruct td as [n0 i0 b]. cbn [td_body td_ident td_inline] in *. clear Hd Hid Hin.
    pose proof (cp_data _ _ _ _ _ Hc) as Hdata. unfold serialize_body in Hb. inversion Hdata as [vs ws Hw E1 E2|f gs Hf E1 E2].
    - rewrite <- E1 in Hi. rewrite <- E2 in Hb. clear Hdata E2. destruct Hi as [(v0 & Hv0 & Hk0 & Hr0) Hv].
      assert (Hn : exists w0, In w0 (serialised ws) /\ v_discriminant w0 = vs_discriminant v0).
      { clear -Hw Hv0 Hk0. induction Hw as [|v w vs ws Hp Hw IH]; [destruct Hv0|]. unfold serialised in *. cbn. destruct Hv0 as [->|Hv0].
        - exists w. split; [|apply Hp]. destruct (va_skip (v_attrs w)) eqn:Es; [|now left].
          destruct Hk0. now apply (vp_skip _ _ _ _ _ _ Hp).
        - destruct (IH Hv0) as (w0 & H1 & H2). exists w0. split; [|exact H2]. destruct (va_skip (v_attrs w)); [exact H1|now right]. }
      destruct Hn as (w0 & Hw0 & Hdisc). assert (Hne : serialised ws <> []) by (intros Hx; now rewrite Hx in Hw0).
      assert (Hrep : represents pe pp (di_attrs i) (rep_of (ca_tag_type (c_attrs c)))) by now apply (cp_tag _ _ _ _ _ Hc vs).
      destruct (Hv _ Hrep) as [Hvd Htc]. pose proof (cp_kind _ _ _ _ _ Hc) as Hkind. rewrite <- E1 in Hkind. cbn [decide_model_kind] in Hkind.
      unfold serialize_enum in Hb. rewrite Hkind in Hb. destruct (forallb (fun v => is_unit (vs_fields v)) vs) eqn:Eu.
      + assert (Hb' : Some (serialize_newtype_enum c ws) = Some b) by (destruct (ca_tag_type (c_attrs c)); cbn in Hb; first [exact Hb|discriminate Hb]). injection Hb' as <-.
        unfold serialize_newtype_enum. pose proof (cp_repr _ _ _ _ _ Hc) as Hrepr. rewrite <- E1 in Hrepr. cbn [shape] in Hrepr.
        unfold AttrSpec.flag_takes in Hrepr. destruct (ca_has_repr (c_attrs c)).
        * cbn. split.
          -- assert (Hx : vs_discriminant v0 <> None) by (apply Hr0; split; [now apply Hrepr|now apply all_units_iff]).
             intros Hnil. destruct (v_discriminant w0) as [d|] eqn:Ed; [|congruence].
             assert (Hi : In w0 (serialised ws)) by exact Hw0. clear -Hnil Hi Ed. induction (serialised ws) as [|w l IH]; [destruct Hi|].
             cbn in Hnil. destruct Hi as [->|Hi]; [rewrite Ed in Hnil; discriminate|]. apply app_eq_nil in Hnil as [_ Hnil]. auto.
          -- apply all_neat. intros r Hr. apply in_flat_map in Hr as (w & _ & Hr). destruct (v_discriminant w); [|destruct Hr]. destruct Hr as [<-|[]]. exact I.
        * cbn. intros Hx. injection Hx as Hx. apply map_eq_nil in Hx. congruence.
      + assert (Hpay : exists v, In v vs /\ ~ unit_variant v).
        { clear -Eu. induction vs as [|v vs IH]; [discriminate|]. cbn in Eu. destruct (is_unit (vs_fields v)) eqn:Ei.
          - destruct (IH Eu) as (v' & ? & ?). exists v'. split; [now right|assumption].
          - exists v. split; [now left|]. intros Hx. rewrite Hx in Ei. discriminate. }
        destruct Hpay as (wv & Hwv & Hnu).
        destruct (ca_tag_type (c_attrs c)) as [|tag|tag content|] eqn:Etag; cbn [fst rep_of] in *.
        * unfold serialize_external_tagged_enum in Hb. destruct (try_map _ _) as [cs|] eqn:Et; [|discriminate]. injection Hb as <-. cbn. rewrite all_neat.
          eapply variants_neat; [exact Hw| |exact Hvd|exact Hne|exact Et]. intros. eapply external_neat; eauto.
        * unfold serialize_internal_tagged_enum in Hb. destruct (try_map _ _) as [cs|] eqn:Et; [|discriminate]. injection Hb as <-. cbn. rewrite all_neat.
          eapply variants_neat; [exact Hw| |exact Hvd|exact Hne|exact Et]. intros. eapply internal_neat; eauto.
        * unfold serialize_adjacent_tagged_enum in Hb. destruct (try_map _ _) as [cs|] eqn:Et; [|discriminate]. injection Hb as <-. cbn. rewrite all_neat.
          split; [|split; [|split; [|exact I]]].
          -- repeat constructor; [|intros []]. intros [Hx|[]]. exact (Htc _ _ _ eq_refl Hwv Hnu (eq_sym Hx)).
          -- intros Hx. injection Hx as Hx. apply map_eq_nil in Hx. congruence.
          -- eapply variants_neat; [exact Hw| |exact Hvd|exact Hne|exact Et]. intros. eapply adjacent_neat; eauto.
        * unfold serialize_untagged_enum in Hb. destruct (try_map _ _) as [cs|] eqn:Et; [|discriminate]. injection Hb as <-. cbn. rewrite all_neat.
          eapply variants_neat; [exact Hw| |exact Hvd|exact Hne|exact Et]. intros. eapply untagged_neat; eauto.
    - rewrite <- E1 in Hi. rewrite <- E2 in Hb. clear Hdata E2. pose proof (cp_rule _ _ _ _ _ Hc) as Hr. rewrite <- E1 in Hr. cbn [shape] in Hr.
      destruct f as [fs|fs|]; cbn [style_of fields_list] in *.
      + unfold serialize_struct in Hb. destruct (object_type_description _ _ _) as [t|] eqn:Et; [|discriminate]. injection Hb as <-. cbn.
        eapply object_neat; eauto.
      + destruct (Nat.eqb (length fs) 1).
        * destruct gs as [|g gs]; [discriminate|]. unfold serialize_newtype_struct in Hb. destruct (ca_explicit (c_attrs c)) as [t|].
          -- destruct t; try discriminate; eapply newtype_neat; exact Hb.
          -- injection Hb as <-. discriminate.
        * unfold serialize_tuple_struct in Hb. destruct (tuple_type_description _ _ _) as [t|] eqn:Et; [|discriminate]. injection Hb as <-. cbn.
          eapply tuple_neat; [|exact Et]. inversion Hf; congruence.
      + discriminate.
  Qed.

  Theorem derive_neat i td : derive pe pp uni ev i = DOk td -> input_describable pe pp i ->
    neat_m (td_body td) /\ (td_inline td = false -> component_name (td_ident td)).
  Proof.
    intros Hd [Hi Hname]. split; [now apply derive_filled_neat with i|]. destruct (derive_inv _ _ _ _ _ _ Hd) as (c & Hc & Hb & Hid & Hin).
    rewrite Hid, Hin. intros Hf. destruct Hname as [Hs|Hs]; [|exact Hs]. apply (cp_inline _ _ _ _ _ Hc) in Hs. congruence.
  Qed.

  Lemma type_name_reached E t n : type_name E t = Some n -> exists id, reached E t (TNamed id) /\ td_inline (E id) = false /\ n = td_ident (E id).
  Proof.
    assert (Hs : forall t t' n, type_name E t' = Some n -> In (SCall t') (sites_of E t) ->
      (exists id, reached E t' (TNamed id) /\ td_inline (E id) = false /\ n = td_ident (E id)) ->
      exists id, reached E t (TNamed id) /\ td_inline (E id) = false /\ n = td_ident (E id)).
    { intros t0 t1 n1 _ Hi (id & Hr & Hx). exists id. split; [|exact Hx]. right. assert (Hrt : refers_to E t0 t1) by (exists (SCall t1); now split).
      destruct Hr as [<-|Hr]; [now constructor|now apply cont_more with t1]. }
    induction t as [p|w t IH|t IH|ts|k t IH|k t IH|id]; cbn [type_name]; try discriminate.
    - intros H. apply (Hs _ t n H); [now left|auto].
    - intros H. apply (Hs _ t n H); [now left|auto].
    - destruct (td_inline (E id)) eqn:Ei; [discriminate|]. intros [= <-]. exists id. split; [now left|now split].
  Qed.
  Theorem describable_neat D E t : describable pe pp uni ev D E t -> neat E t.
  Proof.
    intros [Hd Ht] t' Hr. split.
    - destruct t' as [p|w t'|t'|ts|k t'|k t'|id]; try exact I.
      + intros ->. apply Ht. destruct Hr as [<-|Hr]; auto.
      + destruct (Hd id) as [H1 H2]; [destruct Hr as [<-|Hr]; auto|]. apply (derive_neat _ _ H1 H2).
    - intros n Hn. destruct (type_name_reached E t' n Hn) as (id & Hi & Hin & ->).
      assert (Hx : reached E t (TNamed id)).
      { destruct Hi as [<-|Hi]; [exact Hr|]. destruct Hr as [->|Hr]; [now right|]. right. clear -Hr Hi.
        induction Hr as [t1 t2 H|t1 t2 t3 H Hc IH]; [now apply cont_more with t2|apply cont_more with t2; auto]. }
      destruct (Hd id) as [H1 H2]; [destruct Hx as [<-|Hx]; auto|]. now apply (derive_neat _ _ H1 H2).
  Qed.
End Facts.
