(** The outcome of the derive: generated code, errors or a panic. *)
From Verif Require Import Attr AttrSpec AttrFacts Ast AstFacts Derive DeriveSpec DeriveFacts DeriveFacts2 Schema SchemaSpec
  Gen GenSpec GenFacts CaseSpec CaseFacts.
From Coq Require Import Arith Lia.

Section Facts.
  Variable pe pp : str -> bool.
  Variable uni : N -> bool.
  Variable ev : str -> str.
  Notation said := (said pe pp).
  Notation derive := (derive pe pp uni ev).

  Lemma field_ref_some p (g : field ty) b : exists c, field_model_reference p g b = Some c.
  Proof. unfold field_model_reference. destruct (fa_explicit (f_attrs g)) as [[]|]; cbn; eauto. Qed.

  Lemma object_desc_some gs inl : exists t, object_type_description ev gs inl = Some t.
  Proof.
    unfold object_type_description. destruct (try_map _ _) eqn:E; eauto.
    apply try_map_None in E as (g & _ & E). destruct (field_ref_some (params_of_field ev (f_attrs g)) g (inl g)) as [c Hc].
    rewrite Hc in E. discriminate.
  Qed.
  Lemma tuple_desc_some gs inl : exists t, tuple_type_description ev gs inl = Some t.
  Proof.
    unfold tuple_type_description. destruct (try_map _ _) eqn:E; eauto.
    apply try_map_None in E as (g & _ & E). destruct (field_ref_some (params_of_field ev (f_attrs g)) g (inl g)) as [c Hc].
    congruence.
  Qed.
  Lemma object_model_some b d gs inl : exists t, inline_reference (object_model ev b d gs inl) = Some t.
  Proof. unfold object_model. destruct (object_desc_some gs inl) as [t ->]. cbn. eauto. Qed.
  Lemma tuple_model_some b d gs inl : exists t, inline_reference (tuple_model ev b d gs inl) = Some t.
  Proof. unfold tuple_model. destruct (tuple_desc_some gs inl) as [t ->]. cbn. eauto. Qed.

  Lemma newtype_some r v w : variant_parsed pe pp uni r v w -> v_style w = StNewType -> exists c, newtype_variant ev w = Some c.
  Proof.
    intros Hw Hs. destruct (fields_one _ _ _ _ _ _ Hw Hs) as (f & g & _ & Hg & _). unfold newtype_variant. rewrite Hg.
    apply field_ref_some.
  Qed.

  Section Variant.
    Variables (r : rename_rule) (v : variant_syn ty) (w : variant ty).
    Hypothesis Hw : variant_parsed pe pp uni r v w.

    Lemma style_tuple_iff : v_style w = StTuple <-> exists fs, vs_fields v = FUnnamed fs /\ length fs <> 1.
    Proof.
      split; [eapply style_tuple; eauto|]. intros (fs & Hf & Hl). rewrite (vp_style _ _ _ _ _ _ Hw), Hf. cbn.
      now destruct (Nat.eqb_spec (length fs) 1).
    Qed.
    Lemma style_unit_iff : v_style w = StUnit <-> unit_variant v.
    Proof.
      split; [eapply style_unit; eauto|]. intros Hf. rewrite (vp_style _ _ _ _ _ _ Hw), Hf. reflexivity.
    Qed.

    Lemma external_some : external_variant ev w <> None.
    Proof.
      unfold external_variant. destruct (v_style w) eqn:Es.
      - destruct (object_model_some false (va_description (v_attrs w)) (v_fields w) (inline_in w)) as [t ->]. discriminate.
      - destruct (tuple_model_some false (va_description (v_attrs w)) (v_fields w) (inline_in w)) as [t ->]. discriminate.
      - destruct (newtype_some _ _ _ Hw Es) as [c ->]. discriminate.
      - discriminate.
    Qed.
    Lemma untagged_none : untagged_variant ev w = None <->
      vs_fields v = FUnit \/ exists fs, vs_fields v = FUnnamed fs /\ length fs <> 1.
    Proof.
      pose proof style_tuple_iff as Ht. pose proof style_unit_iff as Hu. unfold unit_variant in Hu. rewrite <- Ht, <- Hu.
      unfold untagged_variant. destruct (v_style w) eqn:Es.
      - destruct (object_model_some false (va_description (v_attrs w)) (v_fields w) (inline_in w)) as [t ->].
        split; [discriminate | intros [H|H]; discriminate].
      - intuition.
      - destruct (newtype_some _ _ _ Hw Es) as [c ->]. split; [discriminate | intros [H|H]; discriminate].
      - intuition.
    Qed.
    Lemma adjacent_none : adjacent_variant ev w = None <-> unit_variant v.
    Proof.
      rewrite <- style_unit_iff. unfold adjacent_variant. destruct (v_style w) eqn:Es.
      - destruct (tuple_model_some false (va_description (v_attrs w)) (v_fields w) (inline_in w)) as [t ->]. split; discriminate.
      - destruct (tuple_model_some false (va_description (v_attrs w)) (v_fields w) (inline_in w)) as [t ->]. split; discriminate.
      - destruct (newtype_some _ _ _ Hw Es) as [c ->]. split; discriminate.
      - tauto.
    Qed.
    Lemma internal_none c tag : internal_variant ev c tag w = None <->
      exists fs, vs_fields v = FUnnamed fs /\ length fs <> 1.
    Proof.
      rewrite <- style_tuple_iff. unfold internal_variant, internal_model, object_model. destruct (v_style w) eqn:Es.
      - destruct (object_desc_some (v_fields w) (inline_in w)) as [t ->]. split; discriminate.
      - tauto.
      - destruct (fields_one _ _ _ _ _ _ Hw Es) as (f & g & _ & Hg & _). rewrite Hg. split; discriminate.
      - cbn. split; discriminate.
    Qed.
  End Variant.

  (** which variants are serialised *)
  Lemma serialised_In r vs ws : Forall2 (variant_parsed pe pp uni r) vs ws -> forall (P : variant_syn ty -> Prop) (Q : variant ty -> Prop),
    (forall v w, variant_parsed pe pp uni r v w -> (Q w <-> P v)) ->
    ((exists w, In w (serialised ws) /\ Q w) <-> exists v, In v vs /\ ~ variant_skipped pe pp v /\ P v).
  Proof.
    intros H P Q HPQ. unfold serialised, variant_skipped. induction H as [|v w vs ws Hv Hr IH].
    - split; [intros (w & [] & _)|intros (v & [] & _)].
    - cbn [filter]. pose proof (vp_skip _ _ _ _ _ _ Hv) as Hs. unfold AttrSpec.flag_takes in Hs. split.
      + intros (w' & Hin & Hq). destruct (va_skip (v_attrs w)); cbn [negb] in Hin.
        * destruct IH as [IH _]. destruct IH as (v' & H1 & H2 & H3); eauto. exists v'. cbn. auto.
        * destruct Hin as [<-|Hin].
          -- exists v. cbn. split; auto. split; [|now apply (HPQ v w)]. rewrite <- Hs. discriminate.
          -- destruct IH as [IH _]. destruct IH as (v' & H1 & H2 & H3); eauto. exists v'. cbn. auto.
      + intros (v' & [->|Hin] & Hns & Hp).
        * destruct (va_skip (v_attrs w)); [destruct Hns; now apply Hs|]. cbn. exists w. split; auto. now apply (HPQ v' w).
        * destruct IH as [_ IH]. destruct IH as (w' & H1 & H2); eauto. exists w'. split; auto.
          destruct (va_skip (v_attrs w)); cbn; auto.
  Qed.

  Lemma body_None i c : container_parsed pe pp uni i c -> (serialize_body ev c = None <-> undescribed pe pp i).
  Proof.
    intros Hc. pose proof (cp_data _ _ _ _ _ Hc) as Hdata. pose proof (cp_kind _ _ _ _ _ Hc) as Hkind.
    pose proof (cp_kind_ok _ _ _ _ _ Hc) as Hok. pose proof (cp_tag _ _ _ _ _ Hc) as Htag.
    pose proof (cp_explicit _ _ _ _ _ Hc) as Hex. unfold serialize_body.
    inversion Hdata as [vs ws Hw Heq1 Heq2|f gs Hf Heq1 Heq2].
    - symmetry in Heq1. specialize (Htag vs). unfold serialize_enum. rewrite Hkind. rewrite Heq1 in *. cbn [decide_model_kind] in *.
      assert (Hinv : forall P : Prop, ((exists rep, represents pe pp (di_attrs i) rep /\ rep = rep_of (ca_tag_type (c_attrs c)) /\
          ((rep = RepUntagged /\ exists v, In v vs /\ ~ variant_skipped pe pp v /\
              (vs_fields v = FUnit \/ exists fs, vs_fields v = FUnnamed fs /\ length fs <> 1)) \/
           (exists t c', rep = RepAdjacent t c' /\ (exists w, In w vs /\ ~ unit_variant w) /\
              exists v, In v vs /\ ~ variant_skipped pe pp v /\ unit_variant v) \/
           (exists t, rep = RepInternal t /\ exists v, In v vs /\ ~ variant_skipped pe pp v /\ exists fs, vs_fields v = FUnnamed fs /\ length fs <> 1))) <-> P) ->
          (undescribed pe pp i <-> P)).
      { intros P HP. rewrite <- HP. split.
        - intros Hu. destruct Hu as [vs' v E Hr Hin Hs Hx|vs' v w t c' E Hr Hin Hnu Hv Hs Hx|vs' v t fs E Hr Hin Hs Hx Hl|f E _];
            rewrite Heq1 in E; try discriminate; injection E as <-.
          + exists RepUntagged. split; auto. split; [now apply Htag|]. left. eauto 6.
          + exists (RepAdjacent t c'). split; auto. split; [now apply Htag|]. right. left. exists t, c'. split; [reflexivity|]. split; [exists w; auto | exists v; auto].
          + exists (RepInternal t). split; auto. split; [now apply Htag|]. right. right. exists t. split; [reflexivity|]. exists v. eauto 6.
        - intros (rep & Hr & _ & [(-> & v & H1 & H2 & H3)|[(t & c' & -> & (w & H1 & H2) & v & H3 & H4 & H5)|(t & -> & v & H1 & H2 & fs & H3 & H4)]]).
          + eapply ud_untagged; eauto.
          + apply (ud_adjacent _ _ _ vs v w t c'); auto.
          + eapply ud_internal; eauto. }
      symmetry. apply Hinv. clear Hinv.
      pose proof (all_units_iff vs) as Hau. destruct (forallb (fun v => is_unit (vs_fields v)) vs) eqn:Eu.
      + assert (Hall : all_units vs) by now apply Hau.
        destruct (ca_tag_type (c_attrs c)) eqn:Et; cbn in Hok; try discriminate; cbn [fst]; (split; [|discriminate]);
          intros (rep & _ & -> & [(Hx & _)|[(t' & c' & Hx & (w & H1 & H2) & _)|(t' & Hx & v & H1 & _ & fs & H3 & _)]]);
          try discriminate; exfalso.
        * rewrite (Hall _ H1) in H3. discriminate.
        * apply H2, Hall, H1.
      + assert (Hnall : exists w, In w vs /\ ~ unit_variant w).
        { clear -Eu. induction vs as [|v vs IH]; cbn in Eu; [discriminate|]. apply andb_false_iff in Eu as [Eu|Eu].
          - exists v. split; cbn; auto. unfold unit_variant. intros Hf. rewrite Hf in Eu. discriminate.
          - destruct (IH Eu) as (w & H1 & H2). exists w. cbn. auto. }
        destruct (ca_tag_type (c_attrs c)) as [|t|t c'|] eqn:Et; cbn [fst].
        * unfold serialize_external_tagged_enum.
          assert (Hx : try_map (external_variant ev) (serialised ws) <> None).
          { intros Hx. apply try_map_None in Hx. rewrite (serialised_In _ _ _ Hw (fun _ => False) (fun w => external_variant ev w = None)) in Hx.
            - destruct Hx as (v & _ & _ & []).
            - intros v w Hv. split; [|tauto]. intros Hn. eapply external_some; eauto. }
          destruct (try_map _ _); [|congruence]. split; [|discriminate].
          intros (rep & _ & -> & [(Hy & _)|[(t' & c' & Hy & _)|(t' & Hy & _)]]); discriminate.
        * unfold serialize_internal_tagged_enum.
          pose proof (try_map_None (internal_variant ev c t) (serialised ws)) as Hx.
          rewrite (serialised_In _ _ _ Hw (fun v => exists fs, vs_fields v = FUnnamed fs /\ length fs <> 1) (fun w => internal_variant ev c t w = None)) in Hx
            by (intros v w Hv; eapply internal_none; eauto).
          destruct (try_map _ _).
          -- split; [|discriminate]. intros (rep & _ & -> & [(Hy & _)|[(t' & c' & Hy & _)|(t' & Hy & Hz)]]); try discriminate.
             apply Hx in Hz. discriminate.
          -- split; auto. intros _. exists (RepInternal t). split; [now apply Htag|]. split; auto. right. right. exists t. split; auto. now apply Hx.
        * unfold serialize_adjacent_tagged_enum.
          pose proof (try_map_None (adjacent_variant ev) (serialised ws)) as Hx.
          rewrite (serialised_In _ _ _ Hw (fun v => unit_variant v) (fun w => adjacent_variant ev w = None)) in Hx
            by (intros v w Hv; eapply adjacent_none; eauto).
          destruct (try_map _ _).
          -- split; [|discriminate]. intros (rep & _ & -> & [(Hy & _)|[(t' & c'' & Hy & _ & Hz)|(t' & Hy & Hz)]]); try discriminate.
             apply Hx in Hz. discriminate.
          -- split; auto. intros _. exists (RepAdjacent t c'). split; [now apply Htag|]. split; auto. right. left. exists t, c'. split; auto. split; auto. now apply Hx.
        * unfold serialize_untagged_enum.
          pose proof (try_map_None (untagged_variant ev) (serialised ws)) as Hx.
          rewrite (serialised_In _ _ _ Hw (fun v => vs_fields v = FUnit \/ exists fs, vs_fields v = FUnnamed fs /\ length fs <> 1) (fun w => untagged_variant ev w = None)) in Hx
            by (intros v w Hv; eapply untagged_none; eauto).
          destruct (try_map _ _).
          -- split; [|discriminate]. intros (rep & _ & -> & [(_ & Hz)|[(t' & c'' & Hy & _ & Hz)|(t' & Hy & Hz)]]); try discriminate.
             apply Hx in Hz. discriminate.
          -- split; auto. intros _. exists RepUntagged. split; [now apply Htag|]. split; auto. left. split; auto. now apply Hx.
    - symmetry in Heq1. rewrite Heq1 in *. cbn [shape] in *.
      assert (Hinv : undescribed pe pp i <-> exists g, f = FUnnamed [g] /\ said (PContainer DkOther) (di_attrs i) (SType ETAny)).
      { split.
        - intros Hu. destruct Hu as [vs' v E Hr Hin Hs Hx|vs' v w t c' E Hr Hin Hnu Hv Hs Hx|vs' v t fs E Hr Hin Hs Hx Hl|g E Hs];
            rewrite Heq1 in E; try discriminate. injection E as ->. eauto.
        - intros (g & -> & Hs). eapply ud_newtype_any; eauto. }
      rewrite Hinv. destruct f as [fs|fs|]; cbn [style_of].
      + unfold serialize_struct. destruct (object_desc_some gs (fun f => fa_inline (f_attrs f))) as [t ->].
        split; [discriminate | intros (g & H & _); discriminate].
      + cbn [fields_list] in Hf. destruct (Nat.eqb_spec (length fs) 1) as [Hl|Hl].
        * destruct fs as [|g [|g' fs]]; try discriminate. inversion Hf as [|? ? gg ? gs' Hg Hr]; subst. inversion Hr; subst.
          unfold serialize_newtype_struct. unfold AttrSpec.takes in Hex. specialize (Hex ETAny).
          destruct (ca_explicit (c_attrs c)) as [[]|]; cbn;
            try (split; [discriminate | intros (g' & _ & Hs); apply Hex in Hs; discriminate]).
          split; auto. intros _. exists g. split; auto. now apply Hex.
        * unfold serialize_tuple_struct. destruct (tuple_desc_some gs (fun f => fa_inline (f_attrs f))) as [t ->].
          split; [discriminate|]. intros (g & [= ->] & _). cbn in Hl. congruence.
      + cbn in Hok. discriminate.
  Qed.

  (** *** Outcomes *)

  Lemma derive_panics i : attributes_acceptable pe pp i -> ~ unsupported pe pp i ->
    (derive i = DPanic <-> unnameable pe pp i \/ undescribed pe pp i).
  Proof.
    intros Ha Hu. pose proof (proj2 (from_ast_errors pe pp uni i) (conj Ha Hu)) as He.
    unfold Derive.derive. destruct (container_from_ast pe pp uni i) as [r es] eqn:Ec. cbn in He. subst es.
    apply from_ast_parsed in Ec. destruct r as [|c|]; [destruct Ec| |].
    - destruct Ec as [Hc Hn]. pose proof (body_None _ _ Hc) as Hb. destruct (serialize_body ev c).
      + split; [discriminate|]. intros [H|H]; [contradiction|]. apply Hb in H. discriminate.
      + split; auto. intros _. right. now apply Hb.
    - tauto.
  Qed.

  Lemma derive_DErr i es : derive i = DErr es -> es <> [] /\ (~ attributes_acceptable pe pp i \/ unsupported pe pp i).
  Proof.
    unfold Derive.derive. pose proof (from_ast_errors pe pp uni i) as He. intros H.
    assert (Hx : snd (container_from_ast pe pp uni i) = es /\ es <> []).
    { destruct (container_from_ast pe pp uni i) as [r es0]. cbn. destruct r as [|c|]; try discriminate.
      - destruct es0; [discriminate|]. injection H as <-. split; congruence.
      - destruct es0; [destruct (serialize_body ev c); discriminate|]. injection H as <-. split; congruence. }
    destruct Hx as [Hx Hne]. split; auto.
    destruct (container_from_ast pe pp uni i) as [r es0] eqn:Ec. cbn in *. subst es0.
    (* decidability through the errors *)
    assert (Hd : ~ (attributes_acceptable pe pp i /\ ~ unsupported pe pp i)) by (intros Hc; apply He in Hc; contradiction).
    clear -Hd Ec. unfold container_from_ast in Ec. destruct (container_attrs_from_ast pe pp i) as [a es1] eqn:Ea.
    pose proof (container_attrs_say pe pp i _ _ Ea) as Hes.
    assert (Hdec : forall pos l, acceptable pe pp pos l \/ ~ acceptable pe pp pos l).
    { intros pos l. rewrite <- parse_accept. unfold ok_state. destruct (parse_attrs pe pp pos l) as [s es0]. cbn.
      destruct es0; [|right; intros [? _]; discriminate]. destruct (le_lt_dec (length (s_types s)) 1); [auto|right; lia]. }
    assert (Hacc : attributes_acceptable pe pp i \/ ~ attributes_acceptable pe pp i).
    { rewrite attributes_iff. destruct (Hdec (PContainer (shape (di_data i))) (di_attrs i)) as [H1|H1]; [|tauto].
      destruct (di_data i) as [vs|f|].
      - pose proof (variants_errors pe pp vs) as Hv. destruct (snd (variants_from_ast pe pp vs)).
        + left. split; auto. now apply Hv.
        + right. intros [_ H2]. apply Hv in H2. discriminate.
      - pose proof (fields_errors pe pp 0 (fields_list f)) as Hv. destruct (snd (fields_from_ast pe pp 0 (fields_list f))).
        + left. split; auto. intros x. now apply Hv.
        + right. intros [_ H2]. assert (e :: l = []) by (apply Hv; exact H2). discriminate.
      - auto. }
    destruct Hacc as [Hacc|]; [|auto]. right.
    (* the shape decides *)
    assert (Hun : unsupported pe pp i \/ ~ unsupported pe pp i).
    { destruct (from_ast_errors pe pp uni i) as [_ He]. pose proof (from_ast_errors pe pp uni i) as He'.
      destruct (snd (container_from_ast pe pp uni i)) eqn:Es.
      - right. now apply He'.
      - destruct (di_data i) as [vs|[fs|fs|]|] eqn:Ed.
        + pose proof (mixed_iff vs) as Hm. destruct (consistent_discriminants vs).
          * pose proof (all_units_iff vs) as Hau. destruct (forallb (fun v => is_unit (vs_fields v)) vs).
            -- pose proof (Hacc _ _ (aa_container i)) as Hca. apply acceptable_takes in Hca as [s []]. rewrite Ed in *. cbn [shape] in *.
               pose proof (represents_iff pe pp _ _ _ _ RepUntagged ss_untagged ss_tag ss_content) as Hr.
               destruct (decide_tag (s_untagged s) (s_tag s) (s_content s)) eqn:Et; cbn in Hr.
               4: { left. eapply un_untagged_units; eauto; [now apply Hau|now apply Hr]. }
               all: right; intros Hu; destruct Hu as [E|E|vs' E Hu Hx|vs' E Hmix]; rewrite Ed in E; try discriminate; injection E as <-;
                 [apply Hr in Hx; discriminate | apply Hm in Hmix; discriminate].
            -- right. intros Hu. destruct Hu as [E|E|vs' E Hu Hx|vs' E Hmix]; rewrite Ed in E; try discriminate; injection E as <-.
               ++ apply Hau in Hu. discriminate.
               ++ apply Hm in Hmix. discriminate.
          * left. eapply un_discriminants; eauto. now apply Hm.
        + right. intros Hu. destruct Hu as [E|E|vs' E Hu Hx|vs' E Hmix]; rewrite Ed in E; discriminate.
        + right. intros Hu. destruct Hu as [E|E|vs' E Hu Hx|vs' E Hmix]; rewrite Ed in E; discriminate.
        + left. now apply un_unit_struct.
        + left. now apply un_union. }
    destruct Hun; tauto.
  Qed.

  Lemma derive_ok_iff i : (exists td, derive i = DOk td) <->
    attributes_acceptable pe pp i /\ ~ unsupported pe pp i /\ ~ unnameable pe pp i /\ ~ undescribed pe pp i.
  Proof.
    split.
    - intros [td H]. assert (Hx : snd (container_from_ast pe pp uni i) = []).
      { unfold Derive.derive in H. destruct (container_from_ast pe pp uni i) as [[|c|] [|e es]]; try discriminate. reflexivity. }
      apply from_ast_errors in Hx as [H1 H2]. split; auto. split; auto.
      pose proof (derive_panics i H1 H2) as Hp.
      split; intros Hn; enough (derive i = DPanic) by congruence; apply Hp; auto.
    - intros (H1 & H2 & H3 & H4). pose proof (derive_panics i H1 H2) as Hp.
      destruct (derive i) as [td|es|] eqn:Ed.
      + eauto.
      + apply derive_DErr in Ed as [_ [H|H]]; contradiction.
      + destruct (proj1 Hp eq_refl); contradiction.
  Qed.

  (** a panic with erroneous attributes needs an odd name *)
  Lemma rename_field_odd r i f l a es : field_from_ast pe pp (source_name i f) l = (a, es) ->
    rename_field (A := ty) r {| f_attrs := a; f_ty := fs_ty f |} = None -> odd_field i f.
  Proof.
    unfold field_from_ast. destruct (parse_attrs pe pp PField l) as [s es0]. destruct (at_most_one (s_types s)) as [t dup].
    intros [= <- _]. unfold rename_field, rename_as_field. cbn. destruct (s_rename s); cbn; [discriminate|].
    destruct (apply_to_field r (source_name i f)) eqn:E; [discriminate|]. intros _. now apply field_panics in E.
  Qed.

  Lemma fields_odd r i fs : try_map (rename_field r) (fst (fields_from_ast pe pp i fs)) = None ->
    exists k f, nth_error fs k = Some f /\ odd_field (A := ty) (i + k) f.
  Proof.
    revert i. induction fs as [|f fs IH]; intros i; cbn [fields_from_ast]; [discriminate|].
    fold (source_name i f). destruct (field_from_ast pe pp (source_name i f) (fs_attrs f)) as [a es] eqn:E.
    specialize (IH (S i)). destruct (fields_from_ast pe pp (S i) fs) as [rest es']. cbn [fst] in *. cbn [try_map].
    fold (try_map (rename_field (A := ty) r)).
    destruct (rename_field r {| f_attrs := a; f_ty := fs_ty f |}) eqn:Er.
    - destruct (try_map (rename_field r) rest); [discriminate|]. intros _. destruct (IH eq_refl) as (k & f' & H1 & H2).
      exists (S k), f'. split; auto. now rewrite Nat.add_succ_r.
    - intros _. exists 0, f. split; auto. rewrite Nat.add_0_r. eapply rename_field_odd; eauto.
  Qed.

  Lemma variants_odd r vs : try_map (rename_variant uni r) (fst (variants_from_ast pe pp vs)) = None ->
    exists v, In v vs /\ (no_camel_variant (unraw (vs_ident v)) \/
      exists k f, nth_error (fields_list (vs_fields v)) k = Some f /\ odd_field (A := ty) k f).
  Proof.
    induction vs as [|v vs IH]; cbn [variants_from_ast]; [discriminate|].
    destruct (variant_from_ast pe pp (vs_ident v) (vs_attrs v)) as [a es] eqn:E.
    rewrite struct_from_ast_eq. destruct (variants_from_ast pe pp vs) as [rest es']. cbn [fst] in *. cbn [try_map].
    fold (try_map (rename_variant (A := ty) uni r)).
    destruct (rename_variant uni r _) eqn:Er.
    - destruct (try_map (rename_variant uni r) rest); [discriminate|]. intros _. destruct (IH eq_refl) as (v' & H1 & H2).
      exists v'. cbn. auto.
    - intros _. exists v. split; [now left|]. unfold rename_variant in Er. cbn [v_attrs v_fields] in Er.
      destruct (rename_as_variant uni r (va_name a)) eqn:En.
      + destruct (try_map (rename_field (va_rename_rule a)) _) eqn:Et; [discriminate|]. apply fields_odd in Et. auto.
      + left. unfold variant_from_ast in E. destruct (parse_attrs pe pp PVariant (vs_attrs v)) as [s es0].
        destruct (at_most_one (s_types s)). injection E as <- _. unfold rename_as_variant in En. cbn in En.
        destruct (s_rename s); cbn in En; [discriminate|].
        destruct (apply_to_variant uni r (unraw (vs_ident v))) eqn:Ev; [discriminate|]. now apply variant_panics in Ev.
  Qed.

  Lemma derive_panic_odd i : derive i = DPanic ->
    odd_name i \/ (attributes_acceptable pe pp i /\ ~ unsupported pe pp i /\ undescribed pe pp i).
  Proof.
    intros H. pose proof H as H0. unfold Derive.derive in H. pose proof (from_ast_errors pe pp uni i) as He.
    pose proof (from_ast_None pe pp uni i) as Hnone.
    destruct (container_from_ast pe pp uni i) as [r es] eqn:Ec. cbn in He, Hnone.
    destruct r as [|c|].
    - destruct es; [|discriminate]. exfalso. now apply Hnone.
    - destruct es; [|discriminate]. right. destruct (proj1 He eq_refl) as [H1 H2]. split; auto. split; auto.
      apply from_ast_parsed in Ec as [Hc _]. destruct (serialize_body ev c) eqn:Eb; [discriminate|]. now apply (body_None _ _ Hc).
    - left. clear -Ec. unfold container_from_ast in Ec. destruct (container_attrs_from_ast pe pp i) as [a es1].
      destruct (di_data i) as [vs|f|] eqn:Ed.
      + destruct (consistent_discriminants vs); [|discriminate].
        pose proof (variants_odd (ca_rename_rule a) vs) as Hv.
        destruct (variants_from_ast pe pp vs) as [l es']. unfold rename_data in Ec. cbn [fst] in Hv.
        destruct (try_map _ l); [discriminate|]. destruct (Hv eq_refl) as (v & H1 & [H2|(k & f & H2 & H3)]).
        * eapply odd_variant; eauto.
        * eapply odd_variant_field; eauto.
      + rewrite struct_from_ast_eq in Ec. unfold rename_data in Ec.
        destruct (try_map _ _) eqn:Et; [discriminate|]. apply fields_odd in Et as (k & g & H1 & H2).
        eapply odd_struct_field; eauto.
      + discriminate.
  Qed.

  Lemma derive_shape_errors i :
    (di_data i = DaUnion \/ di_data i = DaStruct FUnit \/ exists vs, di_data i = DaEnum vs /\ mixed_discriminants vs) ->
    exists es, derive i = DErr es /\ es <> [].
  Proof.
    intros H. assert (Hun : unsupported pe pp i).
    { destruct H as [H|[H|(vs & H & Hm)]]; [now apply un_union|now apply un_unit_struct|eapply un_discriminants; eauto]. }
    destruct (derive i) as [td|es|] eqn:Ed.
    - exfalso. destruct (proj1 (derive_ok_iff i) (ex_intro _ td Ed)) as (_ & Hn & _). contradiction.
    - exists es. split; auto. now apply derive_DErr in Ed.
    - exfalso. unfold Derive.derive, container_from_ast in Ed. pose proof (from_ast_None pe pp uni i) as Hnone.
      unfold container_from_ast in Hnone.
      destruct (container_attrs_from_ast pe pp i) as [a es1] eqn:Ea.
      destruct H as [H|[H|(vs & H & Hm)]]; rewrite H in *.
      + cbn in *. destruct (es1 ++ [EUnion]); [now apply Hnone|discriminate].
      + cbn in *. destruct (es1 ++ []) eqn:Eapp; [|discriminate]. apply app_eq_nil in Eapp as [-> _].
        destruct (proj1 (container_attrs_say pe pp i _ _ Ea) eq_refl) as [_ Hx]. rewrite H in Hx. discriminate.
      + apply mixed_iff in Hm. rewrite Hm in *. cbn in *. destruct (es1 ++ [EDiscriminants]); [now apply Hnone|discriminate].
  Qed.
End Facts.
