(** From derive inputs to schemas: one lemma per shape; and the outcome of the derive. *)
From Verif Require Import Attr AttrSpec AttrFacts Ast AstFacts Derive DeriveSpec DeriveFacts Schema SchemaSpec SchemaFacts
  Gen GenSpec GenFacts CaseSpec CaseFacts.
From Coq Require Import Arith Lia.

Section Facts.
  Variable pe pp : str -> bool.
  Variable uni : N -> bool.
  Variable ev : str -> str.
  Notation said := (said pe pp).
  Notation takes := (takes pe pp).
  Notation flag_takes := (flag_takes pe pp).
  Notation derive := (derive pe pp uni ev).

  Lemma derive_inv i td : derive i = DOk td ->
    exists c, container_parsed pe pp uni i c /\ serialize_body ev c = Some (td_body td) /\
      td_ident td = di_ident i /\ td_inline td = ca_inline (c_attrs c).
  Proof.
    unfold Derive.derive. destruct (container_from_ast pe pp uni i) as [r es] eqn:Ec.
    destruct r as [|c|]; try discriminate; [destruct es; discriminate|].
    destruct es as [|e es]; [|discriminate]. apply from_ast_parsed in Ec as [Hp _].
    destruct (serialize_body ev c) as [b|] eqn:Eb; [|discriminate]. intros [= <-].
    exists c. split; [exact Hp|]. split; [exact Eb|]. split; [apply Hp|reflexivity].
  Qed.

  Lemma returns_body E id cx m cx' : schema_returns E (TNamed id) cx m cx' ->
    exists fuel, eval_m E (get_schema E fuel) (td_body (E id)) cx = Ok (m, cx').
  Proof. intros [[|f] H]; [discriminate|]. exists f. exact H. Qed.

  Section Returned.
    Variables (E : env) (id : tid) (i : derive_input ty) (cx : components) (m : model) (cx' : components).
    Hypothesis Hd : derive i = DOk (E id).
    Hypothesis Hret : schema_returns E (TNamed id) cx m cx'.

    Lemma derived_run : exists c fuel b, container_parsed pe pp uni i c /\ serialize_body ev c = Some b /\
      eval_m E (get_schema E fuel) b cx = Ok (m, cx').
    Proof.
      destruct (derive_inv _ _ Hd) as (c & Hc & Hb & _). destruct (returns_body _ _ _ _ _ Hret) as [fuel Hf]. eauto 6.
    Qed.

    (** *** Structs *)
    Lemma struct_described fs : di_data i = DaStruct (FNamed fs) ->
      takes (PContainer DkNamed) (di_attrs i) SDescription (m_description m) /\
      (exists b, nullable_of m = Some b /\ flag_takes (PContainer DkNamed) (di_attrs i) SNullable b) /\
      exists r, has_rule pe pp (PContainer DkNamed) (di_attrs i) r /\ object_schema pe pp ev E false r fs cx m cx'.
    Proof.
      intros Hs. destruct derived_run as (c & fuel & b & Hc & Hb & He).
      pose proof (cp_data _ _ _ _ _ Hc) as Hdata. rewrite Hs in Hdata. inversion Hdata as [|? gs Hf Heq1 Heq2]; subst.
      unfold serialize_body in Hb. rewrite <- Heq2 in Hb. cbn [style_of] in Hb. unfold serialize_struct in Hb.
      destruct (object_type_description ev gs _) as [t|] eqn:Et; [|discriminate]. injection Hb as <-.
      rewrite em_model, ed_single in He. binds. destruct Hc. rewrite Hs in *. cbn [shape] in *.
      split; auto. split; [eexists; split; [reflexivity|auto]|].
      eexists. split; [eassumption|]. eapply (object_eval _ _ _ _ _ false); eauto.
    Qed.

    Lemma tuple_struct_described fs : di_data i = DaStruct (FUnnamed fs) -> length fs <> 1 ->
      takes (PContainer DkOther) (di_attrs i) SDescription (m_description m) /\
      (exists b, nullable_of m = Some b /\ flag_takes (PContainer DkOther) (di_attrs i) SNullable b) /\
      exists rs, field_refs pe pp ev E false fs cx rs cx' /\ tuple_schema m rs.
    Proof.
      intros Hs Hl. destruct derived_run as (c & fuel & b & Hc & Hb & He).
      pose proof (cp_data _ _ _ _ _ Hc) as Hdata. rewrite Hs in Hdata. inversion Hdata as [|? gs Hf Heq1 Heq2]; subst.
      unfold serialize_body in Hb. rewrite <- Heq2 in Hb. cbn [style_of] in Hb.
      destruct (Nat.eqb_spec (length fs) 1); [contradiction|]. unfold serialize_tuple_struct in Hb.
      destruct (tuple_type_description ev gs _) as [t|] eqn:Et; [|discriminate]. injection Hb as <-.
      rewrite em_model, ed_single in He. binds. destruct Hc. rewrite Hs in *. cbn [shape] in *.
      split; auto. split; [eexists; split; [reflexivity|auto]|].
      eapply (tuple_eval _ _ _ _ _ false); eauto.
    Qed.

    Lemma newtype_struct_described f : di_data i = DaStruct (FUnnamed [f]) ->
      exists p q, params_said pe pp ev PField (fs_attrs f) p /\
        params_said pe pp ev (PContainer DkOther) (di_attrs i) q /\
        ((exists t b, said (PContainer DkOther) (di_attrs i) (SType t) /\
            flag_takes (PContainer DkOther) (di_attrs i) SNullable b /\
            explicit_model t b (completed_by p q) m /\ cx' = cx) \/
         ((forall t, ~ said (PContainer DkOther) (di_attrs i) (SType t)) /\
          exists m0, schema_returns E (fs_ty f) cx m0 cx' /\ m = apply_params (completed_by p q) m0)).
    Proof.
      intros Hs. destruct derived_run as (c & fuel & b & Hc & Hb & He).
      pose proof (cp_data _ _ _ _ _ Hc) as Hdata. rewrite Hs in Hdata. inversion Hdata as [|? gs Hf Heq1 Heq2]; subst.
      unfold serialize_body in Hb. rewrite <- Heq2 in Hb. cbn [style_of length Nat.eqb] in Hb. cbn [fields_list] in Hf.
      inversion Hf as [|? ? g ? gs' Hg Hr]; subst. unfold serialize_newtype_struct in Hb.
      exists (params_of_field ev (f_attrs g)), (params_of_container ev (c_attrs c)).
      split; [eapply params_field; eauto|].
      pose proof (params_container _ _ _ ev _ _ Hc) as Hq. rewrite Hs in Hq. cbn [shape] in Hq. split; auto.
      rewrite params_or_completed in Hb by reflexivity. destruct Hc. rewrite Hs in *. cbn [shape] in *.
      destruct (ca_explicit (c_attrs c)) as [t|] eqn:Et.
      - left. exists t, (ca_nullable (c_attrs c)).
        assert (Hb' : newtype_model (ca_nullable (c_attrs c)) (completed_by (params_of_field ev (f_attrs g)) (params_of_container ev (c_attrs c))) t = Some b).
        { destruct t; auto; discriminate. }
        destruct (newtype_model_eval _ _ _ _ _ _ _ _ _ Hb' He) as [-> Hx].
        split; [now apply cp_explicit|]. auto.
      - right. split; [now apply (takes_None _ _ _ _ _ _ cp_explicit)|]. injection Hb as <-. rewrite em_with in He. binds.
        eexists. split; [|reflexivity]. exists fuel. now rewrite <- (fp_ty _ _ _ _ _ _ Hg).
    Qed.

    (** *** Enums *)
    Section Enum.
      Variable vs : list (variant_syn ty).
      Hypothesis Hvs : di_data i = DaEnum vs.

      Lemma enum_run : exists c fuel b ws l, container_parsed pe pp uni i c /\ c_data c = Enum ws /\
        Forall2 (variant_parsed pe pp uni (ca_rename_rule (c_attrs c))) vs ws /\
        enum_variants pe pp uni i vs l /\ Forall2 (kept_variant pe pp uni (ca_rename_rule (c_attrs c))) l (serialised ws) /\
        serialize_enum ev c ws = Some b /\ eval_m E (get_schema E fuel) b cx = Ok (m, cx').
      Proof.
        destruct derived_run as (c & fuel & b & Hc & Hb & He).
        pose proof (cp_data _ _ _ _ _ Hc) as Hdata. rewrite Hvs in Hdata. inversion Hdata as [? ws Hw Heq1 Heq2|]; subst.
        destruct (variants_kept _ _ _ _ _ _ Hw) as (l & Hl & Hk).
        unfold serialize_body in Hb. rewrite <- Heq2 in Hb.
        exists c, fuel, b, ws, l. repeat (split; auto).
        exists (ca_rename_rule (c_attrs c)). split; auto. pose proof (cp_rule _ _ _ _ _ Hc) as Hr. now rewrite Hvs in Hr.
      Qed.

      Notation desc := (takes (PContainer DkEnum) (di_attrs i) SDescription).

      Lemma unit_enum_described : all_units vs ->
        ~ said (PContainer DkEnum) (di_attrs i) SRepr ->
        exists l, enum_variants pe pp uni i vs l /\ names_schema (map fst l) m /\ desc (m_description m) /\ cx' = cx.
      Proof.
        intros Hu Hr. destruct enum_run as (c & fuel & b & ws & l & Hc & Hdc & Hw & Hl & Hk & Hb & He).
        exists l. split; auto. destruct Hc. rewrite Hvs in *. cbn [shape] in *. unfold serialize_enum in Hb.
        rewrite cp_kind in Hb. cbn [decide_model_kind] in Hb, cp_kind_ok. rewrite (proj2 (all_units_iff vs) Hu) in Hb, cp_kind_ok.
        assert (Hb' : Some (serialize_newtype_enum c ws) = Some b) by (destruct (ca_tag_type (c_attrs c)); auto; discriminate).
        injection Hb' as <-. unfold serialize_newtype_enum in He. unfold AttrSpec.flag_takes in cp_repr.
        destruct (ca_has_repr (c_attrs c)); [destruct Hr; now apply cp_repr|].
        rewrite (kept_names _ _ _ _ _ _ Hk) in He. cbn in He. injection He as <- <-. split; [repeat split|]. auto.
      Qed.

      Lemma repr_enum_described : all_units vs -> said (PContainer DkEnum) (di_attrs i) SRepr ->
        exists l, enum_variants pe pp uni i vs l /\ kind_of m = KOneOf /\
          (exists rs, alternatives_of m = Some rs /\ repr_alternatives l rs) /\ desc (m_description m) /\ cx' = cx.
      Proof.
        intros Hu Hr. destruct enum_run as (c & fuel & b & ws & l & Hc & Hdc & Hw & Hl & Hk & Hb & He).
        exists l. split; auto. destruct Hc. rewrite Hvs in *. cbn [shape] in *. unfold serialize_enum in Hb.
        rewrite cp_kind in Hb. cbn [decide_model_kind] in Hb, cp_kind_ok. rewrite (proj2 (all_units_iff vs) Hu) in Hb, cp_kind_ok.
        assert (Hb' : Some (serialize_newtype_enum c ws) = Some b) by (destruct (ca_tag_type (c_attrs c)); auto; discriminate).
        injection Hb' as <-. unfold serialize_newtype_enum in He. unfold AttrSpec.flag_takes in cp_repr.
        rewrite (proj2 cp_repr Hr) in He. rewrite em_model, ed_oneof in He. binds.
        enough (repr_alternatives l l0 /\ cx' = cx) as [Hx ->] by (cbn; eauto 7).
        match goal with H : eval_vec _ _ _ = Ok _ |- _ => rename H into Hv end.
        set (ss := serialised ws) in *. clearbody ss. clear -Hk Hv. revert l0 cx Hv.
        induction Hk as [|[n v] w l ss [Hp Hn] Hk IH]; intros l0 cx Hv.
        - cbn in Hv. injection Hv as <- <-. split; constructor.
        - cbn [fst snd] in *. cbn [flat_map] in Hv. rewrite (vp_disc _ _ _ _ _ _ Hp), <- Hn in Hv.
          destruct (vs_discriminant v) as [d|] eqn:Ed.
          + cbn [app eval_vec] in Hv. binds. fold (eval_vec (eval_r E (get_schema E fuel))) in *.
            match goal with H : eval_r _ _ _ _ = Ok _ |- _ => cbn in H; injection H as <- <- end.
            match goal with H : eval_vec _ _ _ = Ok _ |- _ => apply IH in H as [Hx ->] end. split; auto.
            eapply ra_explicit; eauto; reflexivity.
          + cbn [app] in *. apply IH in Hv as [Hx ->]. split; auto. now apply ra_implicit.
      Qed.

      (** the model kinds of enums with some payload *)
      Lemma mixed_kind w : In w vs -> ~ unit_variant w -> forallb (fun v => is_unit (vs_fields v)) vs = false.
      Proof.
        intros Hin Hw. destruct (forallb _ vs) eqn:Eu; auto. destruct Hw. now apply (all_units_iff vs) in Eu; apply Eu.
      Qed.

      Lemma external_enum_described w : In w vs -> ~ unit_variant w -> represents pe pp (di_attrs i) RepExternal ->
        exists l rs o m1, enum_variants pe pp uni i vs l /\
          in_order (alternative_of pe pp ev E RepExternal) l cx rs cx' /\
          object_of m = Some o /\ mo_properties o = [] /\ mo_required o = [] /\ mo_additional o = Some (Inline m1) /\
          kind_of m1 = KOneOf /\ alternatives_of m1 = Some rs /\ desc (m_description m1) /\ desc (m_description m) /\
          (exists b, nullable_of m = Some b /\ flag_takes (PContainer DkEnum) (di_attrs i) SNullable b).
      Proof.
        intros Hin Hnu Hrep. destruct enum_run as (c & fuel & b & ws & l & Hc & Hdc & Hw & Hl & Hk & Hb & He).
        destruct Hc. apply (cp_tag vs) in Hrep; auto. rewrite Hvs in *. cbn [shape] in *. unfold serialize_enum in Hb.
        rewrite cp_kind in Hb. cbn [decide_model_kind] in Hb. rewrite (mixed_kind _ Hin Hnu) in Hb.
        destruct (ca_tag_type (c_attrs c)); try discriminate. cbn [fst] in Hb.
        unfold serialize_external_tagged_enum in Hb. destruct (try_map _ _) as [cs|] eqn:Et; [|discriminate].
        injection Hb as <-. rewrite em_model, ed_single, et_dict, er_inline, em_model, ed_oneof in He. binds.
        eexists l, _, _, _. split; auto. split.
        { eapply in_order_eval; [|exact Hk|exact Et|eassumption]. intros. eapply external_eval; eauto. }
        cbn. repeat (split; [reflexivity|]). split; auto. split; auto. eauto.
      Qed.

      Lemma untagged_enum_described : represents pe pp (di_attrs i) RepUntagged ->
        exists l rs, enum_variants pe pp uni i vs l /\
          in_order (alternative_of pe pp ev E RepUntagged) l cx rs cx' /\
          kind_of m = KOneOf /\ alternatives_of m = Some rs /\ desc (m_description m).
      Proof.
        intros Hrep. destruct enum_run as (c & fuel & b & ws & l & Hc & Hdc & Hw & Hl & Hk & Hb & He).
        destruct Hc. apply (cp_tag vs) in Hrep; auto. rewrite Hvs in *. cbn [shape] in *. unfold serialize_enum in Hb.
        rewrite cp_kind in Hb. cbn [decide_model_kind] in Hb, cp_kind_ok.
        destruct (ca_tag_type (c_attrs c)); try discriminate.
        destruct (forallb (fun v => is_unit (vs_fields v)) vs); [discriminate|]. cbn [fst] in Hb.
        unfold serialize_untagged_enum in Hb. destruct (try_map _ _) as [cs|] eqn:Et; [|discriminate].
        injection Hb as <-. rewrite em_model, ed_oneof in He. binds.
        eexists l, _. split; auto. split.
        { eapply in_order_eval; [|exact Hk|exact Et|eassumption]. intros. eapply untagged_eval; eauto. }
        cbn. auto.
      Qed.

      Lemma internal_enum_described w tag : In w vs -> ~ unit_variant w -> represents pe pp (di_attrs i) (RepInternal tag) ->
        exists l rs, enum_variants pe pp uni i vs l /\
          in_order (internal_alternative pe pp ev E tag) l cx rs cx' /\
          kind_of m = KOneOf /\ alternatives_of m = Some rs /\ desc (m_description m).
      Proof.
        intros Hin Hnu Hrep. destruct enum_run as (c & fuel & b & ws & l & Hc & Hdc & Hw & Hl & Hk & Hb & He).
        destruct Hc. apply (cp_tag vs) in Hrep; auto. rewrite Hvs in *. cbn [shape] in *. unfold serialize_enum in Hb.
        rewrite cp_kind in Hb. cbn [decide_model_kind] in Hb. rewrite (mixed_kind _ Hin Hnu) in Hb.
        destruct (ca_tag_type (c_attrs c)) as [|t| |]; try discriminate. injection Hrep as ->. cbn [fst] in Hb.
        unfold serialize_internal_tagged_enum in Hb. destruct (try_map _ _) as [cs|] eqn:Et; [|discriminate].
        injection Hb as <-. rewrite em_model, ed_oneof in He. binds.
        eexists l, _. split; auto. split.
        { eapply in_order_eval; [|exact Hk|exact Et|eassumption]. intros. eapply internal_eval; eauto. }
        cbn. auto.
      Qed.

      Local Opaque bm_insert.
      Lemma adjacent_enum_described w tag content : In w vs -> ~ unit_variant w ->
        represents pe pp (di_attrs i) (RepAdjacent tag content) ->
        exists l rs o m1 m2, enum_variants pe pp uni i vs l /\
          in_order (alternative_of pe pp ev E (RepAdjacent tag content)) l cx rs cx' /\
          object_of m = Some o /\ mo_required o = [tag; content] /\ mo_additional o = None /\
          (forall k, bm_get k (mo_properties o) = last_value k [(tag, Inline m1); (content, Inline m2)]) /\
          names_schema (map fst l) m1 /\ m_description m1 = Some (di_ident i ++ u " type variant") /\
          kind_of m2 = KOneOf /\ alternatives_of m2 = Some rs /\ desc (m_description m2) /\
          desc (m_description m) /\
          (exists b, nullable_of m = Some b /\ flag_takes (PContainer DkEnum) (di_attrs i) SNullable b).
      Proof.
        intros Hin Hnu Hrep. destruct enum_run as (c & fuel & b & ws & l & Hc & Hdc & Hw & Hl & Hk & Hb & He).
        destruct Hc. apply (cp_tag vs) in Hrep; auto. rewrite Hvs in *. cbn [shape] in *. unfold serialize_enum in Hb.
        rewrite cp_kind in Hb. cbn [decide_model_kind] in Hb. rewrite (mixed_kind _ Hin Hnu) in Hb.
        destruct (ca_tag_type (c_attrs c)) as [|t|t t'|]; try discriminate. injection Hrep as <- <-. cbn [fst] in Hb.
        unfold serialize_adjacent_tagged_enum in Hb. destruct (try_map _ _) as [cs|] eqn:Et; [|discriminate].
        injection Hb as <-. rewrite (kept_names _ _ _ _ _ _ Hk), cp_ident in He.
        rewrite em_model, ed_single, et_object in He. cbn [eval_stmts] in He.
        rewrite !er_inline in He. binds.
        match goal with H : eval_m _ _ (names_model _ _) _ = Ok _ |- _ => apply names_eval in H as (-> & Hns & Hds) end.
        match goal with H : eval_r _ _ (RcInline _) _ = Ok _ |- _ => rewrite er_inline, em_model, ed_oneof in H end. binds.
        eexists l, _, _, _, _. split; auto. split.
        { eapply in_order_eval; [|exact Hk|exact Et|eassumption]. intros. eapply adjacent_eval; eauto. }
        split; [reflexivity|]. split; [reflexivity|]. split; [reflexivity|]. split.
        { intros k. cbn [mo_properties last_value].
          destruct (str_eq_dec content k) as [<-|H1]; [now rewrite bm_get_insert_eq|].
          rewrite bm_get_insert_neq by auto. destruct (str_eq_dec tag k) as [<-|H2]; [now rewrite bm_get_insert_eq|].
          now rewrite bm_get_insert_neq by auto. }
        split; [eassumption|]. split; [assumption|]. cbn. repeat (split; [auto; reflexivity|]). eauto.
      Qed.
    End Enum.
  End Returned.
End Facts.
