(** Marks to skip a field are in vain on unnamed fields and in adjacently tagged variants (C14). *)
From Coq Require Import List NArith Bool Arith Lia.
From Verif Require Import Str Case Attr Ast Schema Gen Derive AttrSpec DeriveSpec SkipSpec AttrFacts AstFacts DeriveFacts DeriveFacts4.
Import ListNotations.

Section Facts.
  Variable pe pp : str -> bool.
  Variable uni : N -> bool.
  Variable ev : str -> str.
  Notation derive := (derive pe pp uni ev).

  (** parsed fields that differ only in what is not described of tuples *)
  Record alike (g1 g2 : field ty) : Prop := {
    al_ty : f_ty g1 = f_ty g2;
    al_name : fa_name (f_attrs g1) = fa_name (f_attrs g2);
    al_description : fa_description (f_attrs g1) = fa_description (f_attrs g2);
    al_format : fa_format (f_attrs g1) = fa_format (f_attrs g2);
    al_example : fa_example (f_attrs g1) = fa_example (f_attrs g2);
    al_inline : fa_inline (f_attrs g1) = fa_inline (f_attrs g2);
    al_nullable : fa_nullable (f_attrs g1) = fa_nullable (f_attrs g2);
    al_explicit : fa_explicit (f_attrs g1) = fa_explicit (f_attrs g2)
  }.
  Lemma alike_refl g : alike g g.
  Proof. constructor; reflexivity. Qed.
  Lemma alikes_refl gs : Forall2 alike gs gs.
  Proof. induction gs; constructor; auto using alike_refl. Qed.

  Lemma takes_same {T} l1 l2 (mk : T -> Attr.setting) o1 o2 : (forall v, said pe pp PField l1 (mk v) <-> said pe pp PField l2 (mk v)) ->
    takes pe pp PField l1 mk o1 -> takes pe pp PField l2 mk o2 -> o1 = o2.
  Proof. intros H H1 H2. eapply takes_fun; [exact H1|]. intros v. now rewrite (H2 v), (H v). Qed.
  Lemma flag_same l1 l2 x b1 b2 : (said pe pp PField l1 x <-> said pe pp PField l2 x) ->
    flag_takes pe pp PField l1 x b1 -> flag_takes pe pp PField l2 x b2 -> b1 = b2.
  Proof. intros H H1 H2. eapply flag_fun; [exact H1|]. unfold flag_takes in *. now rewrite H2, H. Qed.

  Lemma field_marks src l1 l2 a1 t : acceptable pe pp PField l2 ->
    (forall x, x <> SSkip -> (said pe pp PField l1 x <-> said pe pp PField l2 x)) ->
    field_from_ast pe pp src l1 = (a1, []) ->
    exists a2, field_from_ast pe pp src l2 = (a2, []) /\ alike (Build_field a1 t) (Build_field a2 t).
  Proof.
    intros Ha Hs H1. destruct (field_from_ast pe pp src l2) as [a2 es] eqn:H2.
    apply (field_ok_iff pe pp src) in Ha. rewrite H2 in Ha. cbn in Ha. subst es. exists a2. split; auto.
    destruct (field_say _ _ _ _ _ H1) as (s1 & S1 & _ & N1 & _ & _ & _ & D1 & F1 & E1 & I1 & U1 & X1).
    destruct (field_say _ _ _ _ _ H2) as (s2 & S2 & _ & N2 & _ & _ & _ & D2 & F2 & E2 & I2 & U2 & X2).
    constructor; cbn; auto.
    - rewrite N1, N2. f_equal. eapply takes_same; [|apply (ss_rename _ _ _ _ _ S1)|apply (ss_rename _ _ _ _ _ S2)]. intros v. now apply Hs.
    - rewrite D1, D2. eapply takes_same; [|apply (ss_description _ _ _ _ _ S1)|apply (ss_description _ _ _ _ _ S2)]. intros v. now apply Hs.
    - rewrite F1, F2. eapply takes_same; [|apply (ss_format _ _ _ _ _ S1)|apply (ss_format _ _ _ _ _ S2)]. intros v. now apply Hs.
    - rewrite E1, E2. eapply takes_same; [|apply (ss_example _ _ _ _ _ S1)|apply (ss_example _ _ _ _ _ S2)]. intros v. now apply Hs.
    - rewrite I1, I2. eapply flag_same; [|apply (ss_inline _ _ _ _ _ S1)|apply (ss_inline _ _ _ _ _ S2)]. now apply Hs.
    - rewrite U1, U2. eapply flag_same; [|apply (ss_nullable _ _ _ _ _ S1)|apply (ss_nullable _ _ _ _ _ S2)]. now apply Hs.
    - rewrite X1, X2. eapply takes_same; [|apply (ss_types _ _ _ _ _ S1)|apply (ss_types _ _ _ _ _ S2)]. intros v. now apply Hs.
  Qed.

  Lemma fields_marks fs1 fs2 : Forall2 (field_marked pe pp) fs1 fs2 -> forall k gs1, fields_from_ast pe pp k fs1 = (gs1, []) ->
    exists gs2, fields_from_ast pe pp k fs2 = (gs2, []) /\ Forall2 alike gs1 gs2.
  Proof.
    induction 1 as [|f1 f2 fs1 fs2 Hf Hr IH]; intros k gs1; cbn [fields_from_ast].
    - intros [= <-]. exists []. split; auto.
    - destruct Hf as [l1 l2 i t A1 A2 Hs]. cbn [fs_ident fs_attrs fs_ty].
      destruct (field_from_ast _ _ _ l1) as [a es] eqn:Ef.
      destruct (fields_from_ast pe pp (S k) fs1) as [rest es'] eqn:Er. intros [= <- He]. apply app_eq_nil in He as [-> ->].
      destruct (field_marks _ _ _ _ t A2 Hs Ef) as (a2 & -> & Ha). destruct (IH _ _ Er) as (gs2 & -> & Hg).
      eexists. split; [reflexivity|]. constructor; auto.
  Qed.

  Lemma alike_rename r gs1 gs2 : Forall2 alike gs1 gs2 -> forall hs1, try_map (rename_field r) gs1 = Some hs1 ->
    exists hs2, try_map (rename_field r) gs2 = Some hs2 /\ Forall2 alike hs1 hs2.
  Proof.
    induction 1 as [|g1 g2 gs1 gs2 Hg Hr IH]; intros hs1.
    - intros [= <-]. exists []. split; auto.
    - rewrite !try_map_cons. unfold rename_field at 1 3. rewrite <- (al_name _ _ Hg).
      destruct (rename_as_field r (fa_name (f_attrs g1))) as [n|]; [|discriminate].
      destruct (try_map (rename_field r) gs1) as [hs|]; [|discriminate]. intros [= <-].
      destruct (IH _ eq_refl) as (hs2 & -> & Hh). eexists. split; [reflexivity|]. constructor; auto.
      destruct Hg. constructor; auto.
  Qed.

  Lemma alike_params g1 g2 : alike g1 g2 -> params_of_field ev (f_attrs g1) = params_of_field ev (f_attrs g2).
  Proof. intros []. unfold params_of_field. congruence. Qed.
  Lemma alike_reference g1 g2 p b : alike g1 g2 -> field_model_reference p g1 b = field_model_reference p g2 b.
  Proof. intros []. unfold field_model_reference. now rewrite al_explicit0, al_nullable0, al_ty0. Qed.

  Lemma alike_tuple gs1 gs2 inl1 inl2 : Forall2 alike gs1 gs2 -> (forall g1 g2, alike g1 g2 -> inl1 g1 = inl2 g2) ->
    tuple_type_description ev gs1 inl1 = tuple_type_description ev gs2 inl2.
  Proof.
    intros H Hi. unfold tuple_type_description.
    rewrite (try_map_ext _ (fun f => field_model_reference (params_of_field ev (f_attrs f)) f (inl2 f)) _ _ _ H); auto.
    intros x y Hxy. rewrite (alike_params _ _ Hxy), (Hi _ _ Hxy). now apply alike_reference.
  Qed.

  Lemma payload_marks D f1 f2 st gs1 : payload_marked pe pp D f1 f2 -> struct_from_ast pe pp f1 = (st, gs1, []) ->
    exists gs2, struct_from_ast pe pp f2 = (st, gs2, []) /\ Forall2 alike gs1 gs2 /\ (st = StStruct -> D \/ gs1 = gs2).
  Proof.
    destruct 1 as [fs1 fs2 H|fs1 fs2 HD H|f].
    - cbn. destruct (fields_from_ast pe pp 0 fs1) as [g es] eqn:E. intros [= Hst <- ->].
      destruct (fields_marks _ _ H _ _ E) as (gs2 & -> & Hg). assert (length fs2 = length fs1) as -> by (clear -H; induction H; cbn; congruence). rewrite Hst.
      eexists. split; [reflexivity|]. split; auto. intros ->. destruct (length fs1 =? 1); discriminate.
    - cbn. destruct (fields_from_ast pe pp 0 fs1) as [g es] eqn:E. intros [= <- <- ->].
      destruct (fields_marks _ _ H _ _ E) as (gs2 & -> & Hg). eexists. split; [reflexivity|]. auto.
    - intros ->. eexists. split; [reflexivity|]. auto using alikes_refl.
  Qed.

  Record valike (D : Prop) (w1 w2 : variant ty) : Prop := {
    va_id : v_ident w1 = v_ident w2;
    va_at : v_attrs w1 = v_attrs w2;
    va_st : v_style w1 = v_style w2;
    va_di : v_discriminant w1 = v_discriminant w2;
    va_fi : Forall2 alike (v_fields w1) (v_fields w2);
    va_na : v_style w1 = StStruct -> D \/ v_fields w1 = v_fields w2
  }.

  Lemma variants_marks D vs1 vs2 : Forall2 (variant_marked pe pp D) vs1 vs2 -> forall ws1, variants_from_ast pe pp vs1 = (ws1, []) ->
    exists ws2, variants_from_ast pe pp vs2 = (ws2, []) /\ Forall2 (valike D) ws1 ws2.
  Proof.
    induction 1 as [|v1 v2 vs1 vs2 [l i f1 f2 d Hp] Hv IH]; intros ws1; cbn [variants_from_ast vs_ident vs_attrs vs_fields vs_discriminant].
    - intros [= <-]. exists []. split; auto.
    - destruct (variant_from_ast pe pp i l) as [a es]. destruct (struct_from_ast pe pp f1) as [[st gs1] es1] eqn:Es.
      destruct (variants_from_ast pe pp vs1) as [rest es2]. intros [= <- He]. apply app_eq_nil in He as [-> He]. apply app_eq_nil in He as [-> ->].
      destruct (payload_marks _ _ _ _ _ Hp Es) as (gs2 & -> & Hg & Hn). destruct (IH _ eq_refl) as (ws2 & -> & Hw).
      eexists. split; [reflexivity|]. constructor; auto. constructor; auto.
  Qed.

  Lemma valike_rename D r ws1 ws2 : Forall2 (valike D) ws1 ws2 -> forall xs1, try_map (rename_variant uni r) ws1 = Some xs1 ->
    exists xs2, try_map (rename_variant uni r) ws2 = Some xs2 /\ Forall2 (valike D) xs1 xs2.
  Proof.
    induction 1 as [|w1 w2 ws1 ws2 Hw Hr IH]; intros xs1.
    - intros [= <-]. exists []. split; auto.
    - rewrite !try_map_cons. destruct Hw as [H1 H2 H3 H4 H5 H6]. unfold rename_variant at 1 3. rewrite <- H2.
      destruct (rename_as_variant uni r (va_name (v_attrs w1))); [|discriminate].
      destruct (try_map (rename_field (va_rename_rule (v_attrs w1))) (v_fields w1)) as [hs|] eqn:Eh; [|discriminate].
      destruct (try_map (rename_variant uni r) ws1) as [ys|]; [|discriminate]. intros [= <-].
      destruct (alike_rename _ _ _ H5 _ Eh) as (hs2 & E2 & Hh). rewrite E2. destruct (IH _ eq_refl) as (xs2 & -> & Hx).
      eexists. split; [reflexivity|]. constructor; auto. constructor; cbn; auto.
      intros Hs. destruct (H6 Hs) as [|He]; auto. right. rewrite He in Eh. congruence.
  Qed.

  Lemma serialised_alike D ws1 ws2 : Forall2 (valike D) ws1 ws2 -> Forall2 (valike D) (serialised ws1) (serialised ws2).
  Proof.
    unfold serialised. induction 1 as [|w1 w2 ws1 ws2 Hw Hr IH]; cbn [filter]; auto.
    rewrite <- (va_at _ _ _ Hw). destruct (negb (va_skip (v_attrs w1))); auto.
  Qed.

  Lemma newtype_alike D w1 w2 : valike D w1 w2 -> newtype_variant ev w1 = newtype_variant ev w2.
  Proof.
    intros [_ Ha _ _ Hf _]. unfold newtype_variant. rewrite <- Ha. destruct Hf as [|g1 g2 gs1 gs2 Hg Hr]; auto.
    rewrite (alike_params _ _ Hg). now apply alike_reference.
  Qed.
  Lemma tuple_alike D w1 w2 b d : valike D w1 w2 ->
    tuple_model ev b d (v_fields w1) (inline_in w1) = tuple_model ev b d (v_fields w2) (inline_in w2).
  Proof.
    intros [_ Ha _ _ Hf _]. unfold tuple_model. rewrite (alike_tuple _ _ (inline_in w1) (inline_in w2) Hf); auto.
    intros g1 g2 Hg. unfold inline_in. now rewrite Ha, (al_inline _ _ Hg).
  Qed.
  Lemma object_alike (w1 w2 : variant ty) b d : v_attrs w1 = v_attrs w2 -> v_fields w1 = v_fields w2 ->
    object_model ev b d (v_fields w1) (inline_in w1) = object_model ev b d (v_fields w2) (inline_in w2).
  Proof.
    intros Ha <-. unfold object_model. rewrite (object_diff ev False (v_fields w1) (v_fields w1) (inline_in w1) (inline_in w2)); auto using fdiff_refl.
    unfold inline_in. intros g1 g2 Hg. now rewrite Ha, Hg.
  Qed.

  Lemma enum_alike D c1 c2 ws1 ws2 : Forall2 (valike D) ws1 ws2 ->
    ((forall t c, ca_tag_type (c_attrs c1) <> TagAdjacent t c) -> ~ D) ->
    c_ident c1 = c_ident c2 -> ca_model_kind (c_attrs c1) = ca_model_kind (c_attrs c2) ->
    (ca_model_kind (c_attrs c1) = MkDictionary -> forall t c, ca_tag_type (c_attrs c1) <> TagAdjacent t c) ->
    ca_tag_type (c_attrs c1) = ca_tag_type (c_attrs c2) -> ca_description (c_attrs c1) = ca_description (c_attrs c2) ->
    ca_nullable (c_attrs c1) = ca_nullable (c_attrs c2) -> ca_has_repr (c_attrs c1) = ca_has_repr (c_attrs c2) ->
    serialize_enum ev c1 ws1 = serialize_enum ev c2 ws2.
  Proof.
    intros Hv HD Hid Hk Hdict Ht Hde Hnu Hre. apply serialised_alike in Hv. unfold serialize_enum.
    assert (Hnames : map variant_name (serialised ws1) = map variant_name (serialised ws2)).
    { clear -Hv. induction Hv as [|w1 w2 ? ? [_ Ha _ _ _ _] Hr IH]; auto. cbn [map]. rewrite IH. unfold variant_name at 1 3. now rewrite Ha. }
    rewrite <- Hk, <- Ht. destruct (ca_model_kind (c_attrs c1)); auto.
    - unfold serialize_newtype_enum. rewrite <- Hre, <- Hde, <- Hnames.
      destruct (ca_has_repr (c_attrs c1)); auto. do 3 f_equal.
      clear -Hv. induction Hv as [|w1 w2 ? ? [_ Ha _ Hd _ _] Hr IH]; auto. cbn [flat_map].
      assert (variant_name w1 = variant_name w2) as -> by (unfold variant_name; now rewrite Ha). now rewrite IH, Hd.
    - destruct (ca_tag_type (c_attrs c1)) as [|t|t c|] eqn:Et; auto. unfold serialize_adjacent_tagged_enum.
      rewrite (try_map_ext (adjacent_variant ev) (adjacent_variant ev) _ _ _ Hv).
      + now rewrite Hde, Hid, Hnames, Hnu.
      + intros w1 w2 Hw. pose proof (va_at _ _ _ Hw) as Ha. pose proof (va_st _ _ _ Hw) as Hs. unfold adjacent_variant. rewrite <- Hs, <- Ha.
        destruct (v_style w1) eqn:Es; auto.
        * now rewrite (tuple_alike _ _ _ _ _ Hw).
        * now rewrite (tuple_alike _ _ _ _ _ Hw).
        * eapply newtype_alike; eauto.
    - destruct (ca_tag_type (c_attrs c1)) as [|t|t c|] eqn:Et; auto.
      + assert (HnD : ~ D) by (apply HD; discriminate).
        unfold serialize_internal_tagged_enum. rewrite (try_map_ext (internal_variant ev c1 t) (internal_variant ev c2 t) _ _ _ Hv).
        * now rewrite Hde.
        * intros w1 w2 Hw. pose proof (va_at _ _ _ Hw) as Ha. pose proof (va_st _ _ _ Hw) as Hs. pose proof (va_na _ _ _ Hw) as Hn.
          unfold internal_variant, internal_model, variant_name. rewrite <- Hs, <- Ha, <- Hid, <- Hnu.
          destruct (v_style w1) eqn:Es; auto.
          -- destruct (Hn eq_refl) as [|He]; [contradiction|]. now rewrite (object_alike w1 w2 _ _ Ha He).
          -- destruct (va_fi _ _ _ Hw) as [|g1 g2 gs1 gs2 Hg Hr]; auto. now rewrite (alike_params _ _ Hg), (al_ty _ _ Hg).
      + assert (HnD : ~ D) by (apply HD; discriminate).
        unfold serialize_untagged_enum. rewrite (try_map_ext (untagged_variant ev) (untagged_variant ev) _ _ _ Hv).
        * now rewrite Hde.
        * intros w1 w2 Hw. pose proof (va_at _ _ _ Hw) as Ha. pose proof (va_st _ _ _ Hw) as Hs. pose proof (va_na _ _ _ Hw) as Hn.
          unfold untagged_variant. rewrite <- Hs, <- Ha.
          destruct (v_style w1) eqn:Es; auto.
          -- destruct (Hn eq_refl) as [|He]; [contradiction|]. now rewrite (object_alike w1 w2 _ _ Ha He).
          -- eapply newtype_alike; eauto.
    - assert (HnD : ~ D) by (apply HD; auto).
      unfold serialize_external_tagged_enum. rewrite (try_map_ext (external_variant ev) (external_variant ev) _ _ _ Hv).
      + now rewrite Hde, Hnu.
      + intros w1 w2 Hw. pose proof (va_at _ _ _ Hw) as Ha. pose proof (va_st _ _ _ Hw) as Hs. pose proof (va_na _ _ _ Hw) as Hn.
        unfold external_variant, variant_name. rewrite <- Hs, <- Ha.
        destruct (v_style w1) eqn:Es; auto.
        * destruct (Hn eq_refl) as [|He]; [contradiction|]. now rewrite (object_alike w1 w2 _ _ Ha He).
        * now rewrite (tuple_alike _ _ _ false (va_description (v_attrs w1)) Hw).
        * eapply newtype_alike; eauto.
  Qed.

  Lemma payload_marked_unit D f1 f2 : payload_marked pe pp D f1 f2 -> is_unit f1 = is_unit f2.
  Proof. now destruct 1. Qed.
  Lemma marked_units D vs1 vs2 : Forall2 (variant_marked pe pp D) vs1 vs2 ->
    forallb (fun v => is_unit (vs_fields v)) vs1 = forallb (fun v => is_unit (vs_fields v)) vs2.
  Proof.
    induction 1 as [|v1 v2 vs1 vs2 [l i f1 f2 d Hp] Hv IH]; auto. cbn [forallb vs_fields]. now rewrite IH, (payload_marked_unit _ _ _ Hp).
  Qed.
  Lemma marked_consistent D vs1 vs2 : Forall2 (variant_marked pe pp D) vs1 vs2 ->
    consistent_discriminants vs1 = consistent_discriminants vs2.
  Proof.
    intros H. unfold consistent_discriminants. destruct H as [|v1 v2 vs1 vs2 [l i f1 f2 d Hp] Hv]; auto. cbn [vs_discriminant].
    induction Hv as [|w1 w2 vs1 vs2 [l' i' g1 g2 d' Hq] Hv IH]; auto. cbn [forallb vs_discriminant]. now rewrite IH.
  Qed.

  Lemma marked_derive i1 i2 td : input_marked pe pp i1 i2 -> derive i1 = DOk td -> derive i2 = DOk td.
  Proof.
    intros Hi H. unfold Derive.derive in *. destruct (container_from_ast pe pp uni i1) as [[|c1|] [|e es]] eqn:E1; try discriminate.
    destruct (serialize_body ev c1) as [b|] eqn:Eb; [|discriminate]. injection H as <-.
    enough (exists c2, container_from_ast pe pp uni i2 = (FaSome c2, []) /\ c_ident c2 = c_ident c1 /\
              ca_inline (c_attrs c2) = ca_inline (c_attrs c1) /\ serialize_body ev c2 = serialize_body ev c1) as (c2 & -> & H1 & H2 & H3).
    { now rewrite H3, Eb, H1, H2. }
    clear Eb b. destruct Hi as [l i f1 f2 Hp|l i vs1 vs2 rep Hrep Hv].
    - assert (Hpos : kind_of_data (DaStruct f1) = kind_of_data (DaStruct f2)) by now destruct Hp.
      assert (Hmk : forall t, decide_model_kind (DaStruct f1) t = decide_model_kind (DaStruct f2) t) by now destruct Hp.
      unfold container_from_ast, container_attrs_from_ast in *. cbn [di_attrs di_ident di_data] in *. rewrite <- Hpos.
      destruct (parse_attrs pe pp _ l) as [s es0]. destruct (at_most_one (s_types s)) as [t dup]. rewrite <- Hmk.
      destruct (decide_model_kind (DaStruct f1) _) as [mk bad].
      destruct (struct_from_ast pe pp f1) as [[st gs1] es1] eqn:Es. unfold rename_data in *. cbn [ca_rename_rule] in *.
      destruct (try_map (rename_field (rule_or_none (s_rename_all s))) gs1) as [hs1|] eqn:Eh; [|discriminate].
      injection E1 as <- He. apply app_eq_nil in He as [He ->].
      destruct (payload_marks _ _ _ _ _ Hp Es) as (gs2 & -> & Hg & Hn). destruct (alike_rename _ _ _ Hg _ Eh) as (hs2 & Eh2 & Hh). rewrite Eh2.
      eexists. split; [rewrite He; reflexivity|]. split; [reflexivity|]. split; [reflexivity|].
      unfold serialize_body. cbn [c_data]. destruct st; auto.
      + destruct (Hn eq_refl) as [[]|Hsame]. rewrite Hsame in Eh. assert (hs1 = hs2) as <- by congruence. reflexivity.
      + unfold serialize_tuple_struct. cbn [c_attrs ca_description ca_nullable]. symmetry.
        rewrite (alike_tuple _ _ _ (fun f => fa_inline (f_attrs f)) Hh); auto. intros g1 g2 []. auto.
      + destruct Hh as [|g1 g2 hs1 hs2 Hg12 Hr]; auto. unfold serialize_newtype_struct. cbn [c_attrs ca_explicit ca_nullable].
        now rewrite (alike_params _ _ Hg12), (al_ty _ _ Hg12).
    - pose proof (from_ast_parsed _ _ _ _ _ E1) as [Hc _]. pose proof (proj1 (cp_tag _ _ _ _ _ Hc vs1 rep eq_refl) Hrep) as Hrep'. clear Hc.
      unfold container_from_ast, container_attrs_from_ast in *. cbn [di_attrs di_ident di_data kind_of_data] in *.
      assert (Hmk : forall t, decide_model_kind (DaEnum vs1) t = decide_model_kind (DaEnum vs2) t).
      { intros t. cbn. now rewrite (marked_units _ _ _ Hv). }
      destruct (parse_attrs pe pp _ l) as [s es0]. destruct (at_most_one (s_types s)) as [t dup]. rewrite <- Hmk.
      destruct (decide_model_kind (DaEnum vs1) _) as [mk bad] eqn:Emk. rewrite <- (marked_consistent _ _ _ Hv).
      destruct (consistent_discriminants vs1) eqn:Ec; [|discriminate].
      destruct (variants_from_ast pe pp vs1) as [ws1 es1] eqn:Es. unfold rename_data in *. cbn [ca_rename_rule] in *.
      destruct (try_map (rename_variant uni (rule_or_none (s_rename_all s))) ws1) as [xs1|] eqn:Eh; [|discriminate].
      injection E1 as <- He. apply app_eq_nil in He as [He ->].
      destruct (variants_marks _ _ _ Hv _ Es) as (ws2 & -> & Hw). destruct (valike_rename _ _ _ _ Hw _ Eh) as (xs2 & -> & Hxs).
      eexists. split; [rewrite He; reflexivity|]. split; [reflexivity|]. split; [reflexivity|].
      unfold serialize_body. cbn [c_data]. symmetry.
      eapply enum_alike; [exact Hxs| |reflexivity|reflexivity| |reflexivity..]; cbn [c_attrs ca_tag_type ca_model_kind] in *.
      + intros Hno (t' & c' & Hr). rewrite Hr in Hrep'. destruct (decide_tag _ _ _) eqn:Ed; try discriminate. eapply Hno; reflexivity.
      + intros -> t' c' Ht. rewrite Ht in Emk. cbn in Emk. destruct (forallb _ vs1); discriminate.
  Qed.
End Facts.
