(** What serde writes is accepted by the generated schemas: by induction on what serde writes. *)
From Verif Require Import Attr AttrSpec AttrFacts Ast AstFacts Derive DeriveSpec Schema SchemaSpec SchemaFacts Gen GenSpec
  GenFacts GenFacts2 GenFacts3 GenFacts4 DeriveFacts DeriveFacts2 DeriveFacts5 SoundSpec SoundFacts SoundFacts2.
From Coq Require Import Arith Lia ZArith.

Scheme emits_mind := Minimality for emits Sort Prop
with emits_payload_mind := Minimality for emits_payload Sort Prop
with emits_fields_mind := Minimality for emits_fields Sort Prop
with emits_unnamed_mind := Minimality for emits_unnamed Sort Prop
with emits_each_mind := Minimality for emits_each Sort Prop
with emits_list_mind := Minimality for emits_list Sort Prop
with emits_values_mind := Minimality for emits_values Sort Prop.

Section Facts.
  Variable pe pp : str -> bool.
  Variable uni : N -> bool.
  Variable disc : str -> Z.
  Variable D : tid -> derive_input ty.
  Variable ev : str -> str.
  Notation said := (said pe pp).
  Notation derive := (derive pe pp uni ev).
  Notation directly_inside := (directly_inside pe pp D).
  Notation inside := (inside pe pp D).

  Lemma inside_front t t1 t2 : directly_inside t t1 -> inside t1 t2 -> inside t t2.
  Proof.
    intros H. induction 1 as [|t2 t3 Hi IH Hd].
    - eapply in_step; [apply in_self|exact H].
    - eapply in_step; eauto.
  Qed.

  Variable loose : Prop.
  Variables (E : env) (calls : list mention_call) (cx_end : components).
  Definition supp (t : ty) : Prop := supported_inside pe pp D loose t /\ derived_inside pe pp uni D ev E t.
  Lemma supp_step t t' : supp t -> directly_inside t t' -> supp t'.
  Proof. intros [H1 H2] Hd. split; intros x Hx; [apply H1|apply H2]; eapply inside_front; eauto. Qed.
  Lemma supp_self t : supp t -> supported pe pp D loose t.
  Proof. intros [H _]. apply H, in_self. Qed.
  Lemma supp_derived id : supp (TNamed id) -> derive (D id) = DOk (E id) /\ input_supported pe pp D loose (D id).
  Proof. intros H. split; [apply H, in_self|apply (supp_self _ H)]. Qed.

  (** *** Schemas that can be marked nullable *)
  Lemma single_returned t : single pe pp D t -> supp t -> forall cx m cx', schema_returns E t cx m cx' -> nullable_of m <> None.
  Proof.
    induction 1 as [p|ts|k t|k t|w t H IH|t H IH|id fs Hd|id fs Hd Hl|id f Hd H IH|id vs Hd Hu Hr|id vs w Hd Hin Hw Hr|id vs w tg c Hd Hin Hw Hr]; intros Hs cx m cx' Hret.
    - apply returns_step in Hret as [fuel Hret]. cbn in Hret. injection Hret as <- <-. destruct p; discriminate.
    - apply returns_step in Hret as [fuel Hret]. cbn in Hret. binds. discriminate.
    - apply returns_step in Hret as [fuel Hret]. cbn in Hret. binds. discriminate.
    - apply returns_step in Hret as [fuel Hret]. cbn in Hret. binds. discriminate.
    - apply (proj1 (wrap_returns _ _ _ _ _ _)) in Hret. refine (IH _ _ _ _ Hret). eapply supp_step; [exact Hs|constructor].
    - apply (proj1 (option_returns _ _ _ _ _)) in Hret as (m0 & Hret & ->). assert (Hs' : supp t) by (eapply supp_step; [exact Hs|constructor]).
      specialize (IH Hs' _ _ _ Hret). destruct m0 as [d [ [n td] |l|l|l] ]; cbn in *; congruence.
    - apply supp_derived in Hs as [Hs _]. destruct (struct_described _ _ _ _ _ _ _ _ _ _ Hs Hret _ Hd) as (_ & (b & -> & _) & _). discriminate.
    - apply supp_derived in Hs as [Hs _]. destruct (tuple_struct_described _ _ _ _ _ _ _ _ _ _ Hs Hret _ Hd Hl) as (_ & (b & -> & _) & _). discriminate.
    - destruct (supp_derived _ Hs) as [Hdv Hsup].
      destruct (newtype_struct_described _ _ _ _ _ _ _ _ _ _ Hdv Hret _ Hd) as (p & q & _ & _ & [(t & b & Ht & Hb & Hm & _)|(_ & m0 & Hm0 & ->)]).
      + inversion Hsup as [? E0|? E0|? E0|? E0|? E0|? ? ? E0]; rewrite Hd in E0; try discriminate.
        * exfalso. injection E0 as <-. match goal with H : length _ <> 1 |- _ => now apply H end.
        * destruct Hm as (_ & Hm & _). congruence.
      + assert (Hs' : supp (fs_ty f)).
        { eapply supp_step; [exact Hs|]. constructor. split; [|rewrite Hd; now left].
          inversion Hsup as [? E0|? E0|? E0|? E0|? E0|? ? ? E0]; rewrite Hd in E0; try discriminate.
          - injection E0 as <-. exfalso. match goal with H : length _ <> 1 |- _ => now apply H end.
          - injection E0 as <-. auto. }
        specialize (IH Hs' _ _ _ Hm0). destruct m0 as [d [ [n td] |l|l|l] ]; cbn in *; congruence.
    - apply supp_derived in Hs as [Hs _]. destruct (unit_enum_described _ _ _ _ _ _ _ _ _ _ Hs Hret _ Hd Hu Hr) as (l & _ & Hn & _).
      destruct m as [d [ [n td] |l0|l0|l0] ]; try discriminate; now destruct Hn.
    - apply supp_derived in Hs as [Hs _]. destruct (external_enum_described _ _ _ _ _ _ _ _ _ _ Hs Hret _ Hd w Hin Hw Hr) as (l & rs & o & m1 & H).
      decompose [and ex] H. congruence.
    - apply supp_derived in Hs as [Hs _]. destruct (adjacent_enum_described _ _ _ _ _ _ _ _ _ _ Hs Hret _ Hd w _ _ Hin Hw Hr) as (l & rs & o & m1 & m2 & H).
      decompose [and ex] H. congruence.
  Qed.

  (** *** The code of named fields *)
  Lemma object_names r fs gs inl t l : fields_parsed pe pp r 0 fs gs -> object_type_description ev gs inl = Some t ->
    serialised_fields pe pp r 0 fs l -> exists stmts, t = TcObject stmts /\ map (fun s => fst (fst s)) stmts = map fst l.
  Proof.
    intros Hp Ho Hl. unfold object_type_description in Ho. destruct (try_map _ _) as [stmts|] eqn:Et; [|discriminate].
    injection Ho as <-. exists stmts. split; auto. destruct (fields_kept _ _ _ _ _ _ Hp) as (l' & Hl' & Hk).
    assert (l' = l) as -> by (eapply serialised_fields_unique; eauto; eapply fields_parsed_acc; eauto).
    apply try_map_Forall2 in Et. clear -Hk Et. revert stmts Et.
    induction Hk as [|[n f] g l gs' [_ Hn] Hk IH]; intros stmts Et.
    - now inversion Et.
    - inversion Et as [|? s ? ss Hs Hss]; subst. cbn. rewrite (IH _ Hss).
      destruct (field_model_reference _ g _) as [c|]; [|discriminate]. injection Hs as <-. cbn in *. now rewrite Hn.
  Qed.

  Lemma struct_body id fs : di_data (D id) = DaStruct (FNamed fs) -> derive (D id) = DOk (E id) ->
    exists rule gs t d b, has_rule pe pp (PContainer DkNamed) (di_attrs (D id)) rule /\ fields_parsed pe pp rule 0 fs gs /\
      acceptable pe pp (PContainer DkNamed) (di_attrs (D id)) /\
      object_type_description ev gs (fun f => fa_inline (f_attrs f)) = Some t /\
      td_body (E id) = McModel d (DcSingle b t).
  Proof.
    intros Hs Hd. destruct (derive_inv _ _ _ _ _ _ Hd) as (c & Hc & Hb & _).
    pose proof (cp_data _ _ _ _ _ Hc) as Hdata. rewrite Hs in Hdata. inversion Hdata as [|? gs Hf Heq1 Heq2]; subst.
    unfold serialize_body in Hb. rewrite <- Heq2 in Hb. cbn [style_of] in Hb. unfold serialize_struct in Hb.
    destruct (object_type_description ev gs _) as [t|] eqn:Et; [|discriminate]. injection Hb as Hb.
    destruct Hc. rewrite Hs in *. cbn [shape] in *. do 5 eexists. do 4 (split; [eassumption|]). eauto.
  Qed.

  Lemma taggable_returned tag t : taggable pe pp D tag t -> supp t -> forall cx m cx', schema_returns E t cx m cx' -> without_property tag m.
  Proof.
    induction 1 as [w t H IH|k t|id fs Hd Hm]; intros Hs cx m cx' Hret.
    - apply (proj1 (wrap_returns _ _ _ _ _ _)) in Hret. refine (IH _ _ _ _ Hret). eapply supp_step; [exact Hs|constructor].
    - apply returns_step in Hret as [fuel Hret]. cbn in Hret. binds. eexists. split; reflexivity.
    - apply supp_derived in Hs as [Hs _]. destruct (struct_body _ _ Hd Hs) as (rule & gs & t & d & b & Hr & Hf & Hacc & Ho & Hb).
      destruct (fields_kept _ _ _ _ _ _ Hf) as (l & Hl & _). destruct (object_names _ _ _ _ _ _ Hf Ho Hl) as (stmts & -> & Hn).
      apply returns_body in Hret as [fuel Hret]. rewrite Hb in Hret. eapply object_without_tag; [|exact Hret].
      rewrite Hn. now apply (Hm rule).
  Qed.

  Section Run.
    Hypothesis Hun : names_unambiguous E (call_sites calls).
    Hypothesis Hret : mentions_return E calls cx_new cx_end.
    Notation sound := (sound loose E calls cx_end).
    Notation roots := (call_sites calls).
    Notation S := (cx_schemas cx_end).

    (** [j] fits the schemas of [t], and is of the kinds that all JSON of [t] is of *)
    Notation both := (fun t j => kinded pe pp D t j /\ sound t j).
    Lemma both_kinded t j : both t j -> kinded pe pp D t j.
    Proof. now intros [H _]. Qed.
    Lemma named_both id j : jm loose E both (td_body (E id)) j -> sound (TNamed id) j.
    Proof.
      intros H. apply named_sound; auto. refine (proj1 (proj2 (jr_impl loose E both sound _)) _ _ H). now intros t j' [_ Hj].
    Qed.

    Lemma struct_sound id fs rule l ms : di_data (D id) = DaStruct (FNamed fs) -> supp (TNamed id) ->
      has_rule pe pp (PContainer DkNamed) (di_attrs (D id)) rule -> serialised_fields pe pp rule 0 fs l ->
      fields_like pe pp loose both l ms -> sound (TNamed id) (JObj ms).
    Proof.
      intros Hd Hs Hr Hl Hms. apply supp_derived in Hs as [Hs Hsup].
      destruct (struct_body _ _ Hd Hs) as (rule' & gs & t & d & b & Hr' & Hf & Hacc & Ho & Hb).
      assert (rule' = rule) as -> by (eapply has_rule_unique; eauto).
      inversion Hsup as [? E0 _ _ Hm|? E0|? E0|? E0|? E0|? ? ? E0]; rewrite Hd in E0; try discriminate. injection E0 as <-.
      destruct (Hm _ _ Hr Hl) as [Hnd Hpl]. apply named_both. rewrite Hb.
      destruct (object_code pe pp ev loose E D both both_kinded _ _ _ _ _ _ _ Hf Hl Hnd (described_plain _ _ _ _ _ _ _ Hpl) Hms Ho) as (stmts & -> & _ & Hj). exact Hj.
    Qed.

    Lemma extra_member stmts tag x l : loose -> ~ In tag (map (fun s => fst (fst s)) stmts) -> jt loose E both (TcObject stmts) (JObj l) ->
      jt loose E both (TcObject stmts) (JObj ((tag, x) :: l)).
    Proof.
      intros Hl Hn [Hk Hall]. split; [intros k _; now right|]. clear Hk. induction stmts as [|[[n c] req] stmts IH]; [exact I|].
      cbn in Hn, Hall |- *. destruct Hall as [[H1 H2] H3]. split; [|apply IH; [tauto|exact H3]]. split; [intros Hr; right; auto|].
      intros j' [[= -> ->]|Hin]; [destruct Hn; now left|]. exact (H2 j' Hin).
    Qed.
    Lemma tagged_struct_sound id fs rule l ms tag n : di_data (D id) = DaStruct (FNamed fs) -> supp (TNamed id) ->
      said (PContainer DkNamed) (di_attrs (D id)) (STag tag) ->
      has_rule pe pp (PContainer DkNamed) (di_attrs (D id)) rule -> serialised_fields pe pp rule 0 fs l ->
      fields_like pe pp loose both l ms -> sound (TNamed id) (JObj ((tag, JStr n) :: ms)).
    Proof.
      intros Hd Hs Ht Hr Hl Hms. apply supp_derived in Hs as [Hs Hsup].
      destruct (struct_body _ _ Hd Hs) as (rule' & gs & t & d & b & Hr' & Hf & Hacc & Ho & Hb).
      assert (rule' = rule) as -> by (eapply has_rule_unique; eauto).
      inversion Hsup as [? E0 _ Htags Hm|? E0|? E0|? E0|? E0|? ? ? E0]; rewrite Hd in E0; try discriminate. injection E0 as <-.
      destruct (Hm _ _ Hr Hl) as [Hnd Hpl]. apply named_both. rewrite Hb.
      destruct (object_code pe pp ev loose E D both both_kinded _ _ _ _ _ _ _ Hf Hl Hnd (described_plain _ _ _ _ _ _ _ Hpl) Hms Ho) as (stmts & -> & Hn & Hj).
      apply (extra_member _ _ _ _ (Htags _ Ht)); [|exact Hj].
      rewrite Hn. intros Hin. apply in_map_iff in Hin as ([k f] & Hk & Hin). cbn in Hk. subst k. now apply (proj2 (Hpl _ _ Hin)).
    Qed.

    Lemma tuple_struct_sound id fs l : di_data (D id) = DaStruct (FUnnamed fs) -> length fs <> 1 -> supp (TNamed id) ->
      unnamed_by pe pp both fs l -> sound (TNamed id) (JArr l).
    Proof.
      intros Hd Hlen Hs Hl. apply supp_derived in Hs as [Hs Hsup]. destruct (derive_inv _ _ _ _ _ _ Hs) as (c & Hc & Hb & _).
      pose proof (cp_data _ _ _ _ _ Hc) as Hdata. rewrite Hd in Hdata. inversion Hdata as [|? gs Hf Heq1 Heq2]; subst.
      unfold serialize_body in Hb. rewrite <- Heq2 in Hb. cbn [style_of] in Hb.
      destruct (Nat.eqb_spec (length fs) 1); [contradiction|]. unfold serialize_tuple_struct in Hb.
      destruct (tuple_type_description ev gs _) as [t|] eqn:Et; [|discriminate]. injection Hb as Hb.
      inversion Hsup as [? E0|? E0 _ _ Hpl|? E0|? E0|? E0|? ? ? E0]; rewrite Hd in E0; try discriminate; injection E0 as ->.
      - apply named_both. rewrite <- Hb. eapply (tuple_code pe pp ev loose E D both both_kinded) in Et; eauto.
      - now destruct Hlen.
    Qed.

    Lemma newtype_struct_sound id f j : di_data (D id) = DaStruct (FUnnamed [f]) -> supp (TNamed id) ->
      both (fs_ty f) j -> sound (TNamed id) j.
    Proof.
      intros Hd Hs Hj. apply supp_derived in Hs as [Hs Hsup]. destruct (derive_inv _ _ _ _ _ _ Hs) as (c & Hc & Hb & _).
      pose proof (cp_data _ _ _ _ _ Hc) as Hdata. rewrite Hd in Hdata. inversion Hdata as [|? gs Hf Heq1 Heq2]; subst.
      unfold serialize_body in Hb. rewrite <- Heq2 in Hb. cbn [style_of length Nat.eqb] in Hb. cbn [fields_list] in Hf.
      inversion Hf as [|? ? g ? gs' Hg Hr]; subst. unfold serialize_newtype_struct in Hb. destruct Hc. rewrite Hd in *. cbn [shape] in *.
      inversion Hsup as [? E0|? E0 Hlen|? E0 _ _ Hno|? E0|? E0|? ? ? E0]; rewrite Hd in E0; try discriminate; injection E0 as <-.
      - now destruct Hlen.
      - destruct (ca_explicit (c_attrs c)) as [t|] eqn:Et.
        { assert (Hm : exists p, newtype_model (ca_nullable (c_attrs c)) p t = Some (td_body (E id)))
            by (destruct t; try discriminate; eexists; exact Hb).
          destruct Hm as [p Hm]. apply named_both. eapply newtype_model_code; [exact Hm| |exact (proj1 Hj _ _ (Hno t (proj1 (cp_explicit t) eq_refl)))].
          intros Hn. now apply cp_nullable. }
        injection Hb as Hb. apply named_both. rewrite <- Hb. split; [apply harmless_or; eapply harmless_field; eauto|].
        now rewrite (fp_ty _ _ _ _ _ _ Hg).
    Qed.

    (** *** Enums *)
    Section Enum.
      Variables (id : tid) (vs : list (variant_syn ty)).
      Hypothesis Hvs : di_data (D id) = DaEnum vs.
      Hypothesis Hs : supp (TNamed id).

      Lemma enum_code : exists c ws l, container_parsed pe pp uni (D id) c /\
        (forall l', enum_variants pe pp uni (D id) vs l' -> l' = l) /\
        (forall n v, In (n, v) l -> In v vs /\ ~ variant_skipped pe pp v) /\
        Forall2 (kept_variant pe pp uni (ca_rename_rule (c_attrs c))) l (serialised ws) /\
        serialize_enum ev c ws = Some (td_body (E id)).
      Proof.
        destruct (supp_derived _ Hs) as [Hd _]. destruct (derive_inv _ _ _ _ _ _ Hd) as (c & Hc & Hb & _).
        pose proof (cp_data _ _ _ _ _ Hc) as Hdata. rewrite Hvs in Hdata. inversion Hdata as [? ws Hw Heq1 Heq2|]; subst.
        destruct (variants_kept _ _ _ _ _ _ Hw) as (l & Hl & Hk).
        unfold serialize_body in Hb. rewrite <- Heq2 in Hb. exists c, ws, l. split; auto. split; [|split; [|auto]].
        - intros l' (r & Hr & Hl'). pose proof (cp_rule _ _ _ _ _ Hc) as Hr'. pose proof (cp_acc _ _ _ _ _ Hc) as Ha.
          rewrite Hvs in Hr', Ha. cbn [shape] in *. assert (r = ca_rename_rule (c_attrs c)) as -> by (eapply has_rule_unique; eauto).
          eapply serialised_variants_unique; eauto. eapply variants_parsed_acc; eauto.
        - intros n v. now apply (serialised_variants_In _ _ _ _ _ _ _ _ Hl).
      Qed.

      Lemma not_repr_kind : (forall v, In v vs -> unit_variant v) \/ exists w, In w vs /\ ~ unit_variant w.
      Proof.
        destruct (forallb (fun v => is_unit (vs_fields v)) vs) eqn:Eu.
        - left. now apply all_units_iff.
        - right. destruct (Exists_dec (fun v => ~ unit_variant v) vs) as [H|H].
          + intros v. unfold unit_variant. destruct (vs_fields v); [left|left|right]; congruence.
          + now apply Exists_exists in H.
          + exfalso. apply Bool.not_true_iff_false in Eu. apply Eu. rewrite forallb_forall. intros v Hv. destruct (vs_fields v) eqn:Ef; auto;
              exfalso; apply H, Exists_exists; exists v; split; auto; unfold unit_variant; rewrite Ef; discriminate.
      Qed.

      Lemma units_sound n v : enum_variant pe pp uni (D id) RepExternal n v -> (forall v, In v vs -> unit_variant v) ->
        sound (TNamed id) (JStr n).
      Proof.
        intros (vs' & l' & Hd & Hni & Hrep & Hl & Hin) Hu. rewrite Hvs in Hd. injection Hd as <-.
        destruct enum_code as (c & ws & l & Hc & Hdet & _ & Hk & Hb). rewrite (Hdet _ Hl) in *. destruct Hc.
        rewrite Hvs in *. cbn [shape] in *. unfold serialize_enum in Hb.
        rewrite cp_kind in Hb. cbn [decide_model_kind] in Hb, cp_kind_ok. rewrite (proj2 (all_units_iff vs) Hu) in Hb, cp_kind_ok.
        assert (Hb' : Some (serialize_newtype_enum c ws) = Some (td_body (E id))) by (destruct (ca_tag_type (c_attrs c)); auto; discriminate).
        injection Hb' as Hb'. unfold serialize_newtype_enum in Hb'. unfold AttrSpec.flag_takes in cp_repr.
        destruct (ca_has_repr (c_attrs c)); [destruct Hni; split; [now apply cp_repr|auto]|].
        rewrite (kept_names _ _ _ _ _ _ Hk) in Hb'. apply named_both. rewrite <- Hb'. cbn. intros vs0 [= <-].
        apply in_map_iff. exists (n, v). auto.
      Qed.

      Lemma ints_sound l' n v z : written_as_int pe pp (D id) vs -> enum_variants pe pp uni (D id) vs l' -> In (n, v) l' ->
        vs_discriminant v <> None -> sound (TNamed id) (JInt z).
      Proof.
        intros [Hr Hu] Hl Hin Hv.
        destruct enum_code as (c & ws & l & Hc & Hdet & _ & Hk & Hb). rewrite (Hdet _ Hl) in *. destruct Hc.
        rewrite Hvs in *. cbn [shape] in *. unfold serialize_enum in Hb.
        rewrite cp_kind in Hb. cbn [decide_model_kind] in Hb, cp_kind_ok. rewrite (proj2 (all_units_iff vs) Hu) in Hb, cp_kind_ok.
        assert (Hb' : Some (serialize_newtype_enum c ws) = Some (td_body (E id))) by (destruct (ca_tag_type (c_attrs c)); auto; discriminate).
        injection Hb' as Hb'. unfold serialize_newtype_enum in Hb'. unfold AttrSpec.flag_takes in cp_repr.
        rewrite (proj2 cp_repr Hr) in Hb'. apply named_both. rewrite <- Hb'. apply (jd_oneof_any loose E both).
        clear -Hk Hin Hv. induction Hk as [|[n' v'] w l ss [Hp Hn] Hk IH]; [destruct Hin|].
        cbn [fst snd] in *. destruct Hin as [[= -> ->]|Hin].
        - cbn [flat_map]. rewrite (vp_disc _ _ _ _ _ _ Hp). destruct (vs_discriminant v); [|now destruct Hv].
          eexists. split; [now left|exact I].
        - destruct (IH Hin) as (c0 & Hc & Hj). exists c0. split; auto. cbn [flat_map]. apply in_app_iff. now right.
      Qed.

      Section Mixed.
        Variables (w0 : variant_syn ty).
        Hypothesis Hw0 : In w0 vs.
        Hypothesis Hnu : ~ unit_variant w0.

        Lemma supported_rep rep n v : enum_variant pe pp uni (D id) rep n v -> variant_supported pe pp D loose rep v /\
          forall t c, rep = RepAdjacent t c -> t <> c.
        Proof.
          intros (vs' & l' & Hd & Hni & Hrep & Hl & Hin). rewrite Hvs in Hd. injection Hd as <-.
          destruct enum_code as (c & ws & l & Hc & Hdet & Hsk & Hk & Hb). rewrite (Hdet _ Hl) in *.
          destruct (Hsk _ _ Hin) as [Hv Hns].
          destruct (supp_derived _ Hs) as [_ Hsup]. inversion Hsup as [? E0|? E0|? E0|? E0 Hu|? E0 [_ Hu]|? w rep' E0 _ _ Hrep' Hac Hok];
            rewrite Hvs in E0; try discriminate; injection E0 as <-.
          - destruct Hnu. auto.
          - destruct Hnu. auto.
          - destruct Hc. apply (cp_tag vs) in Hrep; auto. apply (cp_tag vs) in Hrep'; auto. subst. auto.
        Qed.

        (** an alternative of the enum's description *)
        Lemma mixed_code rep n v : enum_variant pe pp uni (D id) rep n v -> exists c ws w l,
          variant_parsed pe pp uni (ca_rename_rule (c_attrs c)) v w /\ n = variant_name w /\ In (n, v) l /\
          Forall2 (kept_variant pe pp uni (ca_rename_rule (c_attrs c))) l (serialised ws) /\
          match rep with
          | RepExternal => exists d b cs r, td_body (E id) = McModel d (DcSingle b (TcDict (RcInline (McModel d (DcOneOf cs))))) /\
              external_variant ev w = Some r /\ In r cs
          | RepUntagged => exists d cs r, td_body (E id) = McModel d (DcOneOf cs) /\ untagged_variant ev w = Some r /\ In r cs
          | RepInternal tag => exists d cs r, td_body (E id) = McModel d (DcOneOf cs) /\ internal_variant ev c tag w = Some r /\ In r cs
          | RepAdjacent tag content => exists d d1 d2 b cs r b1 b2, td_body (E id) = McModel d (DcSingle b (TcObject
                [(tag, RcInline (names_model d1 (map fst l)), b1); (content, RcInline (McModel d2 (DcOneOf cs)), b2)])) /\
              adjacent_variant ev w = Some r /\ In r cs
          end.
        Proof.
          intros (vs' & l' & Hd & Hni & Hrep & Hl & Hin). rewrite Hvs in Hd. injection Hd as <-.
          destruct enum_code as (c & ws & l & Hc & Hdet & Hsk & Hk & Hb). rewrite (Hdet _ Hl) in *.
          destruct Hc. apply (cp_tag vs) in Hrep; auto. unfold serialize_enum in Hb.
          rewrite cp_kind, Hvs in Hb. cbn [decide_model_kind] in Hb. rewrite (mixed_kind _ _ Hw0 Hnu) in Hb.
          destruct (ca_tag_type (c_attrs c)) as [|t|t t'|]; subst rep; cbn [fst rep_of] in *.
          - unfold serialize_external_tagged_enum in Hb. destruct (try_map _ _) as [cs|] eqn:Et; [|discriminate].
            destruct (alternative_code _ _ _ _ _ _ _ _ _ _ Hk Et Hin) as (w & r & H1 & H2 & H3 & H4). injection Hb as Hb.
            exists c, ws, w, l. repeat (split; auto). exists (ca_description (c_attrs c)), (ca_nullable (c_attrs c)), cs, r. auto.
          - unfold serialize_internal_tagged_enum in Hb. destruct (try_map _ _) as [cs|] eqn:Et; [|discriminate].
            destruct (alternative_code _ _ _ _ _ _ _ _ _ _ Hk Et Hin) as (w & r & H1 & H2 & H3 & H4). injection Hb as Hb.
            exists c, ws, w, l. repeat (split; auto). exists (ca_description (c_attrs c)), cs, r. auto.
          - unfold serialize_adjacent_tagged_enum in Hb. destruct (try_map _ _) as [cs|] eqn:Et; [|discriminate].
            destruct (alternative_code _ _ _ _ _ _ _ _ _ _ Hk Et Hin) as (w & r & H1 & H2 & H3 & H4). injection Hb as Hb.
            rewrite (kept_names _ _ _ _ _ _ Hk) in Hb.
            exists c, ws, w, l. repeat (split; auto). do 4 eexists. exists cs, r. do 2 eexists. split; [symmetry; exact Hb|auto].
          - unfold serialize_untagged_enum in Hb. destruct (try_map _ _) as [cs|] eqn:Et; [|discriminate].
            destruct (alternative_code _ _ _ _ _ _ _ _ _ _ Hk Et Hin) as (w & r & H1 & H2 & H3 & H4). injection Hb as Hb.
            exists c, ws, w, l. repeat (split; auto). exists (ca_description (c_attrs c)), cs, r. auto.
        Qed.

        Lemma payload_style v w r j P : variant_parsed pe pp uni r v w -> payload_by pe pp loose P v j -> v_style w <> StUnit.
        Proof.
          intros [] Hp. rewrite vp_style. destruct Hp as [v f j Hf _|v fs l Hf Hl _|v fs rule l ms Hf _ _ _]; rewrite Hf; cbn; try discriminate.
          destruct (length fs =? 1); discriminate.
        Qed.

        (** newtype payload, tuple payload, struct payload *)
        Lemma payload_code v w r rep j : variant_parsed pe pp uni r v w -> variant_supported pe pp D loose rep v ->
          payload_by pe pp loose both v j ->
          (v_style w = StNewType -> forall c, newtype_variant ev w = Some c -> jr loose E both c j) /\
          (v_style w = StTuple -> forall c, tuple_model ev false (va_description (v_attrs w)) (v_fields w) (inline_in w) = Some c -> jm loose E both c j) /\
          (v_style w = StStruct -> (forall t c, rep <> RepAdjacent t c) /\
             forall c, object_model ev false (va_description (v_attrs w)) (v_fields w) (inline_in w) = Some c ->
               jm loose E both c j /\ forall tag, rep = RepInternal tag -> tag_free E c tag).
        Proof.
          intros Hw Hsup Hp. pose proof (vp_style _ _ _ _ _ _ Hw) as Hst. unfold variant_supported in Hsup.
          destruct Hp as [v f j Hf Hj|v fs l Hf Hlen Hj|v fs rule l ms Hf Hr Hl Hj]; rewrite Hf in *; cbn [style_of length] in Hst.
          - cbn in Hst. rewrite Hst. split; [|split; discriminate]. intros _ c Hc. eapply newtype_code; eauto using both_kinded. apply Hsup.
          - destruct (Nat.eqb_spec (length fs) 1); [contradiction|]. rewrite Hst. split; [discriminate|]. split; [|discriminate].
            intros _ c Hc. eapply tuple_variant_code; eauto using both_kinded. destruct fs as [|f [|f' fs] ]; auto. now destruct Hlen.
          - rewrite Hst. split; [discriminate|]. split; [discriminate|]. intros _. split; [apply Hsup|]. intros c Hc.
            destruct Hsup as [_ Hsup]. destruct (struct_code pe pp uni ev loose E D both both_kinded _ _ _ Hw _ _ _ _ _ _ Hf Hsup Hr Hl Hj Hc) as [H1 H2]. auto.
        Qed.

        Lemma external_sound n v j : enum_variant pe pp uni (D id) RepExternal n v -> payload_by pe pp loose both v j ->
          sound (TNamed id) (JObj [(n, j)]).
        Proof.
          intros Hv Hp. destruct (supported_rep _ _ _ Hv) as [Hsup _].
          destruct (mixed_code _ _ _ Hv) as (c & ws & w & l & Hw & -> & Hin & Hk & d & b & cs & r & Hb & He & Hr).
          destruct (payload_code _ _ _ _ _ Hw Hsup Hp) as (H1 & H2 & H3). pose proof (payload_style _ _ _ _ _ Hw Hp) as Hst.
          apply named_both. rewrite Hb. cbn [jm jd jt]. intros k j' [[= <- <-]|[]]. cbn [jr jm]. eapply jd_oneof; [exact Hr|].
          unfold external_variant in He. destruct (v_style w); try contradiction.
          - destruct (object_model _ _ _ _ _) as [c0|] eqn:Ec; [|discriminate]. injection He as <-. now apply H3.
          - destruct (tuple_model _ _ _ _ _) as [c0|] eqn:Ec; [|discriminate]. injection He as <-. cbn [jr]. now apply H2.
          - now apply H1.
        Qed.

        Lemma untagged_sound n v j : enum_variant pe pp uni (D id) RepUntagged n v -> payload_by pe pp loose both v j ->
          sound (TNamed id) j.
        Proof.
          intros Hv Hp. destruct (supported_rep _ _ _ Hv) as [Hsup _].
          destruct (mixed_code _ _ _ Hv) as (c & ws & w & l & Hw & -> & Hin & Hk & d & cs & r & Hb & He & Hr).
          destruct (payload_code _ _ _ _ _ Hw Hsup Hp) as (H1 & H2 & H3).
          apply named_both. rewrite Hb. cbn [jm]. eapply jd_oneof; [exact Hr|].
          unfold untagged_variant in He. destruct (v_style w); try discriminate.
          - destruct (object_model _ _ _ _ _) as [c0|] eqn:Ec; [|discriminate]. injection He as <-. now apply H3.
          - now apply H1.
        Qed.

        Lemma internal_unit_sound tag n v : enum_variant pe pp uni (D id) (RepInternal tag) n v -> unit_variant v ->
          sound (TNamed id) (JObj [(tag, JStr n)]).
        Proof.
          intros Hv Hu. destruct (mixed_code _ _ _ Hv) as (c & ws & w & l & Hw & -> & Hin & Hk & d & cs & r & Hb & He & Hr).
          apply named_both. rewrite Hb. cbn [jm]. eapply jd_oneof; [exact Hr|]. unfold internal_variant, internal_model in He.
          rewrite (vp_style _ _ _ _ _ _ Hw), Hu in He. cbn in He. injection He as <-. cbn. repeat (split; auto).
        Qed.

        Lemma internal_sound tag n v ms : enum_variant pe pp uni (D id) (RepInternal tag) n v -> payload_by pe pp loose both v (JObj ms) ->
          ~ In tag (keys ms) -> sound (TNamed id) (JObj ((tag, JStr n) :: ms)).
        Proof.
          intros Hv Hp Hk'. destruct (supported_rep _ _ _ Hv) as [Hsup _].
          destruct (mixed_code _ _ _ Hv) as (c & ws & w & l & Hw & -> & Hin & Hk & d & cs & r & Hb & He & Hr).
          destruct (payload_code _ _ _ _ _ Hw Hsup Hp) as (H1 & H2 & H3). pose proof (payload_style _ _ _ _ _ Hw Hp) as Hst.
          assert (Hvin : In v vs /\ ~ variant_skipped pe pp v).
          { destruct Hv as (vs' & l' & Hd & _ & _ & Hl & Hin'). rewrite Hvs in Hd. injection Hd as <-.
            destruct enum_code as (? & ? & l0 & _ & Hdet & Hsk & _). rewrite (Hdet _ Hl) in Hin'. now apply (Hsk (variant_name w)). }
          apply named_both. rewrite Hb. cbn [jm]. eapply jd_oneof; [exact Hr|].
          unfold internal_variant, internal_model in He. destruct (v_style w) eqn:Es; try discriminate; try contradiction.
          - destruct (object_model _ _ _ _ _) as [c0|] eqn:Ec; [|discriminate]. injection He as <-.
            destruct (H3 eq_refl) as [_ H3']. destruct (H3' _ eq_refl) as [Hj Hf]. cbn [jr]. auto.
          - destruct (v_fields w) as [|g gs] eqn:Eg; [discriminate|]. injection He as <-.
            pose proof (vp_fields _ _ _ _ _ _ Hw) as Hfp. rewrite Eg in Hfp. pose proof (vp_style _ _ _ _ _ _ Hw) as Hst'. rewrite Es in Hst'.
            inversion Hp as [? f ? Hf Hj|? fs l0 Hf|? fs rule l0 ms' Hf]; subst; rewrite Hf in *; try discriminate.
            cbn [fields_list] in Hfp. inversion Hfp as [|? ? ? ? ? Hg _]; subst. unfold variant_supported in Hsup. rewrite Hf in Hsup.
            destruct Hsup as (Hns & _ & Htg). cbn [jr tag_free jm]. rewrite (fp_ty _ _ _ _ _ _ Hg). repeat (split; auto).
            + eapply taggable_returned; [apply Htg; reflexivity|]. eapply supp_step; [exact Hs|]. constructor. split; auto.
              rewrite Hvs. exists v. split; [apply Hvin|]. split; [apply Hvin|]. rewrite Hf. now left.
            + cbn. unfold flag. destruct (fa_nullable (f_attrs g)); discriminate.
        Qed.

        Lemma adjacent_sound tag content n v j : enum_variant pe pp uni (D id) (RepAdjacent tag content) n v ->
          payload_by pe pp loose both v j -> sound (TNamed id) (JObj [(tag, JStr n); (content, j)]).
        Proof.
          intros Hv Hp. destruct (supported_rep _ _ _ Hv) as [Hsup Htc]. specialize (Htc _ _ eq_refl).
          destruct (mixed_code _ _ _ Hv) as (c & ws & w & l & Hw & -> & Hin & Hk & d & d1 & d2 & b & cs & r & b1 & b2 & Hb & He & Hr).
          destruct (payload_code _ _ _ _ _ Hw Hsup Hp) as (H1 & H2 & H3). pose proof (payload_style _ _ _ _ _ Hw Hp) as Hst.
          apply named_both. rewrite Hb. cbn [jm jd]. apply jt_object; [intros k Hin'; left; exact Hin'|]. intros k c0 req [[= <- <- <-]|[[= <- <- <-]|[]]].
          - split; [now left|]. intros j' [[= <-]|[[= Hx _]|[]]]; [|congruence]. cbn. intros vs0 [= <-]. apply in_map_iff.
            exists (variant_name w, v). auto.
          - split; [right; now left|]. intros j' [[= Hx _]|[[= <-]|[]]]; [congruence|]. cbn [jr jm]. eapply jd_oneof; [exact Hr|].
            unfold adjacent_variant in He. destruct (v_style w) eqn:Es; try contradiction.
            + exfalso. destruct (H3 eq_refl) as [Hx _]. now apply (Hx tag content).
            + destruct (tuple_model _ _ _ _ _) as [c0|] eqn:Ec; [|discriminate]. injection He as <-. cbn [jr]. now apply H2.
            + now apply H1.
        Qed.
      End Mixed.

      Lemma payload_mixed v j P rep n : enum_variant pe pp uni (D id) rep n v -> payload_by pe pp loose P v j ->
        In v vs /\ ~ unit_variant v.
      Proof.
        intros (vs' & l' & Hd & _ & _ & Hl & Hin) Hp. rewrite Hvs in Hd. injection Hd as <-.
        destruct enum_code as (c & ws & l & _ & Hdet & Hsk & _). rewrite (Hdet _ Hl) in Hin. split; [now apply (Hsk n)|].
        unfold unit_variant. destruct Hp as [v f j Hf _|v fs l0 Hf _ _|v fs rule l0 ms Hf _ _ _]; rewrite Hf; discriminate.
      Qed.
    End Enum.

    Lemma payload_sound id vs v j : di_data (D id) = DaEnum vs -> supp (TNamed id) -> In v vs -> ~ variant_skipped pe pp v ->
      (forall f, vs_fields v = FUnnamed [f] -> ~ field_skipped pe pp f) ->
      payload_by pe pp loose (fun t j => supp t -> both t j) v j -> payload_by pe pp loose both v j.
    Proof.
      intros Hd Hs Hv Hns Hone Hp.
      assert (Hst : forall f, In f (fields_list (vs_fields v)) -> ~ field_skipped pe pp f -> supp (fs_ty f)).
      { intros f Hf Hnf. eapply supp_step; [exact Hs|]. constructor. split; auto. rewrite Hd. exists v. auto. }
      destruct Hp as [v f j Hf Hj|v fs l Hf Hl Hj|v fs rule l ms Hf Hr Hl Hj].
      - apply (pb_newtype _ _ _ _ v f); auto. apply Hj, Hst; [rewrite Hf; now left|]. now apply Hone.
      - apply (pb_tuple _ _ _ _ v fs); auto. eapply unnamed_by_impl; [|exact Hj]. cbn. intros f j Hin Hnf Hq. apply Hq, Hst; auto. now rewrite Hf.
      - apply (pb_struct _ _ _ _ v fs rule l); auto. eapply fields_like_impl; [|exact Hj]. cbn. intros n f j Hin Hq.
        destruct (serialised_fields_In _ _ _ _ _ _ _ _ Hl Hin). apply Hq, Hst; auto. now rewrite Hf.
    Qed.
  End Run.
End Facts.
