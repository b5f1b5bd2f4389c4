(** The code derived from sources whose alternatives are told apart. *)
From Verif Require Import Attr AttrSpec AttrFacts Ast AstFacts Derive DeriveSpec Schema SchemaSpec SchemaFacts Gen GenSpec
  GenFacts GenFacts2 GenFacts3 GenFacts4 GenFacts5 DeriveFacts DeriveFacts2 DeriveFacts3 DeriveFacts5 SoundSpec SoundFacts SoundFacts2 SoundFacts3
  TidySpec TidyFacts TidyFacts2 StrictSpec StrictFacts StrictFacts2.
From Coq Require Import Arith Lia.

Lemma all_excl w E l : fold_right (fun r P => excl_r w E r /\ P) True l <-> forall r, In r l -> excl_r w E r.
Proof.
  induction l as [|r l IH]; cbn; [split; [intros _ r []|auto]|]. rewrite IH. split; [intros [H1 H2] r' [<-|Hi]; auto|intros H; split; auto].
Qed.
Lemma all_excl_stmts w E (l : list (str * rcode * bool)) :
  fold_right (fun s P => excl_r w E (snd (fst s)) /\ P) True l <-> forall s, In s l -> excl_r w E (snd (fst s)).
Proof.
  induction l as [|r l IH]; cbn; [split; [intros _ r []|auto]|]. rewrite IH. split; [intros [H1 H2] r' [<-|Hi]; auto|intros H; split; auto].
Qed.
Lemma pairs_In {A} (R : A -> A -> Prop) l : (forall l1 a l2 b l3, l = l1 ++ a :: l2 ++ b :: l3 -> R a b) -> ForallOrdPairs R l.
Proof.
  induction l as [|a l IH]; intros H; constructor.
  - apply Forall_forall. intros b Hb. apply in_split in Hb as (l2 & l3 & ->). now apply (H [] a l2 b l3).
  - apply IH. intros l1 x l2 y l3 ->. now apply (H (a :: l1) x l2 y l3).
Qed.
Lemma code_shape_weaken E c k (n1 n2 : Prop) : (n1 -> n2) -> code_shape E c k n1 -> code_shape E c k n2.
Proof.
  intros Hi. destruct c as [|[t p|d [l|b t]]|t i p|c tag v id n]; cbn; try tauto.
  intros [H1 H2]. split; [|tauto]. intros cx m cx' H. destruct (H1 _ _ _ H) as (Hk & b & Hb & Hn). eauto 6.
Qed.

Lemma code_members_weaken E c ns qs (n1 n2 : Prop) : (n1 -> n2) -> code_members E c ns qs n1 -> code_members E c ns qs n2.
Proof.
  intros Hi. destruct c as [|[t p|d [l|b [ | | | ]]]|t i p|c tag v id n]; cbn; try tauto.
  intros [H1 H2]. split; [|tauto]. intros cx m cx' H. destruct (H1 _ _ _ H) as (o & b & H3 & H4 & H5 & H6 & H7 & H8). exists o, b. auto 10.
Qed.

Section Facts.
  Variable pe pp : str -> bool.
  Variable uni : N -> bool.
  Variable D : tid -> derive_input ty.
  Variable ev : str -> str.
  Variable E : env.
  Notation derive := (derive pe pp uni ev).
  Notation has_kind := (has_kind pe pp D).
  Notation may_be_null := (may_be_null pe pp D).
  (** the nominal types in the description of [t] are derived *)
  Definition derived_from (t : ty) : Prop := forall id, reached E t (TNamed id) -> derive (D id) = DOk (E id).
  Lemma derived_step t t' : derived_from t -> refers_to E t t' -> derived_from t'.
  Proof.
    intros H (s & Hi & <-) id Hr. apply H. destruct Hr as [Hr|Hr]; [rewrite Hr; apply reached_closed with t; [now left|exact Hi]|].
    right. apply cont_more with (site_ty s); [now exists s|exact Hr].
  Qed.
  Lemma derived_self id : derived_from (TNamed id) -> derive (D id) = DOk (E id).
  Proof. intros H. apply H. now left. Qed.

  (** ** Bodies *)
  Lemma single_shaped id d b t : td_body (E id) = McModel d (DcSingle b t) -> shaped E (TNamed id) (tkind t) (b = true).
  Proof.
    intros Hb cx m cx' H. apply returns_body in H as [fuel H]. rewrite Hb, em_model in H. binds. rewrite ed_single in *. binds.
    split; [eapply kind_eval; eauto|]. exists b. now split.
  Qed.
  Lemma has_payload_dec vs : has_payload vs \/ forall v, In v vs -> unit_variant v.
  Proof.
    destruct (forallb (fun v => is_unit (vs_fields v)) vs) eqn:Eu; [right; now apply all_units_iff|left].
    induction vs as [|v vs IH]; [discriminate|]. cbn in Eu. destruct (is_unit (vs_fields v)) eqn:Ei.
    - destruct (IH Eu) as (v' & ? & ?). exists v'. split; [now right|assumption].
    - exists v. split; [now left|]. intros Hx. rewrite Hx in Ei. discriminate.
  Qed.
  Record enum_code (i : derive_input ty) (td : typedef) (vs : list (variant_syn ty)) (c : container ty) (ws : list (variant ty))
    (l : list (str * variant_syn ty)) : Prop := {
    ec_container : container_parsed pe pp uni i c;
    ec_all : Forall2 (variant_parsed pe pp uni (ca_rename_rule (c_attrs c))) vs ws;
    ec_kept : Forall2 (kept_variant pe pp uni (ca_rename_rule (c_attrs c))) l (serialised ws);
    ec_variants : enum_variants pe pp uni i vs l;
    ec_rep : represents pe pp (di_attrs i) (rep_of (ca_tag_type (c_attrs c)));
    ec_only : forall rep, represents pe pp (di_attrs i) rep -> rep = rep_of (ca_tag_type (c_attrs c));
    ec_units : ~ has_payload vs -> td_body td = serialize_newtype_enum c ws;
    ec_payload : has_payload vs ->
      match ca_tag_type (c_attrs c) with
      | TagExternal => serialize_external_tagged_enum ev c ws
      | TagInternal tag => serialize_internal_tagged_enum ev c ws tag
      | TagAdjacent tag content => serialize_adjacent_tagged_enum ev c ws tag content
      | TagNone => serialize_untagged_enum ev c ws
      end = Some (td_body td)
  }.
  Lemma enum_code_of i td vs : derive i = DOk td -> di_data i = DaEnum vs -> exists c ws l, enum_code i td vs c ws l.
  Proof.
    intros Hd Hvs. destruct (derive_inv _ _ _ _ _ _ Hd) as (c & Hc & Hb & _ & _).
    pose proof (cp_data _ _ _ _ _ Hc) as Hdata. unfold serialize_body in Hb. rewrite Hvs in Hdata. inversion Hdata as [vs' ws Hw E1 E2|]; subst vs'.
    rewrite <- E2 in Hb. destruct (variants_kept _ _ _ _ _ _ Hw) as (l & Hl & Hk). exists c, ws, l.
    pose proof (cp_kind _ _ _ _ _ Hc) as Hkind. rewrite Hvs in Hkind. cbn [decide_model_kind] in Hkind. unfold serialize_enum in Hb. rewrite Hkind in Hb.
    pose proof (cp_rule _ _ _ _ _ Hc) as Hr. rewrite Hvs in Hr. cbn [shape] in Hr.
    constructor; auto.
    - now exists (ca_rename_rule (c_attrs c)).
    - now apply (cp_tag _ _ _ _ _ Hc vs).
    - intros rep Hrep. now apply (cp_tag _ _ _ _ _ Hc vs) in Hrep.
    - intros Hn. destruct (has_payload_dec vs) as [Hp|Hu]; [contradiction|]. apply all_units_iff in Hu. rewrite Hu in Hb.
      assert (Hb' : Some (serialize_newtype_enum c ws) = Some (td_body td)) by (destruct (ca_tag_type (c_attrs c)); cbn in Hb; first [exact Hb|discriminate Hb]).
      congruence.
    - intros (w & Hiw & Hnu). destruct (forallb (fun v => is_unit (vs_fields v)) vs) eqn:Eu.
      + apply all_units_iff in Eu. destruct Hnu. auto.
      + destruct (ca_tag_type (c_attrs c)); exact Hb.
  Qed.
  Lemma params_null (g : field ty) f r j : field_parsed pe pp r j f g -> p_nullable (params_of_field ev (f_attrs g)) = Some true -> said pe pp PField (fs_attrs f) SNullable.
  Proof.
    intros Hg. unfold params_of_field, flag. cbn. destruct (fa_nullable (f_attrs g)) eqn:En; [|discriminate]. intros _. now apply (fp_nullable _ _ _ _ _ _ Hg).
  Qed.

  Lemma kind_shaped t k : has_kind t k -> derived_from t -> shaped E t k (may_be_null t).
  Proof.
    induction 1 as [p|w t k H IH|t k H IH|ts|sk t|dk t|id fs Hd|id fs Hd Hl|id f k Hd Hno H IH|id vs Hd Hu Hr|id vs Hd Hp Hr|id vs tg ct Hd Hp Hr]; intros Hder.
    - intros cx m cx' H. apply returns_step in H as [fuel H]. cbn in H. binds. destruct p; cbn; (split; [reflexivity|]; eexists; split; [reflexivity|]);
        first [discriminate|intros _; constructor].
    - intros cx m cx' H1. apply (proj1 (wrap_returns _ _ _ _ _ _)) in H1. destruct (IH (derived_step _ _ Hder ltac:(exists (SCall t); split; [now left|reflexivity])) _ _ _ H1) as (Hk & b & Hb & Hn).
      split; [exact Hk|]. exists b. split; [exact Hb|]. intros Hx. constructor. auto.
    - intros cx m cx' H1. apply option_schema in H1 as (m0 & H1 & _ & Hk & _ & _ & _ & _ & _ & _ & Hn).
      destruct (IH (derived_step _ _ Hder ltac:(exists (SCall t); split; [now left|reflexivity])) _ _ _ H1) as (Hk0 & b & Hb & _). rewrite Hb in Hn.
      split; [congruence|]. exists true. split; [exact Hn|]. intros _. constructor.
    - intros cx m cx' H. apply returns_step in H as [fuel H]. cbn in H. binds. split; [reflexivity|]. exists false. split; [reflexivity|discriminate].
    - intros cx m cx' H. apply returns_step in H as [fuel H]. cbn in H. binds. split; [reflexivity|]. exists false. split; [reflexivity|discriminate].
    - intros cx m cx' H. apply returns_step in H as [fuel H]. cbn in H. binds. split; [reflexivity|]. exists false. split; [reflexivity|discriminate].
    - destruct (derive_inv _ _ _ _ _ _ (derived_self _ Hder)) as (c & Hc & Hb & _).
      pose proof (cp_data _ _ _ _ _ Hc) as Hdata. rewrite Hd in Hdata. inversion Hdata as [|f gs Hf E1 E2]; subst f.
      unfold serialize_body in Hb. rewrite <- E2 in Hb. cbn [style_of] in Hb. unfold serialize_struct, object_type_description in Hb.
      destruct (try_map _ _) as [l|]; [|discriminate]. injection Hb as Hb. symmetry in Hb. apply single_shaped in Hb.
      intros cx m cx' H. destruct (Hb _ _ _ H) as (Hk & b & Hb' & Hn). split; [exact Hk|]. exists b. split; [exact Hb'|].
      intros Hx. apply mn_container. apply (cp_nullable _ _ _ _ _ Hc). auto.
    - destruct (derive_inv _ _ _ _ _ _ (derived_self _ Hder)) as (c & Hc & Hb & _).
      pose proof (cp_data _ _ _ _ _ Hc) as Hdata. rewrite Hd in Hdata. inversion Hdata as [|f gs Hf E1 E2]; subst f.
      unfold serialize_body in Hb. rewrite <- E2 in Hb. cbn [style_of] in Hb. apply Nat.eqb_neq in Hl. rewrite Hl in Hb. unfold serialize_tuple_struct, tuple_type_description in Hb.
      destruct (try_map _ _) as [l|]; [|discriminate]. injection Hb as Hb. symmetry in Hb. apply single_shaped in Hb.
      intros cx m cx' H. destruct (Hb _ _ _ H) as (Hk & b & Hb' & Hn). split; [exact Hk|]. exists b. split; [exact Hb'|].
      intros Hx. apply mn_container. apply (cp_nullable _ _ _ _ _ Hc). auto.
    - destruct (derive_inv _ _ _ _ _ _ (derived_self _ Hder)) as (c & Hc & Hb & _).
      pose proof (cp_data _ _ _ _ _ Hc) as Hdata. rewrite Hd in Hdata. inversion Hdata as [|f0 gs Hf E1 E2]; subst f0.
      unfold serialize_body in Hb. rewrite <- E2 in Hb. cbn [style_of length Nat.eqb] in Hb. cbn [fields_list] in Hf.
      inversion Hf as [|? ? g ? gs' Hg Hr]; subst. unfold serialize_newtype_struct in Hb.
      pose proof (cp_explicit _ _ _ _ _ Hc) as Hex. rewrite Hd in Hex. cbn [shape] in Hex.
      destruct (ca_explicit (c_attrs c)) as [t|]; [destruct (Hno t); now apply Hex|]. injection Hb as Hb. symmetry in Hb.
      assert (Hst : refers_to E (TNamed id) (fs_ty f)).
      { exists (SCall (f_ty g)). cbn [site_ty]. split; [|apply (fp_ty _ _ _ _ _ _ Hg)]. cbn [sites_of]. rewrite Hb. now left. }
      specialize (IH (derived_step _ _ Hder Hst)).
      intros cx m cx' H1. apply returns_body in H1 as [fuel H1]. rewrite Hb, em_with in H1. binds.
      rewrite (fp_ty _ _ _ _ _ _ Hg) in *. match goal with H : get_schema _ _ _ _ = Ok _ |- _ => destruct (IH _ _ _ (ex_intro _ fuel H)) as (Hk & b & Hb' & Hn) end.
      rewrite kind_apply. split; [exact Hk|]. eexists. split; [apply nullable_apply; exact Hb'|]. unfold params_or. cbn [p_nullable].
      destruct (p_nullable (params_of_field ev (f_attrs g))) as [[|]|] eqn:Ep; [|discriminate|].
      + intros _. apply mn_field with f; [exact Hd|]. eapply params_null; eauto.
      + intros Hx. apply mn_newtype with f; auto.
    - destruct (enum_code_of _ _ _ (derived_self _ Hder) Hd) as (c & ws & l & Hec). pose proof (ec_units _ _ _ _ _ _ Hec Hu) as Hb.
      unfold serialize_newtype_enum in Hb. pose proof (cp_repr _ _ _ _ _ (ec_container _ _ _ _ _ _ Hec)) as Hrepr. rewrite Hd in Hrepr. cbn [shape] in Hrepr.
      unfold AttrSpec.flag_takes in Hrepr. destruct (ca_has_repr (c_attrs c)); [destruct Hr; now apply Hrepr|]. apply single_shaped in Hb.
      intros cx m cx' H. destruct (Hb _ _ _ H) as (Hk & b & Hb' & Hn). split; [exact Hk|]. exists b. split; [exact Hb'|]. intros Hx. specialize (Hn Hx). discriminate.
    - destruct (enum_code_of _ _ _ (derived_self _ Hder) Hd) as (c & ws & l & Hec). pose proof (ec_payload _ _ _ _ _ _ Hec Hp) as Hb.
      pose proof (ec_only _ _ _ _ _ _ Hec _ Hr) as Ho. destruct (ca_tag_type (c_attrs c)); try discriminate.
      unfold serialize_external_tagged_enum in Hb. destruct (try_map _ _) as [cs|]; [|discriminate]. injection Hb as Hb. symmetry in Hb. apply single_shaped in Hb.
      intros cx m cx' H. destruct (Hb _ _ _ H) as (Hk & b & Hb' & Hn). split; [exact Hk|]. exists b. split; [exact Hb'|].
      intros Hx. apply mn_container. apply (cp_nullable _ _ _ _ _ (ec_container _ _ _ _ _ _ Hec)). auto.
    - destruct (enum_code_of _ _ _ (derived_self _ Hder) Hd) as (c & ws & l & Hec). pose proof (ec_payload _ _ _ _ _ _ Hec Hp) as Hb.
      pose proof (ec_only _ _ _ _ _ _ Hec _ Hr) as Ho. destruct (ca_tag_type (c_attrs c)); try discriminate.
      unfold serialize_adjacent_tagged_enum in Hb. destruct (try_map _ _) as [cs|]; [|discriminate]. injection Hb as Hb. symmetry in Hb. apply single_shaped in Hb.
      intros cx m cx' H. destruct (Hb _ _ _ H) as (Hk & b & Hb' & Hn). split; [exact Hk|]. exists b. split; [exact Hb'|].
      intros Hx. apply mn_container. apply (cp_nullable _ _ _ _ _ (ec_container _ _ _ _ _ _ Hec)). auto.
  Qed.

  (** ** The members of objects *)
  Definition names_in (l : list (str * field_syn ty)) (k : str) : Prop := In k (map fst l).
  Definition always_in (l : list (str * field_syn ty)) (k : str) : Prop := exists f, In (k, f) l /\ ~ field_optional pe pp f.
  Lemma object_members r fs gs inl t l : fields_parsed pe pp r 0 fs gs -> object_type_description ev gs inl = Some t ->
    serialised_fields pe pp r 0 fs l ->
    exists stmts, t = TcObject stmts /\ (forall k, In k (map (fun s => fst (fst s)) stmts) -> names_in l k) /\
      (forall k, always_in l k -> exists c, In (k, c, true) stmts).
  Proof.
    intros Hp Ho Hl. unfold object_type_description in Ho. destruct (try_map _ _) as [stmts|] eqn:Et; [|discriminate].
    injection Ho as <-. exists stmts. split; [reflexivity|]. destruct (fields_kept _ _ _ _ _ _ Hp) as (l' & Hl' & Hk).
    assert (l' = l) as -> by (eapply serialised_fields_unique; eauto; eapply fields_parsed_acc; eauto).
    apply try_map_Forall2 in Et. clear -Hk Et. unfold names_in, always_in. revert stmts Et.
    induction Hk as [|[n f] g l gs' [[j Hf] Hn] Hk IH]; intros stmts Et.
    - inversion Et. split; [intros k []|intros k (f & [] & _)].
    - inversion Et as [|? s ? ss Hs Hss]; subst. destruct (IH _ Hss) as [IH1 IH2].
      destruct (field_model_reference _ g _) as [c|]; [|discriminate]. injection Hs as <-. cbn [map fst snd] in *. subst n. split.
      + intros k [<-|Hk']; [now left|right; auto].
      + intros k (f' & [[= <- <-]|Hi] & Hno).
        * exists c. left. f_equal. pose proof (fp_optional _ _ _ _ _ _ Hf) as Hopt. unfold AttrSpec.flag_takes in Hopt.
          destruct (fa_optional (f_attrs g)); [|reflexivity]. destruct Hno. now apply Hopt.
        * destruct (IH2 k) as [c' Hc']; [eauto|]. exists c'. now right.
  Qed.
  Lemma members_membered t l : written_fields pe pp D t l -> derived_from t -> membered E t (names_in l) (always_in l) (may_be_null t).
  Proof.
    induction 1 as [wr t l H IH|t l H IH|id fs rule l Hd Hr Hl|id f l Hd Hno H IH]; intros Hder.
    - intros cx m cx' H1. apply (proj1 (wrap_returns _ _ _ _ _ _)) in H1.
      destruct (IH (derived_step _ _ Hder ltac:(exists (SCall t); split; [now left|reflexivity])) _ _ _ H1) as (o & b & Ho & Ha & Hn & Hq & Hb & Hx).
      exists o, b. do 5 (split; [assumption|]). intros Hb'. constructor. auto.
    - intros cx m cx' H1. apply returns_step in H1 as [fuel H1]. cbn [schema_step] in H1. unfold get_schema_with_params in H1. binds.
      match goal with H : get_schema _ _ _ _ = Ok _ |- _ =>
        destruct (IH (derived_step _ _ Hder ltac:(exists (SCall t); split; [now left|reflexivity])) _ _ _ (ex_intro _ fuel H)) as (o & b & Ho & Ha & Hn & Hq & Hb & Hx) end.
      exists o, true. split; [now apply object_apply|]. do 3 (split; [assumption|]). split; [|intros _; constructor].
      erewrite nullable_apply by exact Hb. reflexivity.
    - destruct (derive_inv _ _ _ _ _ _ (derived_self _ Hder)) as (c & Hc & Hb & _).
      pose proof (cp_data _ _ _ _ _ Hc) as Hdata. rewrite Hd in Hdata. inversion Hdata as [|f gs Hf E1 E2]; subst f.
      unfold serialize_body in Hb. rewrite <- E2 in Hb. cbn [style_of] in Hb. unfold serialize_struct in Hb.
      destruct (object_type_description _ _ _) as [t|] eqn:Et; [|discriminate]. injection Hb as Hb. symmetry in Hb.
      pose proof (cp_rule _ _ _ _ _ Hc) as Hr'. rewrite Hd in Hr'. cbn [shape fields_list] in *.
      assert (Hacc : acceptable pe pp (PContainer DkNamed) (di_attrs (D id))).
      { destruct (struct_body pe pp uni D ev E _ _ Hd (derived_self _ Hder)) as (? & ? & ? & ? & ? & _ & _ & Hacc & _). exact Hacc. }
      assert (rule = ca_rename_rule (c_attrs c)) as -> by (eapply has_rule_unique; eauto).
      destruct (object_members _ _ _ _ _ _ Hf Et Hl) as (stmts & -> & Hn & Hq).
      intros cx m cx' H1. apply returns_body in H1 as [fuel H1]. rewrite Hb in H1.
      rewrite em_model in H1. binds. rewrite ed_single in *. binds.
      match goal with H : eval_t _ _ _ _ = Ok _ |- _ => rewrite et_object in H; apply bind_Ok in H as ([[pr rq] cx1] & H & H2) end. binds.
      match goal with H : eval_stmts _ _ _ _ _ = Ok _ |- _ => destruct (eval_stmts_src _ _ _ _ _ _ _ _ H) as [H1 _];
        pose proof (eval_stmts_required _ _ _ _ _ _ _ _ H) as H2 end.
      eexists (MObject pr None rq), _. split; [reflexivity|]. split; [reflexivity|]. cbn [mo_properties mo_required]. split; [|split; [|split; [reflexivity|]]].
      + intros k Hk. apply Hn. destruct (bm_get k pr) as [r0|] eqn:Eg; [|now destruct Hk]. destruct (H1 _ _ Eg) as [Hx|(c0 & b' & c1 & c2 & Hin & _)]; [discriminate|].
        apply in_map_iff. exists (k, c0, b'). now split.
      + intros k Hk. apply H2. right. auto.
      + intros Hx. apply mn_container. apply (cp_nullable _ _ _ _ _ Hc). auto.
    - destruct (derive_inv _ _ _ _ _ _ (derived_self _ Hder)) as (c & Hc & Hb & _).
      pose proof (cp_data _ _ _ _ _ Hc) as Hdata. rewrite Hd in Hdata. inversion Hdata as [|f0 gs Hf E1 E2]; subst f0.
      unfold serialize_body in Hb. rewrite <- E2 in Hb. cbn [style_of length Nat.eqb] in Hb. cbn [fields_list] in Hf.
      inversion Hf as [|? ? g ? gs' Hg Hr]; subst. unfold serialize_newtype_struct in Hb.
      pose proof (cp_explicit _ _ _ _ _ Hc) as Hex. rewrite Hd in Hex. cbn [shape] in Hex.
      destruct (ca_explicit (c_attrs c)) as [t|]; [destruct (Hno t); now apply Hex|]. injection Hb as Hb. symmetry in Hb.
      assert (Hst : refers_to E (TNamed id) (fs_ty f)).
      { exists (SCall (f_ty g)). cbn [site_ty]. split; [|apply (fp_ty _ _ _ _ _ _ Hg)]. cbn [sites_of]. rewrite Hb. now left. }
      specialize (IH (derived_step _ _ Hder Hst)).
      intros cx m cx' H1. apply returns_body in H1 as [fuel H1]. rewrite Hb, em_with in H1. binds.
      rewrite (fp_ty _ _ _ _ _ _ Hg) in *. match goal with H : get_schema _ _ _ _ = Ok _ |- _ => destruct (IH _ _ _ (ex_intro _ fuel H)) as (o & b & Ho & Ha & Hn & Hq & Hb' & Hx) end.
      eexists o, _. split; [now apply object_apply|]. do 3 (split; [assumption|]). split; [apply nullable_apply; exact Hb'|]. unfold params_or. cbn [p_nullable].
      destruct (p_nullable (params_of_field ev (f_attrs g))) as [[|]|] eqn:Ep; [|discriminate|].
      + intros _. apply mn_field with f; [exact Hd|]. eapply params_null; eauto.
      + intros Hy. apply mn_newtype with f; auto.
  Qed.
End Facts.
