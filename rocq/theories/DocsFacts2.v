(** Containers and generated code without documentation. *)
From Verif Require Import Attr Ast Derive Schema Gen GenSpec DocsSpec DocsFacts.

Section Docs.
  Variable K : docs.

  Definition bare_fa (a : field_attrs) : field_attrs :=
    Build_field_attrs (fa_name a) (fa_skip a) (fa_flatten a) (fa_transparent a) (fa_optional a)
      (drop (of_descriptions K) (fa_description a)) (drop (of_formats K) (fa_format a)) (drop (of_examples K) (fa_example a))
      (fa_inline a) (fa_nullable a) (fa_explicit a).
  Definition bare_va (a : variant_attrs) : variant_attrs :=
    Build_variant_attrs (va_name a) (va_rename_rule a) (va_skip a)
      (drop (of_descriptions K) (va_description a)) (drop (of_formats K) (va_format a)) (drop (of_examples K) (va_example a))
      (va_inline a) (va_explicit a).
  Definition bare_ca (a : container_attrs) : container_attrs :=
    Build_container_attrs (ca_name a) (ca_rename_rule a) (ca_transparent a) (ca_tag_type a) (ca_has_flatten a) (ca_has_repr a)
      (drop (of_descriptions K) (ca_description a)) (drop (of_formats K) (ca_format a)) (drop (of_examples K) (ca_example a))
      (ca_inline a) (ca_nullable a) (ca_explicit a) (ca_model_kind a).
  Definition bare_f (f : field ty) : field ty := Build_field (bare_fa (f_attrs f)) (f_ty f).
  Definition bare_v (v : variant ty) : variant ty :=
    Build_variant (v_ident v) (bare_va (v_attrs v)) (v_style v) (map bare_f (v_fields v)) (v_discriminant v).
  Definition bare_dt (d : data ty) : data ty :=
    match d with Enum l => Enum (map bare_v l) | Struct st l => Struct st (map bare_f l) end.
  Definition bare_c (c : container ty) : container ty := Build_container (c_ident c) (bare_ca (c_attrs c)) (bare_dt (c_data c)).

  Section FromAst.
    Variable pe pp : str -> bool.
    Variable uni : N -> bool.

    Lemma types_bare s : s_types (bare_slots K s) = s_types s.
    Proof. now destruct s. Qed.
    Lemma field_bare src l a : field_from_ast pe pp src l = (a, []) -> field_from_ast pe pp src (bare_attrs K l) = (bare_fa a, []).
    Proof.
      unfold field_from_ast. destruct (parse_attrs pe pp PField l) as [s es] eqn:Ep. destruct (at_most_one (s_types s)) as [t dup] eqn:Et.
      intros [= <- He]. apply app_eq_nil in He as [-> ->]. rewrite (parse_bare K _ _ _ _ _ Ep), types_bare, Et. now destruct s.
    Qed.
    Lemma variant_bare id l a : variant_from_ast pe pp id l = (a, []) -> variant_from_ast pe pp id (bare_attrs K l) = (bare_va a, []).
    Proof.
      unfold variant_from_ast. destruct (parse_attrs pe pp PVariant l) as [s es] eqn:Ep. destruct (at_most_one (s_types s)) as [t dup] eqn:Et.
      intros [= <- He]. apply app_eq_nil in He as [-> ->]. rewrite (parse_bare K _ _ _ _ _ Ep), types_bare, Et. now destruct s.
    Qed.
    Lemma fields_bare n l fs : fields_from_ast pe pp n l = (fs, []) -> fields_from_ast pe pp n (map (bare_field K) l) = (map bare_f fs, []).
    Proof.
      revert n fs. induction l as [|f l IH]; intros n fs; cbn [fields_from_ast map]; [intros [= <-]; reflexivity|].
      cbn [bare_field fs_attrs fs_ident fs_ty].
      destruct (field_from_ast pe pp _ (fs_attrs f)) as [a es] eqn:Ef. destruct (fields_from_ast pe pp (S n) l) as [rest es'] eqn:El.
      intros [= <- He]. apply app_eq_nil in He as [-> ->]. rewrite (field_bare _ _ _ Ef), (IH _ _ El). reflexivity.
    Qed.
    Lemma struct_bare f st fs : struct_from_ast pe pp f = (st, fs, []) -> struct_from_ast pe pp (bare_fields K f) = (st, map bare_f fs, []).
    Proof.
      destruct f as [l|l|]; cbn [struct_from_ast bare_fields].
      - destruct (fields_from_ast pe pp 0 l) as [fs' es] eqn:El. intros [= <- <- ->]. now rewrite (fields_bare _ _ _ El).
      - destruct (fields_from_ast pe pp 0 l) as [fs' es] eqn:El. intros [= <- <- ->]. now rewrite (fields_bare _ _ _ El), map_length.
      - intros [= <- <-]. reflexivity.
    Qed.
    Lemma variants_bare vs l : variants_from_ast pe pp vs = (l, []) ->
      variants_from_ast pe pp (map (bare_variant K) vs) = (map bare_v l, []).
    Proof.
      revert l. induction vs as [|v vs IH]; intros l; cbn [variants_from_ast map]; [intros [= <-]; reflexivity|].
      cbn [bare_variant vs_attrs vs_ident vs_fields vs_discriminant].
      destruct (variant_from_ast pe pp (vs_ident v) (vs_attrs v)) as [a es] eqn:Ev.
      destruct (struct_from_ast pe pp (vs_fields v)) as [[st fs] es1] eqn:Es. destruct (variants_from_ast pe pp vs) as [l' es2] eqn:El.
      intros [= <- He]. apply app_eq_nil in He as [-> He]. apply app_eq_nil in He as [-> ->].
      rewrite (variant_bare _ _ _ Ev), (struct_bare _ _ _ Es), (IH _ eq_refl). reflexivity.
    Qed.
    Lemma discriminants_bare vs : consistent_discriminants (map (bare_variant K) vs) = consistent_discriminants vs.
    Proof.
      destruct vs as [|v vs]; [reflexivity|]. cbn [consistent_discriminants map bare_variant vs_discriminant].
      induction vs as [|w vs IH]; [reflexivity|]. cbn [map forallb bare_variant vs_discriminant]. now rewrite IH.
    Qed.
    Definition bare_ds (d : data_syn ty) : data_syn ty :=
      match d with DaEnum vs => DaEnum (map (bare_variant K) vs) | DaStruct f => DaStruct (bare_fields K f) | DaUnion => DaUnion end.
    Lemma bare_input_eq i : bare_input K i = Build_derive_input (bare_attrs K (di_attrs i)) (di_ident i) (bare_ds (di_data i)).
    Proof. reflexivity. Qed.
    Lemma kind_bare d : kind_of_data (bare_ds d) = kind_of_data d.
    Proof. now destruct d as [l|[l|l|]|]. Qed.
    Lemma model_kind_bare d t : decide_model_kind (bare_ds d) t = decide_model_kind d t.
    Proof.
      destruct d as [l|[l|l|]|]; try reflexivity. cbn [decide_model_kind bare_ds].
      replace (forallb _ (map (bare_variant K) l)) with (forallb (fun v : variant_syn ty => is_unit (vs_fields v)) l); [reflexivity|].
      induction l as [|v l IH]; [reflexivity|]. cbn [forallb map]. rewrite IH. f_equal. now destruct v as [? ? [| |] ?].
    Qed.
    Lemma container_attrs_bare i a : container_attrs_from_ast pe pp i = (a, []) ->
      container_attrs_from_ast pe pp (bare_input K i) = (bare_ca a, []).
    Proof.
      unfold container_attrs_from_ast. rewrite bare_input_eq. cbn [di_attrs di_ident di_data]. rewrite kind_bare.
      destruct (parse_attrs pe pp _ (di_attrs i)) as [s es] eqn:Ep. destruct (at_most_one (s_types s)) as [t dup] eqn:Et.
      destruct (decide_model_kind (di_data i) _) as [mk bad] eqn:Ek.
      intros [= <- He]. apply app_eq_nil in He as [-> He]. apply app_eq_nil in He as [-> ->].
      rewrite (parse_bare K _ _ _ _ _ Ep), types_bare, Et, model_kind_bare.
      replace (decide_tag (s_untagged (bare_slots K s)) (s_tag (bare_slots K s)) (s_content (bare_slots K s)))
        with (decide_tag (s_untagged s) (s_tag s) (s_content s)) by now destruct s.
      rewrite Ek. now destruct s.
    Qed.
    Lemma try_map_cons {A B} (f : A -> option B) x l :
      try_map f (x :: l) = match f x with None => None | Some y => match try_map f l with Some ys => Some (y :: ys) | None => None end end.
    Proof. reflexivity. Qed.
    Lemma try_map_map {A A' B B'} (f : A -> option B) (f' : A' -> option B') (g : A -> A') (h : B -> B') :
      (forall x, f' (g x) = option_map h (f x)) -> forall l, try_map f' (map g l) = option_map (map h) (try_map f l).
    Proof.
      intros H l. induction l as [|x l IH]; [reflexivity|]. cbn [map]. rewrite !try_map_cons, H, IH. destruct (f x) as [y|]; [|reflexivity].
      now destruct (try_map f l).
    Qed.
    Lemma rename_field_bare r f : rename_field r (bare_f f) = option_map bare_f (rename_field r f).
    Proof. unfold rename_field. cbn [bare_f f_attrs bare_fa fa_name]. now destruct (rename_as_field r (fa_name (f_attrs f))). Qed.
    Lemma rename_variant_bare r v : rename_variant uni r (bare_v v) = option_map bare_v (rename_variant uni r v).
    Proof.
      unfold rename_variant. cbn [bare_v v_attrs bare_va va_name va_rename_rule v_fields].
      destruct (rename_as_variant uni r (va_name (v_attrs v))); [|reflexivity].
      rewrite (try_map_map _ _ bare_f bare_f (rename_field_bare _)). now destruct (try_map _ (v_fields v)).
    Qed.
    Lemma rename_data_bare r d : rename_data uni r (bare_dt d) = option_map bare_dt (rename_data uni r d).
    Proof.
      destruct d as [vs|st fs]; cbn [rename_data bare_dt].
      - rewrite (try_map_map _ _ bare_v bare_v (rename_variant_bare _)). now destruct (try_map _ vs).
      - rewrite (try_map_map _ _ bare_f bare_f (rename_field_bare _)). now destruct (try_map _ fs).
    Qed.
    Lemma existsb_map {A B} (g : A -> B) p (l : list A) : existsb p (map g l) = existsb (fun x => p (g x)) l.
    Proof. induction l as [|x l IH]; [reflexivity|]. cbn. now rewrite IH. Qed.
    Lemma existsb_ext' {A} (p q : A -> bool) (l : list A) : (forall x, p x = q x) -> existsb p l = existsb q l.
    Proof. intros H. induction l as [|x l IH]; [reflexivity|]. cbn. now rewrite IH, H. Qed.
    Lemma any_flatten_bare d : any_flatten (bare_dt d) = any_flatten d.
    Proof.
      destruct d as [vs|st fs]; cbn [any_flatten bare_dt]; rewrite existsb_map; apply existsb_ext'; [|reflexivity].
      intros v. cbn [bare_v v_fields]. rewrite existsb_map. now apply existsb_ext'.
    Qed.

    Lemma container_bare i c : container_from_ast pe pp uni i = (FaSome c, []) ->
      container_from_ast pe pp uni (bare_input K i) = (FaSome (bare_c c), []).
    Proof.
      unfold container_from_ast. destruct (container_attrs_from_ast pe pp i) as [a es] eqn:Ea.
      destruct (match di_data i with DaEnum _ => _ | DaStruct _ => _ | DaUnion => _ end) as [od es'] eqn:Ed.
      destruct od as [d|]; [|discriminate]. destruct (rename_data uni (ca_rename_rule a) d) as [d'|] eqn:Er; [|discriminate].
      intros [= <- He]. apply app_eq_nil in He as [-> ->]. rewrite (container_attrs_bare _ _ Ea). rewrite bare_input_eq. cbn [di_data di_ident].
      assert (match bare_ds (di_data i) with
              | DaEnum vs => if consistent_discriminants vs then let (l, es') := variants_from_ast pe pp vs in (Some (Enum l), es') else (None, [EDiscriminants])
              | DaStruct f => let '(st, fs, es') := struct_from_ast pe pp f in (Some (Struct st fs), es')
              | DaUnion => (None, [EUnion])
              end = (Some (bare_dt d), [])) as ->.
      { destruct (di_data i) as [vs|f|]; cbn [bare_ds]; [| |discriminate].
        - rewrite discriminants_bare. destruct (consistent_discriminants vs); [|discriminate].
          destruct (variants_from_ast pe pp vs) as [l es] eqn:El. injection Ed as <- ->. now rewrite (variants_bare _ _ El).
        - destruct (struct_from_ast pe pp f) as [[st fs] es] eqn:Es. injection Ed as <- ->. now rewrite (struct_bare _ _ _ Es). }
      cbn [bare_ca ca_rename_rule]. rewrite rename_data_bare, Er. cbn [option_map]. now rewrite any_flatten_bare.
    Qed.
  End FromAst.

  (** ** Code *)

  Definition bare_const (c : const_desc) : const_desc :=
    match c with
    | CdString s => CdString (bare_string K s)
    | CdNumber s => CdNumber (bare_simple K s)
    | CdInteger s => CdInteger (bare_simple K s)
    | CdBoolean => CdBoolean
    end.
  Fixpoint bare_rc (c : rcode) : rcode :=
    match c with
    | RcAny => RcAny
    | RcInline c' => RcInline (bare_mc c')
    | RcMention t i p => RcMention t i (bare_params K p)
    | RcTagged c' tag v id n => RcTagged (bare_mc c') tag v id n
    end
  with bare_mc (c : mcode) : mcode :=
    match c with
    | McSchemaWith t p => McSchemaWith t (bare_params K p)
    | McModel d dc => McModel (drop (of_descriptions K) d) (bare_dc dc)
    end
  with bare_dc (c : dcode) : dcode :=
    match c with
    | DcOneOf l => DcOneOf (map bare_rc l)
    | DcSingle n t => DcSingle n (bare_tc t)
    end
  with bare_tc (c : tcode) : tcode :=
    match c with
    | TcConst c' => TcConst (bare_const c')
    | TcArray r => TcArray (bare_rc r)
    | TcObject l => TcObject (map (fun e => match e with (k, r, b) => (k, bare_rc r, b) end) l)
    | TcDict r => TcDict (bare_rc r)
    end.
  Definition bare_td_def (t : typedef) : typedef := Build_typedef (td_ident t) (td_inline t) (bare_mc (td_body t)).

  Lemma drop_drop {A} b (x : option A) : drop b (drop b x) = drop b x.
  Proof. now destruct b. Qed.
  Lemma drop_override {A} b (x y : option A) : drop b (override (drop b x) (drop b y)) = drop b (override x y).
  Proof. now destruct b. Qed.

  Section Serialize.
    (** the values of the example expressions, which matter only if examples are kept *)
    Variable ev ev' : str -> str.
    Hypothesis evs : of_examples K = false -> forall s, ev s = ev' s.

    Lemma example_bare e : drop (of_examples K) (example_value ev' (drop (of_examples K) e)) = drop (of_examples K) (example_value ev e).
    Proof. destruct (of_examples K) eqn:He; [reflexivity|]. cbn [drop]. destruct e as [[s|s]|]; cbn; [reflexivity|now rewrite evs|reflexivity]. Qed.

    Lemma params_field_bare a : bare_params K (params_of_field ev' (bare_fa a)) = bare_params K (params_of_field ev a).
    Proof. unfold bare_params, params_of_field. cbn. now rewrite !drop_drop, example_bare. Qed.
    Lemma params_variant_bare a : bare_params K (params_of_variant ev' (bare_va a)) = bare_params K (params_of_variant ev a).
    Proof. unfold bare_params, params_of_variant. cbn. now rewrite !drop_drop, example_bare. Qed.
    Lemma params_container_bare a : bare_params K (params_of_container ev' (bare_ca a)) = bare_params K (params_of_container ev a).
    Proof. unfold bare_params, params_of_container. cbn. now rewrite !drop_drop, example_bare. Qed.
    Lemma params_or_bare p q p' q' : bare_params K p' = bare_params K p -> bare_params K q' = bare_params K q ->
      bare_params K (params_or p' q') = bare_params K (params_or p q).
    Proof.
      unfold bare_params, params_or. intros [= E1 E2 E3 E4 E5] [= F1 F2 F3 F4 F5]. cbn.
      f_equal; auto; (rewrite <- drop_override; symmetry; rewrite <- drop_override; congruence).
    Qed.

    Definition same_r (x y : option rcode) : Prop := option_map bare_rc x = option_map bare_rc y.
    Definition same_m (x y : option mcode) : Prop := option_map bare_mc x = option_map bare_mc y.
    Definition same_t (x y : option tcode) : Prop := option_map bare_tc x = option_map bare_tc y.

    Lemma newtype_model_bare n p p' t : bare_params K p' = bare_params K p -> same_m (newtype_model n p' t) (newtype_model n p t).
    Proof.
      unfold bare_params. intros [= E1 E2 E3 E4 E5]. unfold same_m, newtype_model.
      destruct t; cbn; try reflexivity; unfold bare_string, bare_simple; cbn; congruence.
    Qed.
    Lemma field_reference_bare p p' f i : bare_params K p' = bare_params K p ->
      same_r (field_model_reference p' (bare_f f) i) (field_model_reference p f i).
    Proof.
      intros Hp. unfold same_r, field_model_reference. cbn [bare_f f_attrs bare_fa fa_explicit fa_nullable f_ty].
      destruct (fa_explicit (f_attrs f)) as [t|]; [|cbn; congruence].
      pose proof (newtype_model_bare (fa_nullable (f_attrs f)) _ _ t Hp) as Hn. unfold same_m in Hn.
      destruct t; try reflexivity; destruct (newtype_model _ p' _), (newtype_model _ p _); cbn in *; congruence.
    Qed.
    Lemma try_map_same {A A' B C} (f : A -> option B) (f' : A' -> option B) (g : A -> A') (h : B -> C) :
      (forall x, option_map h (f' (g x)) = option_map h (f x)) ->
      forall l, option_map (map h) (try_map f' (map g l)) = option_map (map h) (try_map f l).
    Proof.
      intros H l. induction l as [|x l IH]; [reflexivity|]. cbn [map]. rewrite !try_map_cons. specialize (H x).
      destruct (f x) as [y|], (f' (g x)) as [y'|]; cbn in H; try discriminate; [|reflexivity].
      destruct (try_map f' (map g l)), (try_map f l); cbn in *; congruence.
    Qed.
    Lemma filter_map' {A B} (g : A -> B) p q (l : list A) : (forall x, p (g x) = q x) -> filter p (map g l) = map g (filter q l).
    Proof. intros H. induction l as [|x l IH]; [reflexivity|]. cbn. rewrite H, IH. now destruct (q x). Qed.

    Lemma tuple_bare fs inl inl' : (forall f, inl' (bare_f f) = inl f) ->
      same_t (tuple_type_description ev' (map bare_f fs) inl') (tuple_type_description ev fs inl).
    Proof.
      intros Hi. unfold same_t, tuple_type_description.
      assert (H := try_map_same (fun f => field_model_reference (params_of_field ev (f_attrs f)) f (inl f))
        (fun f => field_model_reference (params_of_field ev' (f_attrs f)) f (inl' f)) bare_f bare_rc).
      specialize (H (fun f => eq_trans (f_equal (fun i => option_map bare_rc (field_model_reference (params_of_field ev' (f_attrs (bare_f f))) (bare_f f) i)) (Hi f))
        (field_reference_bare _ _ f (inl f) (params_field_bare _))) fs).
      destruct (try_map _ (map bare_f fs)), (try_map _ fs); cbn in *; congruence.
    Qed.
    Lemma object_bare fs inl inl' : (forall f, inl' (bare_f f) = inl f) ->
      same_t (object_type_description ev' (map bare_f fs) inl') (object_type_description ev fs inl).
    Proof.
      intros Hi. unfold same_t, object_type_description.
      rewrite (filter_map' bare_f _ (fun f => negb (fa_skip (f_attrs f)))) by reflexivity.
      match goal with |- option_map _ (match try_map ?f' _ with _ => _ end) = option_map _ (match try_map ?f _ with _ => _ end) =>
        assert (H := try_map_same f f' bare_f (fun e => match e with (k, r, b) => (k, bare_rc r, b) end)) end.
      match type of H with ?P -> _ => assert (H0 : P) end.
      { intros f. rewrite Hi. pose proof (field_reference_bare _ _ f (inl f) (params_field_bare (f_attrs f))) as Hr. unfold same_r in Hr.
        cbn [bare_f f_attrs] in *. destruct (field_model_reference _ _ (inl f)), (field_model_reference _ f (inl f)); cbn in *; congruence. }
      specialize (H H0 (filter (fun f => negb (fa_skip (f_attrs f))) fs)).
      destruct (try_map _ (map bare_f _)), (try_map _ (filter _ fs)); cbn in *; try congruence.
    Qed.
    Lemma tuple_model_bare n d fs inl inl' : (forall f, inl' (bare_f f) = inl f) ->
      same_m (tuple_model ev' n (drop (of_descriptions K) d) (map bare_f fs) inl') (tuple_model ev n d fs inl).
    Proof.
      intros Hi. pose proof (tuple_bare fs _ _ Hi) as H. unfold same_m, same_t, tuple_model in *.
      destruct (tuple_type_description ev' _ _), (tuple_type_description ev _ _); cbn in *; rewrite ?drop_drop; congruence.
    Qed.
    Lemma object_model_bare n d fs inl inl' : (forall f, inl' (bare_f f) = inl f) ->
      same_m (object_model ev' n (drop (of_descriptions K) d) (map bare_f fs) inl') (object_model ev n d fs inl).
    Proof.
      intros Hi. pose proof (object_bare fs _ _ Hi) as H. unfold same_m, same_t, object_model in *.
      destruct (object_type_description ev' _ _), (object_type_description ev _ _); cbn in *; rewrite ?drop_drop; congruence.
    Qed.
    Lemma inline_bare x y : same_m x y -> same_r (inline_reference x) (inline_reference y).
    Proof. unfold same_m, same_r. destruct x, y; cbn; congruence. Qed.

    Lemma serialised_bare vs : serialised (map bare_v vs) = map bare_v (serialised vs).
    Proof. unfold serialised. now apply filter_map'. Qed.
    Lemma names_bare vs : map variant_name (map bare_v vs) = map variant_name vs.
    Proof. rewrite map_map. apply map_ext. reflexivity. Qed.
    Lemma names_model_bare d names : bare_mc (names_model (drop (of_descriptions K) d) names) = bare_mc (names_model d names).
    Proof. cbn. now rewrite drop_drop. Qed.

    Lemma newtype_variant_bare v : same_r (newtype_variant ev' (bare_v v)) (newtype_variant ev v).
    Proof.
      unfold newtype_variant. cbn [bare_v v_fields]. destruct (v_fields v) as [|f fs]; [reflexivity|]. cbn [map v_attrs bare_v bare_va va_inline].
      apply field_reference_bare, params_or_bare; [apply params_field_bare|exact (params_variant_bare (v_attrs v))].
    Qed.
    Lemma inline_in_bare v f : inline_in (bare_v v) (bare_f f) = inline_in v f.
    Proof. reflexivity. Qed.
    Lemma untagged_bare v : same_r (untagged_variant ev' (bare_v v)) (untagged_variant ev v).
    Proof.
      unfold untagged_variant. cbn [bare_v v_style v_attrs bare_va va_description v_fields].
      destruct (v_style v); try reflexivity; [|exact (newtype_variant_bare v)]. apply inline_bare, object_model_bare. reflexivity.
    Qed.
    Lemma adjacent_bare v : same_r (adjacent_variant ev' (bare_v v)) (adjacent_variant ev v).
    Proof.
      unfold adjacent_variant. cbn [bare_v v_style v_attrs bare_va va_description v_fields].
      destruct (v_style v); try reflexivity; [| |exact (newtype_variant_bare v)]; apply inline_bare, tuple_model_bare; reflexivity.
    Qed.
    Lemma external_bare v : same_r (external_variant ev' (bare_v v)) (external_variant ev v).
    Proof.
      unfold external_variant. cbn [bare_v v_style v_attrs bare_va va_description v_fields].
      destruct (v_style v).
      - apply inline_bare, object_model_bare. reflexivity.
      - apply inline_bare, tuple_model_bare. reflexivity.
      - exact (newtype_variant_bare v).
      - unfold same_r. cbn [option_map bare_rc]. do 2 f_equal. apply names_model_bare.
    Qed.
    Lemma internal_model_bare v : same_m (internal_model ev' (bare_v v)) (internal_model ev v).
    Proof.
      unfold internal_model. cbn [bare_v v_style v_attrs bare_va va_description v_fields].
      destruct (v_style v).
      - apply object_model_bare. reflexivity.
      - reflexivity.
      - destruct (v_fields v) as [|f fs]; [reflexivity|]. cbn [map]. unfold same_m. cbn [option_map bare_mc bare_f f_ty f_attrs]. do 2 f_equal.
        apply params_or_bare; [apply params_field_bare|exact (params_variant_bare (v_attrs v))].
      - exact (object_model_bare false _ [] (fun _ => false) (fun _ => false) (fun _ => eq_refl)).
    Qed.
    Lemma internal_bare c tag v : same_r (internal_variant ev' (bare_c c) tag (bare_v v)) (internal_variant ev c tag v).
    Proof.
      pose proof (internal_model_bare v) as H. unfold same_m, same_r, internal_variant in *. cbn [bare_c c_ident c_attrs bare_ca ca_nullable].
      destruct (internal_model ev' (bare_v v)), (internal_model ev v); cbn [option_map] in *; try discriminate; [|reflexivity].
      injection H as H. cbn [bare_rc]. now rewrite H.
    Qed.

    Lemma newtype_enum_bare c vs : bare_mc (serialize_newtype_enum (bare_c c) (map bare_v vs)) = bare_mc (serialize_newtype_enum c vs).
    Proof.
      unfold serialize_newtype_enum. cbn [bare_c c_attrs bare_ca ca_description ca_has_repr]. rewrite serialised_bare, names_bare.
      destruct (ca_has_repr (c_attrs c)); [|apply names_model_bare]. cbn [bare_mc bare_dc]. rewrite drop_drop. do 3 f_equal.
      generalize (serialised vs). intros l. induction l as [|v l IH]; [reflexivity|]. cbn [map flat_map]. rewrite IH. reflexivity.
    Qed.

    Lemma body_bare c : same_m (serialize_body ev' (bare_c c)) (serialize_body ev c).
    Proof.
      unfold serialize_body. cbn [bare_c c_data]. destruct (c_data c) as [vs|st fs]; cbn [bare_dt].
      - unfold serialize_enum. cbn [bare_c c_attrs bare_ca ca_model_kind ca_tag_type].
        assert (Hone : forall g g', (forall v, same_r (g' (bare_v v)) (g v)) ->
          option_map (map bare_rc) (try_map g' (serialised (map bare_v vs))) = option_map (map bare_rc) (try_map g (serialised vs))).
        { intros g g' Hg. rewrite serialised_bare. exact (try_map_same g g' bare_v bare_rc Hg _). }
        destruct (ca_model_kind (c_attrs c)).
        + unfold same_m. cbn [option_map]. f_equal. exact (newtype_enum_bare c vs).
        + destruct (ca_tag_type (c_attrs c)) as [|tag|tag content|]; try reflexivity.
          unfold same_m, serialize_adjacent_tagged_enum. pose proof (Hone _ _ adjacent_bare) as H.
          rewrite serialised_bare in *. rewrite names_bare.
          destruct (try_map (adjacent_variant ev') _), (try_map (adjacent_variant ev) _); cbn in *; try congruence.
          rewrite !drop_drop. congruence.
        + destruct (ca_tag_type (c_attrs c)) as [|tag|tag content|]; try reflexivity.
          * unfold same_m, serialize_internal_tagged_enum. pose proof (Hone _ _ (internal_bare c tag)) as H.
            cbn [bare_c c_ident c_attrs] in H.
            destruct (try_map (internal_variant ev' _ _) _), (try_map (internal_variant ev _ _) _); cbn in *; rewrite ?drop_drop; congruence.
          * unfold same_m, serialize_untagged_enum. pose proof (Hone _ _ untagged_bare) as H.
            destruct (try_map (untagged_variant ev') _), (try_map (untagged_variant ev) _); cbn in *; rewrite ?drop_drop; congruence.
        + unfold same_m, serialize_external_tagged_enum. pose proof (Hone _ _ external_bare) as H.
          destruct (try_map (external_variant ev') _), (try_map (external_variant ev) _); cbn in *; rewrite ?drop_drop; congruence.
      - destruct st.
        + pose proof (object_bare fs (fun f => fa_inline (f_attrs f)) (fun f => fa_inline (f_attrs f)) (fun _ => eq_refl)) as H.
          unfold same_m, same_t, serialize_struct in *.
          destruct (object_type_description ev' _ _), (object_type_description ev _ _); cbn in *; rewrite ?drop_drop; congruence.
        + pose proof (tuple_bare fs (fun f => fa_inline (f_attrs f)) (fun f => fa_inline (f_attrs f)) (fun _ => eq_refl)) as H.
          unfold same_m, same_t, serialize_tuple_struct in *.
          destruct (tuple_type_description ev' _ _), (tuple_type_description ev _ _); cbn in *; rewrite ?drop_drop; congruence.
        + destruct fs as [|f fs]; [reflexivity|]. cbn [map].
          assert (Hp := params_or_bare _ _ _ _ (params_field_bare (f_attrs f)) (params_container_bare (c_attrs c))).
          unfold serialize_newtype_struct. cbn [bare_c bare_f f_attrs f_ty c_attrs] in *.
          replace (ca_explicit (bare_ca (c_attrs c))) with (ca_explicit (c_attrs c)) by reflexivity.
          replace (ca_nullable (bare_ca (c_attrs c))) with (ca_nullable (c_attrs c)) by reflexivity.
          destruct (ca_explicit (c_attrs c)) as [[]|]; try (apply newtype_model_bare; exact Hp); [reflexivity|].
          unfold same_m. cbn [option_map bare_mc]. now rewrite Hp.
        + reflexivity.
    Qed.

    Lemma derive_bare pe pp uni i t : derive pe pp uni ev i = DOk t ->
      exists t', derive pe pp uni ev' (bare_input K i) = DOk t' /\ bare_td_def t' = bare_td_def t.
    Proof.
      unfold derive. destruct (container_from_ast pe pp uni i) as [[|c|] es] eqn:Ec; try discriminate; [now destruct es|].
      destruct es; [|discriminate]. rewrite (container_bare _ _ _ _ _ Ec). pose proof (body_bare c) as H. unfold same_m in H.
      destruct (serialize_body ev c) as [b|]; [|discriminate]. intros [= <-].
      destruct (serialize_body ev' (bare_c c)) as [b'|]; [|discriminate]. injection H as H.
      eexists. split; [reflexivity|]. unfold bare_td_def. cbn. now rewrite H.
    Qed.
  End Serialize.

  Lemma derive_redocumented pe pp uni ev ev' i i' t t' : (of_examples K = false -> forall s, ev s = ev' s) -> redocumented K i i' ->
    derive pe pp uni ev i = DOk t -> derive pe pp uni ev' i' = DOk t' -> bare_td_def t = bare_td_def t'.
  Proof.
    intros He Hr H H'. destruct (derive_bare ev ev' He _ _ _ _ _ H) as (t1 & H1 & <-).
    destruct (derive_bare ev' ev' (fun _ _ => eq_refl) _ _ _ _ _ H') as (t2 & H2 & <-). unfold redocumented in Hr. congruence.
  Qed.
End Docs.
