(** Inputs the derive does not distinguish. *)
From Verif Require Import Attr AttrSpec AttrFacts Ast AstFacts Derive DeriveSpec DeriveFacts DeriveFacts2 DeriveFacts3 Schema
  SchemaSpec Gen GenSpec GenFacts CaseSpec CaseFacts.
From Coq Require Import Arith Lia.

Lemma Forall2_length {X Y} (P : X -> Y -> Prop) l1 l2 : Forall2 P l1 l2 -> length l1 = length l2.
Proof. induction 1; cbn; congruence. Qed.

Lemma try_map_cons {X Y} (f : X -> option Y) x l : try_map f (x :: l) =
  match f x with None => None | Some y => match try_map f l with Some ys => Some (y :: ys) | None => None end end.
Proof. reflexivity. Qed.

Section Lift.
  Variable pe pp : str -> bool.
  Variable uni : N -> bool.
  Variable ev : str -> str.
  Variable R : position -> list attribute -> list attribute -> Prop.
  Notation derive := (derive pe pp uni ev).

  (** *** relations under which parsing does not change at all *)
  Section Equal.
    Hypothesis Heq : forall pos l1 l2, R pos l1 l2 -> parse_attrs pe pp pos l1 = parse_attrs pe pp pos l2.

    Lemma eq_fields (fs1 fs2 : list (field_syn ty)) : Forall2 (field_rel R) fs1 fs2 ->
      forall k, fields_from_ast pe pp k fs1 = fields_from_ast pe pp k fs2.
    Proof.
      induction 1 as [|f1 f2 fs1 fs2 Hf Hr IH]; intros k; auto. destruct Hf as [l1 l2 i t Hl]. cbn [fields_from_ast fs_ident fs_attrs fs_ty].
      unfold field_from_ast. now rewrite (Heq _ _ _ Hl), IH.
    Qed.
    Lemma eq_struct f1 f2 : fields_rel R f1 f2 -> struct_from_ast pe pp f1 = struct_from_ast (A := ty) pe pp f2.
    Proof.
      destruct 1 as [fs1 fs2 H|fs1 fs2 H|]; cbn; auto; rewrite (eq_fields _ _ H); auto. now rewrite (Forall2_length _ _ _ H).
    Qed.
    Lemma rel_unit f1 f2 : fields_rel R f1 f2 -> is_unit f1 = is_unit (A := ty) f2.
    Proof. now destruct 1. Qed.
    Lemma rel_discriminants vs1 vs2 : Forall2 (variant_rel (A := ty) R) vs1 vs2 ->
      consistent_discriminants vs1 = consistent_discriminants vs2.
    Proof.
      assert (Hg : forall (g : option str -> bool) vs1 vs2, Forall2 (variant_rel (A := ty) R) vs1 vs2 ->
        forallb (fun w => g (vs_discriminant w)) vs1 = forallb (fun w => g (vs_discriminant w)) vs2).
      { intros g l1 l2. induction 1 as [|v1 v2 ? ? Hv ? IH]; auto. destruct Hv. cbn. now rewrite IH. }
      destruct 1 as [|v1 v2 ? ? Hv Hr]; auto. destruct Hv. cbn.
      exact (Hg (fun o => Bool.eqb (is_some o) (is_some d)) _ _ Hr).
    Qed.
    Lemma rel_kind d1 d2 t : data_rel R d1 d2 -> decide_model_kind (A := ty) d1 t = decide_model_kind d2 t.
    Proof.
      destruct 1 as [vs1 vs2 H|f1 f2 H|]; cbn; auto.
      - enough (forallb (fun v => is_unit (vs_fields v)) vs1 = forallb (fun v => is_unit (vs_fields v)) vs2) as -> by reflexivity.
        induction H as [|v1 v2 ? ? Hv ? IH]; auto. destruct Hv as [? ? ? f1 f2 ? ? Hf]. cbn. now rewrite (rel_unit _ _ Hf), IH.
      - now destruct H.
    Qed.
    Lemma rel_shape d1 d2 : data_rel R d1 d2 -> kind_of_data (A := ty) d1 = kind_of_data d2.
    Proof. destruct 1 as [vs1 vs2 H|f1 f2 H|]; cbn; auto. now destruct H. Qed.
    Lemma eq_variants vs1 vs2 : Forall2 (variant_rel R) vs1 vs2 -> variants_from_ast pe pp vs1 = variants_from_ast (A := ty) pe pp vs2.
    Proof.
      induction 1 as [|v1 v2 ? ? Hv ? IH]; auto. destruct Hv as [l1 l2 i f1 f2 d Hl Hf].
      cbn [variants_from_ast vs_ident vs_attrs vs_fields vs_discriminant].
      unfold variant_from_ast. now rewrite (Heq _ _ _ Hl), IH, (eq_struct _ _ Hf).
    Qed.
    Lemma eq_container i1 i2 : input_rel R i1 i2 -> container_from_ast pe pp uni i1 = container_from_ast (A := ty) pe pp uni i2.
    Proof.
      destruct 1 as [l1 l2 i d1 d2 Hl Hd]. unfold container_from_ast, container_attrs_from_ast. cbn [di_attrs di_ident di_data].
      rewrite <- (rel_shape _ _ Hd). rewrite <- (kind_of_data_eq d1) in Hl. rewrite (Heq _ _ _ Hl).
      destruct (parse_attrs pe pp (PContainer (kind_of_data d1)) l2) as [s es]. destruct (at_most_one (s_types s)).
      rewrite (rel_kind _ _ _ Hd). destruct (decide_model_kind d2 _).
      destruct Hd as [vs1 vs2 H|f1 f2 H|]; auto.
      - now rewrite (rel_discriminants _ _ H), (eq_variants _ _ H).
      - now rewrite (eq_struct _ _ H).
    Qed.
    Lemma eq_derive i1 i2 : input_rel R i1 i2 -> derive i1 = derive i2.
    Proof. intros H. unfold Derive.derive. now rewrite (eq_container _ _ H). Qed.
  End Equal.

  (** *** relations under which accepted lists are parsed alike *)
  Section Accepted.
    Hypothesis Hok : forall pos l1 l2 s, R pos l1 l2 -> parse_attrs pe pp pos l1 = (s, []) -> length (s_types s) <= 1 ->
      parse_attrs pe pp pos l2 = (s, []).

    Lemma ok_parse pos l1 l2 : R pos l1 l2 -> forall s es,  parse_attrs pe pp pos l1 = (s, es) -> es ++ snd (at_most_one (s_types s)) = [] ->
      parse_attrs pe pp pos l2 = (s, es).
    Proof.
      intros HR s es H He. apply app_eq_nil in He as [-> He]. apply at_most_one_ok in He. eauto.
    Qed.
    Lemma ok_fields (fs1 fs2 : list (field_syn ty)) : Forall2 (field_rel R) fs1 fs2 ->
      forall k gs, fields_from_ast pe pp k fs1 = (gs, []) -> fields_from_ast pe pp k fs2 = (gs, []).
    Proof.
      induction 1 as [|f1 f2 fs1 fs2 Hf Hr IH]; intros k gs; auto. destruct Hf as [l1 l2 i t Hl]. cbn [fields_from_ast fs_ident fs_attrs fs_ty].
      unfold field_from_ast. destruct (parse_attrs pe pp PField l1) as [s es] eqn:E.
      pose proof (ok_parse _ _ _ Hl _ _ E) as Hp. destruct (at_most_one (s_types s)) as [t' dup] eqn:Ea.
      cbn [snd] in Hp. specialize (IH (S k)).
      destruct (fields_from_ast pe pp (S k) fs1) as [rest es'] eqn:Er.
      intros [= <- He]. apply app_eq_nil in He as [He ->]. rewrite (Hp He), Ea, (IH _ eq_refl), He. reflexivity.
    Qed.
    Lemma ok_struct f1 f2 st gs : fields_rel R f1 f2 -> struct_from_ast pe pp f1 = (st, gs, []) ->
      struct_from_ast (A := ty) pe pp f2 = (st, gs, []).
    Proof.
      destruct 1 as [fs1 fs2 H|fs1 fs2 H|]; cbn; auto; destruct (fields_from_ast pe pp 0 fs1) as [gs0 es] eqn:E; intros [= <- <- ->];
        rewrite (ok_fields _ _ H _ _ E); auto. now rewrite (Forall2_length _ _ _ H).
    Qed.
    Lemma ok_variants vs1 vs2 : Forall2 (variant_rel R) vs1 vs2 -> forall ws, variants_from_ast pe pp vs1 = (ws, []) ->
      variants_from_ast (A := ty) pe pp vs2 = (ws, []).
    Proof.
      induction 1 as [|v1 v2 ? ? Hv ? IH]; intros ws; auto. destruct Hv as [l1 l2 i f1 f2 d Hl Hf].
      cbn [variants_from_ast vs_ident vs_attrs vs_fields vs_discriminant].
      unfold variant_from_ast. destruct (parse_attrs pe pp PVariant l1) as [s es] eqn:E.
      pose proof (ok_parse _ _ _ Hl _ _ E) as Hp. destruct (at_most_one (s_types s)) as [t' dup] eqn:Ea. cbn [snd] in Hp.
      destruct (struct_from_ast pe pp f1) as [[st gs] es1] eqn:Es. destruct (variants_from_ast pe pp l) as [rest es'] eqn:Er.
      intros [= <- He]. apply app_eq_nil in He as [He He2]. apply app_eq_nil in He2 as [-> ->].
      now rewrite (Hp He), Ea, (ok_struct _ _ _ _ Hf Es), (IH _ eq_refl), He.
    Qed.
    Lemma ok_container i1 i2 c : input_rel R i1 i2 -> container_from_ast pe pp uni i1 = (FaSome c, []) ->
      container_from_ast (A := ty) pe pp uni i2 = (FaSome c, []).
    Proof.
      destruct 1 as [l1 l2 i d1 d2 Hl Hd]. unfold container_from_ast, container_attrs_from_ast. cbn [di_attrs di_ident di_data].
      rewrite <- (rel_shape _ _ Hd). rewrite <- (kind_of_data_eq d1) in Hl.
      destruct (parse_attrs pe pp (PContainer (kind_of_data d1)) l1) as [s es] eqn:E.
      pose proof (ok_parse _ _ _ Hl _ _ E) as Hp. destruct (at_most_one (s_types s)) as [t dup] eqn:Ea. cbn [snd] in Hp.
      intros H. assert (Hes : es ++ dup = []).
      { destruct (decide_model_kind d1 _) as [mk bad]. revert H.
        match goal with |- (let (_, _) := ?X in _) = _ -> _ => destruct X as [[d|] es0] end; [|discriminate].
        destruct (rename_data _ _ d); [|discriminate]. intros [= _ He].
        rewrite app_assoc in He. apply app_eq_nil in He as [He _]. now apply app_eq_nil in He as [He _]. }
      rewrite (Hp Hes), Ea. rewrite <- (rel_kind _ _ _ Hd). destruct (decide_model_kind d1 _) as [mk bad]. revert H.
      destruct Hd as [vs1 vs2 H|f1 f2 H|]; auto.
      - rewrite <- (rel_discriminants _ _ H). destruct (consistent_discriminants vs1); [|discriminate].
        destruct (variants_from_ast pe pp vs1) as [ws es'] eqn:Ev. intros H0.
        assert (es' = []) as ->.
        { destruct (rename_data _ _ _); [|discriminate]. injection H0 as _ He. now apply app_eq_nil in He as [_ ->]. }
        now rewrite (ok_variants _ _ H _ Ev).
      - destruct (struct_from_ast pe pp f1) as [[st gs] es'] eqn:Ev. intros H0.
        assert (es' = []) as ->.
        { destruct (rename_data _ _ _); [|discriminate]. injection H0 as _ He. now apply app_eq_nil in He as [_ ->]. }
        now rewrite (ok_struct _ _ _ _ H Ev).
    Qed.
    Lemma ok_derive i1 i2 td : input_rel R i1 i2 -> derive i1 = DOk td -> derive i2 = DOk td.
    Proof.
      intros H. unfold Derive.derive. destruct (container_from_ast pe pp uni i1) as [[|c|] [|e es]] eqn:E; try discriminate.
      now rewrite (ok_container _ _ _ H E).
    Qed.
  End Accepted.
End Lift.

Section Differ.
  Variable pe pp : str -> bool.
  Variable uni : N -> bool.
  Variable ev : str -> str.
  Notation said := (said pe pp).
  Notation derive := (derive pe pp uni ev).
  Variable drop retype : Prop.

  (** parsed fields that differ likewise *)
  Inductive fdiff (droppable : Prop) : list (field ty) -> list (field ty) -> Prop :=
  | fdf_nil : fdiff droppable [] []
  | fdf_keep a t1 t2 gs1 gs2 : t1 = t2 \/ fa_explicit a <> None -> fdiff droppable gs1 gs2 ->
      fdiff droppable (Build_field a t1 :: gs1) (Build_field a t2 :: gs2)
  | fdf_drop g gs1 gs2 : droppable -> fa_skip (f_attrs g) = true -> fdiff droppable gs1 gs2 -> fdiff droppable (g :: gs1) gs2.

  Lemma fdiff_refl (D : Prop) gs : fdiff D gs gs.
  Proof. induction gs as [|[a t] gs IH]; constructor; auto. Qed.

  Lemma field_explicit src l a : field_from_ast pe pp src l = (a, []) -> forall x, said PField l (SType x) -> fa_explicit a <> None.
  Proof.
    intros H x Hx. destruct (field_say _ _ _ _ _ H) as (s & Hs & _ & _ & _ & _ & _ & _ & _ & _ & _ & _ & ->).
    apply (ss_types _ _ _ _ _ Hs) in Hx. congruence.
  Qed.
  Lemma field_skip src l a : field_from_ast pe pp src l = (a, []) -> said PField l SSkip -> fa_skip a = true.
  Proof.
    intros H Hx. destruct (field_say _ _ _ _ _ H) as (s & Hs & _ & _ & -> & _). now apply (ss_skip _ _ _ _ _ Hs).
  Qed.
  Lemma variant_skip src l a : variant_from_ast pe pp src l = (a, []) -> said PVariant l SSkip -> va_skip a = true.
  Proof.
    intros H Hx. destruct (variant_say _ _ _ _ _ H) as (s & Hs & _ & _ & -> & _). now apply (ss_skip _ _ _ _ _ Hs).
  Qed.

  Notation fields_differ := (fields_differ pe pp drop retype).
  Notation payload_differs := (payload_differs pe pp drop retype).
  Notation variants_differ := (variants_differ pe pp drop retype).
  Notation inputs_differ := (inputs_differ pe pp drop retype).

  Lemma fields_diff D fs1 fs2 : fields_differ D fs1 fs2 -> forall k1 k2 gs1,
    (k1 = k2 /\ ~ D) \/ Forall (fun f => fs_ident f <> None) fs1 ->
    fields_from_ast pe pp k1 fs1 = (gs1, []) ->
    exists gs2, fields_from_ast pe pp k2 fs2 = (gs2, []) /\ fdiff D gs1 gs2.
  Proof.
    assert (Hsrc : forall (f : field_syn ty) fs k1 k2, (k1 = k2 /\ ~ D) \/ Forall (fun f => fs_ident f <> None) (f :: fs) ->
      match fs_ident f with Some i => unraw i | None => nat_to_string k1 end =
      match fs_ident f with Some i => unraw i | None => nat_to_string k2 end).
    { intros f fs k1 k2 [[-> _]|Hi]; auto. inversion Hi. destruct (fs_ident f); congruence. }
    assert (Hnext : forall (f : field_syn ty) fs k1 k2, (k1 = k2 /\ ~ D) \/ Forall (fun f => fs_ident f <> None) (f :: fs) ->
      (S k1 = S k2 /\ ~ D) \/ Forall (fun f => fs_ident f <> None) fs).
    { intros f fs k1 k2 [[-> Hn]|Hi]; auto. inversion Hi. auto. }
    induction 1 as [|f fs1 fs2 Hd IH|f fs1 fs2 Hdrop HD Hskip Hd IH|l i t1 t2 x fs1 fs2 Hrt Hx Hd IH]; intros k1 k2 gs1 Hk; cbn [fields_from_ast].
    - intros [= <-]. exists []. split; auto. constructor.
    - rewrite <- (Hsrc _ _ _ _ Hk). destruct (field_from_ast _ _ _ _) as [a es] eqn:Ef.
      destruct (fields_from_ast pe pp (S k1) fs1) as [rest es'] eqn:Er. intros [= <- He]. apply app_eq_nil in He as [-> ->].
      destruct (IH (S k1) (S k2) _ (Hnext _ _ _ _ Hk) Er) as (gs2 & -> & Hg). eexists. split; [reflexivity|]. constructor; auto.
    - destruct (field_from_ast _ _ _ _) as [a es] eqn:Ef.
      destruct (fields_from_ast pe pp (S k1) fs1) as [rest es'] eqn:Er. intros [= <- He]. apply app_eq_nil in He as [-> ->].
      assert (Hk' : (S k1 = k2 /\ ~ D) \/ Forall (fun f => fs_ident f <> None) fs1).
      { destruct Hk as [[_ Hn]|Hi]; [contradiction|]. inversion Hi. auto. }
      destruct (IH (S k1) k2 _ Hk' Er) as (gs2 & -> & Hg). eexists. split; [reflexivity|]. constructor; auto.
      cbn. eapply field_skip; eauto.
    - pose proof (Hsrc _ _ _ _ Hk) as Hs. cbn [fs_ident fs_attrs fs_ty] in *. rewrite <- Hs. destruct (field_from_ast _ _ _ _) as [a es] eqn:Ef.
      destruct (fields_from_ast pe pp (S k1) fs1) as [rest es'] eqn:Er. intros [= <- He]. apply app_eq_nil in He as [-> ->].
      destruct (IH (S k1) (S k2) _ (Hnext _ _ _ _ Hk) Er) as (gs2 & -> & Hg). eexists. split; [reflexivity|]. constructor; auto.
      right. eapply field_explicit; eauto.
  Qed.

  Lemma rename_diff D r gs1 gs2 : fdiff D gs1 gs2 -> forall hs1, try_map (rename_field r) gs1 = Some hs1 ->
    exists hs2, try_map (rename_field r) gs2 = Some hs2 /\ fdiff D hs1 hs2.
  Proof.
    induction 1 as [|a t1 t2 gs1 gs2 Ht Hd IH|g gs1 gs2 HD Hs Hd IH]; cbn [try_map]; intros hs1.
    - intros [= <-]. exists []. split; auto. constructor.
    - fold (try_map (rename_field (A := ty) r)). unfold rename_field at 1 3. cbn [f_attrs f_ty].
      destruct (rename_as_field r (fa_name a)); [|discriminate].
      destruct (try_map (rename_field r) gs1) as [hs|]; [|discriminate]. intros [= <-].
      destruct (IH _ eq_refl) as (hs2 & -> & Hh). eexists. split; [reflexivity|]. constructor; auto.
    - fold (try_map (rename_field (A := ty) r)). unfold rename_field at 1.
      destruct (rename_as_field r (fa_name (f_attrs g))); [|discriminate].
      destruct (try_map (rename_field r) gs1) as [hs|]; [|discriminate]. intros [= <-].
      destruct (IH _ eq_refl) as (hs2 & -> & Hh). eexists. split; [reflexivity|]. constructor; auto.
  Qed.

  Lemma ref_diff a t1 t2 p b : t1 = t2 \/ fa_explicit a <> None ->
    field_model_reference p (Build_field a t1) b = field_model_reference p (Build_field a t2) b.
  Proof.
    intros H. unfold field_model_reference. cbn. destruct (fa_explicit a) as [[]|]; auto. destruct H as [->|]; congruence.
  Qed.

  Lemma object_diff D gs1 gs2 inl1 inl2 : fdiff D gs1 gs2 ->
    (forall g1 g2, f_attrs g1 = f_attrs g2 -> inl1 g1 = inl2 g2) ->
    object_type_description ev gs1 inl1 = object_type_description ev gs2 inl2.
  Proof.
    intros H Hi. unfold object_type_description.
    match goal with |- match ?X with _ => _ end = match ?Y with _ => _ end => enough (X = Y) as -> by reflexivity end.
    induction H as [|a t1 t2 gs1 gs2 Ht Hd IH|g gs1 gs2 HD Hs Hd IH]; auto.
    - cbn [filter f_attrs]. destruct (fa_skip a); cbn [negb]; auto. rewrite !try_map_cons. cbn [f_attrs].
      now rewrite (ref_diff _ _ _ _ _ Ht), (Hi (Build_field a t1) (Build_field a t2) eq_refl), IH.
    - cbn [filter]. rewrite Hs. cbn [negb]. auto.
  Qed.

  Lemma tuple_diff gs1 gs2 inl1 inl2 : fdiff False gs1 gs2 ->
    (forall g1 g2, f_attrs g1 = f_attrs g2 -> inl1 g1 = inl2 g2) ->
    tuple_type_description ev gs1 inl1 = tuple_type_description ev gs2 inl2.
  Proof.
    intros H Hi. unfold tuple_type_description.
    match goal with |- match ?X with _ => _ end = match ?Y with _ => _ end => enough (X = Y) as -> by reflexivity end.
    induction H as [|a t1 t2 gs1 gs2 Ht Hd IH|g gs1 gs2 HD Hs Hd IH]; auto; [|destruct HD].
    rewrite !try_map_cons. cbn [f_attrs]. now rewrite (ref_diff _ _ _ _ _ Ht), (Hi (Build_field a t1) (Build_field a t2) eq_refl), IH.
  Qed.

  (** parsed payloads *)
  Definition pdiff (D direct : Prop) (st : struct_style) (gs1 gs2 : list (field ty)) : Prop :=
    fdiff (D /\ st = StStruct) gs1 gs2 /\ (st = StNewType -> direct -> gs1 = gs2).

  Lemma fields_differ_length fs1 fs2 : fields_differ False fs1 fs2 -> length fs1 = length fs2.
  Proof. induction 1; cbn; try congruence. contradiction. Qed.
  Lemma fdiff_weaken (D1 D2 : Prop) gs1 gs2 : (D1 -> D2) -> fdiff D1 gs1 gs2 -> fdiff D2 gs1 gs2.
  Proof. intros H. induction 1; constructor; auto. Qed.

  Lemma payload_diff D direct f1 f2 st gs1 : payload_differs D direct f1 f2 -> struct_from_ast pe pp f1 = (st, gs1, []) ->
    exists gs2, struct_from_ast pe pp f2 = (st, gs2, []) /\ pdiff D direct st gs1 gs2.
  Proof.
    destruct 1 as [fs1 fs2 Hi H|fs1 fs2 Hl H|f].
    - cbn. destruct (fields_from_ast pe pp 0 fs1) as [g es] eqn:E. intros [= <- <- ->].
      destruct (fields_diff _ _ _ H 0 0 _ (or_intror Hi) E) as (gs2 & -> & Hg). eexists. split; [reflexivity|].
      split; [|discriminate]. eapply fdiff_weaken; [|exact Hg]. auto.
    - cbn. destruct (fields_from_ast pe pp 0 fs1) as [g es] eqn:E. intros [= Hst <- ->].
      destruct (fields_diff _ _ _ H 0 0 _ (or_introl (conj eq_refl (fun x => x))) E) as (gs2 & -> & Hg). rewrite <- (fields_differ_length _ _ H), Hst.
      eexists. split; [reflexivity|]. split.
      + eapply fdiff_weaken; [|eauto]. tauto.
      + intros -> Hdir. destruct Hl as [Hl|Hl]; [|contradiction]. destruct (Nat.eqb_spec (length fs1) 1); congruence.
    - intros ->. eexists. split; [reflexivity|]. split; auto. apply fdiff_refl.
  Qed.

  Lemma pdiff_rename D direct st r gs1 gs2 : pdiff D direct st gs1 gs2 -> forall hs1, try_map (rename_field r) gs1 = Some hs1 ->
    exists hs2, try_map (rename_field r) gs2 = Some hs2 /\ pdiff D direct st hs1 hs2.
  Proof.
    intros [Hf He] hs1 H. destruct (rename_diff _ r _ _ Hf _ H) as (hs2 & H2 & Hh). exists hs2. split; auto. split; auto.
    intros Hs Hd. rewrite (He Hs Hd) in H. congruence.
  Qed.

  (** parsed variants *)
  Inductive vdiff (D direct : Prop) : list (variant ty) -> list (variant ty) -> Prop :=
  | vdf_nil : vdiff D direct [] []
  | vdf_keep i a st d gs1 gs2 ws1 ws2 : pdiff D direct st gs1 gs2 -> vdiff D direct ws1 ws2 ->
      vdiff D direct (Build_variant i a st gs1 d :: ws1) (Build_variant i a st gs2 d :: ws2)
  | vdf_drop w ws1 ws2 : va_skip (v_attrs w) = true -> vdiff D direct ws1 ws2 -> vdiff D direct (w :: ws1) ws2.

  Lemma variants_diff D direct vs1 vs2 : variants_differ D direct vs1 vs2 -> forall ws1, variants_from_ast pe pp vs1 = (ws1, []) ->
    exists ws2, variants_from_ast pe pp vs2 = (ws2, []) /\ vdiff D direct ws1 ws2.
  Proof.
    induction 1 as [|l i f1 f2 d vs1 vs2 Hp Hv IH|v vs1 vs2 Hd Hs Hv IH]; intros ws1; cbn [variants_from_ast vs_ident vs_attrs vs_fields vs_discriminant].
    - intros [= <-]. exists []. split; auto. constructor.
    - destruct (variant_from_ast pe pp i l) as [a es]. destruct (struct_from_ast pe pp f1) as [[st gs1] es1] eqn:Es.
      destruct (variants_from_ast pe pp vs1) as [rest es2]. intros [= <- He]. apply app_eq_nil in He as [-> He]. apply app_eq_nil in He as [-> ->].
      destruct (payload_diff _ _ _ _ _ _ Hp Es) as (gs2 & -> & Hg). destruct (IH _ eq_refl) as (ws2 & -> & Hw).
      eexists. split; [reflexivity|]. constructor; auto.
    - destruct (variant_from_ast pe pp (vs_ident v) (vs_attrs v)) as [a es] eqn:Ea. destruct (struct_from_ast pe pp (vs_fields v)) as [[st gs1] es1] eqn:Es.
      destruct (variants_from_ast pe pp vs1) as [rest es2]. intros [= <- He]. apply app_eq_nil in He as [-> He]. apply app_eq_nil in He as [-> ->].
      destruct (IH _ eq_refl) as (ws2 & -> & Hw). eexists. split; [reflexivity|]. constructor; auto. cbn. eapply variant_skip; eauto.
  Qed.

  Lemma vdiff_rename D direct r ws1 ws2 : vdiff D direct ws1 ws2 -> forall xs1, try_map (rename_variant uni r) ws1 = Some xs1 ->
    exists xs2, try_map (rename_variant uni r) ws2 = Some xs2 /\ vdiff D direct xs1 xs2.
  Proof.
    induction 1 as [|i a st d gs1 gs2 ws1 ws2 Hp Hv IH|w ws1 ws2 Hs Hv IH]; cbn [try_map]; intros xs1.
    - intros [= <-]. exists []. split; auto. constructor.
    - fold (try_map (rename_variant (A := ty) uni r)). unfold rename_variant at 1 3. cbn [v_attrs v_fields v_ident v_style v_discriminant].
      destruct (rename_as_variant uni r (va_name a)); [|discriminate].
      destruct (try_map (rename_field (va_rename_rule a)) gs1) as [hs|] eqn:Eh; [|discriminate].
      destruct (try_map (rename_variant uni r) ws1) as [ys|]; [|discriminate]. intros [= <-].
      destruct (pdiff_rename _ _ _ _ _ _ Hp _ Eh) as (hs2 & -> & Hh). destruct (IH _ eq_refl) as (xs2 & -> & Hx).
      eexists. split; [reflexivity|]. constructor; auto.
    - fold (try_map (rename_variant (A := ty) uni r)). unfold rename_variant at 1.
      destruct (rename_as_variant uni r (va_name (v_attrs w))); [|discriminate].
      destruct (try_map (rename_field (va_rename_rule (v_attrs w))) (v_fields w)) as [hs|] eqn:Eh; [|discriminate].
      destruct (try_map (rename_variant uni r) ws1) as [ys|]; [|discriminate]. intros [= <-].
      destruct (IH _ eq_refl) as (xs2 & -> & Hx). eexists. split; [reflexivity|]. constructor; auto.
  Qed.

  Lemma serialised_diff D direct ws1 ws2 : vdiff D direct ws1 ws2 ->
    Forall2 (fun w1 w2 => v_attrs w1 = v_attrs w2 /\ v_style w1 = v_style w2 /\ v_discriminant w1 = v_discriminant w2 /\
                          pdiff D direct (v_style w1) (v_fields w1) (v_fields w2)) (serialised ws1) (serialised ws2).
  Proof.
    unfold serialised. induction 1 as [|i a st d gs1 gs2 ws1 ws2 Hp Hv IH|w ws1 ws2 Hs Hv IH]; cbn [filter].
    - constructor.
    - cbn [v_attrs]. destruct (va_skip a); cbn; auto.
    - now rewrite Hs.
  Qed.

  Lemma try_map_ext {X Y} (f1 f2 : X -> option Y) (P : X -> X -> Prop) l1 l2 : Forall2 P l1 l2 ->
    (forall x y, P x y -> f1 x = f2 y) -> try_map f1 l1 = try_map f2 l2.
  Proof. intros H Hf. induction H as [|x y l1 l2 Hxy Hr IH]; auto. now rewrite !try_map_cons, (Hf _ _ Hxy), IH. Qed.

  Lemma newtype_diff D direct (w1 w2 : variant ty) : v_attrs w1 = v_attrs w2 -> v_style w1 = StNewType ->
    pdiff D direct (v_style w1) (v_fields w1) (v_fields w2) -> newtype_variant ev w1 = newtype_variant ev w2.
  Proof.
    intros Ha Hs [Hf _]. unfold newtype_variant. rewrite Hs, Ha in *. destruct Hf as [|a t1 t2 gs1 gs2 Ht Hf|g gs1 gs2 [_ Hn]]; auto; [|discriminate].
    cbn [f_attrs]. now apply ref_diff.
  Qed.
  Lemma pdiff_object D direct (w1 w2 : variant ty) b d : v_attrs w1 = v_attrs w2 ->
    pdiff D direct (v_style w1) (v_fields w1) (v_fields w2) ->
    object_model ev b d (v_fields w1) (inline_in w1) = object_model ev b d (v_fields w2) (inline_in w2).
  Proof.
    intros Ha [Hf _]. unfold object_model. rewrite (object_diff _ _ _ (inline_in w1) (inline_in w2) Hf); auto.
    unfold inline_in. intros g1 g2 Hg. now rewrite Ha, Hg.
  Qed.
  Lemma pdiff_tuple D direct (w1 w2 : variant ty) b d : v_attrs w1 = v_attrs w2 -> ~ D \/ v_style w1 <> StStruct ->
    pdiff D direct (v_style w1) (v_fields w1) (v_fields w2) ->
    tuple_model ev b d (v_fields w1) (inline_in w1) = tuple_model ev b d (v_fields w2) (inline_in w2).
  Proof.
    intros Ha Hn [Hf _]. unfold tuple_model. rewrite (tuple_diff (v_fields w1) (v_fields w2) (inline_in w1) (inline_in w2)); auto.
    - eapply fdiff_weaken; [|eauto]. tauto.
    - unfold inline_in. intros g1 g2 Hg. now rewrite Ha, Hg.
  Qed.

  Lemma enum_diff D direct c1 c2 ws1 ws2 : vdiff D direct ws1 ws2 ->
    (forall t c, ca_tag_type (c_attrs c1) = TagAdjacent t c -> ~ D) ->
    (forall t, ca_tag_type (c_attrs c1) = TagInternal t -> direct) ->
    c_ident c1 = c_ident c2 -> ca_model_kind (c_attrs c1) = ca_model_kind (c_attrs c2) ->
    ca_tag_type (c_attrs c1) = ca_tag_type (c_attrs c2) -> ca_description (c_attrs c1) = ca_description (c_attrs c2) ->
    ca_nullable (c_attrs c1) = ca_nullable (c_attrs c2) -> ca_has_repr (c_attrs c1) = ca_has_repr (c_attrs c2) ->
    serialize_enum ev c1 ws1 = serialize_enum ev c2 ws2.
  Proof.
    intros Hv HD Hdir Hid Hk Ht Hde Hnu Hre. apply serialised_diff in Hv. unfold serialize_enum.
    assert (Hnames : map variant_name (serialised ws1) = map variant_name (serialised ws2)).
    { clear -Hv. induction Hv as [|w1 w2 ? ? (Ha & _) Hr IH]; auto. cbn [map]. rewrite IH. unfold variant_name at 1 3. now rewrite Ha. }
    rewrite <- Hk, <- Ht. destruct (ca_model_kind (c_attrs c1)); auto.
    - unfold serialize_newtype_enum. rewrite <- Hre, <- Hde, <- Hnames.
      destruct (ca_has_repr (c_attrs c1)); auto. do 3 f_equal.
      clear -Hv. induction Hv as [|w1 w2 ? ? (Ha & _ & Hd & _) Hr IH]; auto. cbn [flat_map].
      assert (variant_name w1 = variant_name w2) as -> by (unfold variant_name; now rewrite Ha). now rewrite IH, Hd.
    - destruct (ca_tag_type (c_attrs c1)) as [|t|t c|] eqn:Et; auto. unfold serialize_adjacent_tagged_enum.
      rewrite (try_map_ext (adjacent_variant ev) (adjacent_variant ev) _ _ _ Hv).
      + now rewrite Hde, Hid, Hnames, Hnu.
      + intros w1 w2 (Ha & Hs & _ & Hp). unfold adjacent_variant. rewrite <- Hs, <- Ha.
        pose proof (HD _ _ eq_refl) as HnD. destruct (v_style w1) eqn:Es; auto; rewrite <- Es in Hp.
        * erewrite pdiff_tuple; eauto.
        * erewrite pdiff_tuple; eauto.
        * eapply newtype_diff; eauto.
    - destruct (ca_tag_type (c_attrs c1)) as [|t|t c|] eqn:Et; auto.
      + unfold serialize_internal_tagged_enum. rewrite (try_map_ext (internal_variant ev c1 t) (internal_variant ev c2 t) _ _ _ Hv).
        * now rewrite Hde.
        * intros w1 w2 (Ha & Hs & _ & Hp). unfold internal_variant, internal_model, variant_name. rewrite <- Hs, <- Ha, <- Hid, <- Hnu.
          destruct (v_style w1) eqn:Es; auto.
          -- rewrite <- Es in Hp. erewrite pdiff_object; eauto.
          -- destruct Hp as [_ Hp]. rewrite (Hp eq_refl (Hdir _ eq_refl)). reflexivity.
      + unfold serialize_untagged_enum. rewrite (try_map_ext (untagged_variant ev) (untagged_variant ev) _ _ _ Hv).
        * now rewrite Hde.
        * intros w1 w2 (Ha & Hs & _ & Hp). unfold untagged_variant. rewrite <- Hs, <- Ha.
          destruct (v_style w1) eqn:Es; auto; rewrite <- Es in Hp.
          -- erewrite pdiff_object; eauto.
          -- eapply newtype_diff; eauto.
    - unfold serialize_external_tagged_enum. rewrite (try_map_ext (external_variant ev) (external_variant ev) _ _ _ Hv).
      + now rewrite Hde, Hnu.
      + intros w1 w2 (Ha & Hs & _ & Hp). unfold external_variant, variant_name. rewrite <- Hs, <- Ha.
        destruct (v_style w1) eqn:Es; auto; rewrite <- Es in Hp.
        * erewrite pdiff_object; eauto.
        * assert (Hn : v_style w1 <> StStruct) by congruence.
          now rewrite (pdiff_tuple _ _ w1 w2 false (va_description (v_attrs w1)) Ha (or_intror Hn) Hp).
        * eapply newtype_diff; eauto.
  Qed.

  (** *** From inputs to containers *)

  Lemma payload_unit D direct f1 f2 : payload_differs D direct f1 f2 -> (f1 = FUnit <-> f2 = FUnit).
  Proof. destruct 1; split; congruence. Qed.
  Lemma variants_In D direct vs1 vs2 v2 : variants_differ D direct vs1 vs2 -> In v2 vs2 ->
    exists v1, In v1 vs1 /\ vs_discriminant v1 = vs_discriminant v2 /\ (unit_variant v1 <-> unit_variant v2).
  Proof.
    induction 1 as [|l i f1 f2 d vs1 vs2 Hp Hv IH|v vs1 vs2 Hd Hs Hv IH]; cbn; [tauto| |].
    - intros [<-|Hin].
      + eexists. split; [left; reflexivity|]. split; auto. unfold unit_variant. cbn. eapply payload_unit; eauto.
      + destruct (IH Hin) as (v1 & H1 & H2). eauto.
    - intros Hin. destruct (IH Hin) as (v1 & H1 & H2). eauto.
  Qed.
  Lemma variants_units D direct vs1 vs2 : variants_differ D direct vs1 vs2 ->
    (forall v, In v vs1 -> unit_variant v) \/ (exists v, In v vs2 /\ ~ unit_variant v) ->
    forallb (fun v => is_unit (vs_fields v)) vs1 = forallb (fun v => is_unit (vs_fields v)) vs2.
  Proof.
    intros Hv H. pose proof (all_units_iff vs1) as H1. pose proof (all_units_iff vs2) as H2.
    assert (Hsub : all_units vs1 -> all_units vs2).
    { intros Ha v2 Hin. destruct (variants_In _ _ _ _ _ Hv Hin) as (v1 & Hin1 & _ & Hu). now apply Hu, Ha. }
    destruct (forallb (fun v => is_unit (vs_fields v)) vs1).
    - symmetry. apply H2, Hsub. now apply H1.
    - destruct (forallb (fun v => is_unit (vs_fields v)) vs2); auto. destruct H as [H|(v & Hin & Hn)].
      + enough (false = true) by congruence. now apply H1.
      + destruct Hn. now apply (proj1 H2 eq_refl).
  Qed.
  Lemma variants_consistent D direct vs1 vs2 : variants_differ D direct vs1 vs2 -> consistent_discriminants vs1 = true ->
    consistent_discriminants vs2 = true.
  Proof.
    intros Hv H. destruct (consistent_discriminants vs2) eqn:E; auto. apply mixed_iff in E as (v & w & d & Hi & Hw & Hd & Hn).
    destruct (variants_In _ _ _ _ _ Hv Hi) as (v1 & Hi1 & Hd1 & _). destruct (variants_In _ _ _ _ _ Hv Hw) as (w1 & Hw1 & Hn1 & _).
    enough (consistent_discriminants vs1 = false) by congruence. apply mixed_iff. exists v1, w1, d. repeat split; auto; congruence.
  Qed.

  Lemma differ_derive i1 i2 td : inputs_differ i1 i2 -> derive i1 = DOk td -> derive i2 = DOk td.
  Proof.
    intros Hi H. unfold Derive.derive in *. destruct (container_from_ast pe pp uni i1) as [[|c1|] [|e es]] eqn:E1; try discriminate.
    destruct (serialize_body ev c1) as [b|] eqn:Eb; [|discriminate]. injection H as <-.
    enough (exists c2, container_from_ast pe pp uni i2 = (FaSome c2, []) /\ c_ident c2 = c_ident c1 /\
              ca_inline (c_attrs c2) = ca_inline (c_attrs c1) /\ serialize_body ev c2 = serialize_body ev c1) as (c2 & -> & H1 & H2 & H3).
    { now rewrite H3, Eb, H1, H2. }
    clear Eb b. destruct Hi as [l i f1 f2 Hp|l i lf n t1 t2 x Hrt Hx|l i vs1 vs2 rep Hrep Hv Hu].
    - assert (Hpos : kind_of_data (DaStruct f1) = kind_of_data (DaStruct f2)) by now destruct Hp.
      assert (Hmk : forall t, decide_model_kind (DaStruct f1) t = decide_model_kind (DaStruct f2) t) by now destruct Hp.
      unfold container_from_ast, container_attrs_from_ast in *. cbn [di_attrs di_ident di_data] in *. rewrite <- Hpos.
      destruct (parse_attrs pe pp _ l) as [s es0]. destruct (at_most_one (s_types s)) as [t dup]. rewrite <- Hmk.
      destruct (decide_model_kind (DaStruct f1) _) as [mk bad].
      destruct (struct_from_ast pe pp f1) as [[st gs1] es1] eqn:Es. unfold rename_data in *. cbn [ca_rename_rule] in *.
      destruct (try_map (rename_field (rule_or_none (s_rename_all s))) gs1) as [hs1|] eqn:Eh; [|discriminate].
      injection E1 as <- He. apply app_eq_nil in He as [He ->].
      destruct (payload_diff _ _ _ _ _ _ Hp Es) as (gs2 & -> & Hg). destruct (pdiff_rename _ _ _ _ _ _ Hg _ Eh) as (hs2 & -> & Hh).
      eexists. split; [rewrite He; reflexivity|]. split; [reflexivity|]. split; [reflexivity|].
      unfold serialize_body. cbn [c_data]. destruct st; auto.
      + unfold serialize_struct. cbn [c_attrs ca_description ca_nullable]. destruct Hh as [Hf _]. symmetry.
        rewrite (object_diff _ _ _ _ (fun f => fa_inline (f_attrs f)) Hf); auto. intros g1 g2 ->. reflexivity.
      + unfold serialize_tuple_struct. cbn [c_attrs ca_description ca_nullable]. destruct Hh as [Hf _]. symmetry.
        assert (Hf' : fdiff False hs1 hs2) by (eapply fdiff_weaken; [|exact Hf]; intros [_ ?]; discriminate).
        rewrite (tuple_diff _ _ _ (fun f => fa_inline (f_attrs f)) Hf'); auto.
        intros g1 g2 ->. reflexivity.
      + destruct Hh as [_ Hq]. now rewrite (Hq eq_refl I).
    - pose proof (from_ast_parsed _ _ _ _ _ E1) as [Hc _]. pose proof (cp_explicit _ _ _ _ _ Hc) as Hex. cbn [di_data shape di_attrs] in Hex.
      apply Hex in Hx. clear Hex Hc.
      unfold container_from_ast, container_attrs_from_ast in *. cbn [di_attrs di_ident di_data kind_of_data] in *.
      destruct (parse_attrs pe pp _ l) as [s es0]. destruct (at_most_one (s_types s)) as [t dup]. cbn [decide_model_kind] in *.
      cbn [struct_from_ast fields_from_ast fs_ident fs_attrs fs_ty] in *.
      destruct (field_from_ast _ _ _ lf) as [a es1]. cbn [rename_data try_map length Nat.eqb] in *. unfold rename_field in *. cbn [f_attrs f_ty] in *.
      destruct (rename_as_field _ (fa_name a)) as [nm|]; [|discriminate]. injection E1 as <- He.
      eexists. split; [rewrite He; reflexivity|]. split; [reflexivity|]. split; [reflexivity|].
      cbn [c_attrs ca_explicit] in Hx. unfold serialize_body, serialize_newtype_struct. cbn [c_data c_attrs ca_explicit f_attrs f_ty]. rewrite Hx. reflexivity.
    - pose proof (from_ast_parsed _ _ _ _ _ E1) as [Hc _]. pose proof (proj1 (cp_tag _ _ _ _ _ Hc vs1 rep eq_refl) Hrep) as Hrep'. clear Hc.
      unfold container_from_ast, container_attrs_from_ast in *. cbn [di_attrs di_ident di_data kind_of_data] in *.
      assert (Hmk : forall t, decide_model_kind (DaEnum vs1) t = decide_model_kind (DaEnum vs2) t).
      { intros t. cbn. now rewrite (variants_units _ _ _ _ Hv Hu). }
      destruct (parse_attrs pe pp _ l) as [s es0]. destruct (at_most_one (s_types s)) as [t dup]. rewrite <- Hmk.
      destruct (decide_model_kind (DaEnum vs1) _) as [mk bad].
      destruct (consistent_discriminants vs1) eqn:Ec; [|discriminate]. rewrite (variants_consistent _ _ _ _ Hv Ec).
      destruct (variants_from_ast pe pp vs1) as [ws1 es1] eqn:Es. unfold rename_data in *. cbn [ca_rename_rule] in *.
      destruct (try_map (rename_variant uni (rule_or_none (s_rename_all s))) ws1) as [xs1|] eqn:Eh; [|discriminate].
      injection E1 as <- He. apply app_eq_nil in He as [He ->].
      destruct (variants_diff _ _ _ _ Hv _ Es) as (ws2 & -> & Hw). destruct (vdiff_rename _ _ _ _ _ Hw _ Eh) as (xs2 & -> & Hxs).
      eexists. split; [rewrite He; reflexivity|]. split; [reflexivity|]. split; [reflexivity|].
      unfold serialize_body. cbn [c_data]. symmetry.
      eapply enum_diff; [exact Hxs| | |reflexivity..]; cbn [c_attrs ca_tag_type] in *.
      + intros t' c' Ht HD. rewrite Ht in Hrep'. eapply HD. exact Hrep'.
      + intros t' Ht. rewrite Ht in Hrep'. eauto.
  Qed.
End Differ.
