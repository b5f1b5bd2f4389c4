(** The generated code, executed: what the schemas of derived types look like. *)
From Verif Require Import Attr AttrSpec AttrFacts Ast AstFacts Derive DeriveSpec Schema SchemaSpec SchemaFacts Gen GenSpec
  GenFacts CaseSpec CaseFacts.
From Coq Require Import Arith Lia.

Lemma try_map_Forall2 {X Y} (f : X -> option Y) l ys :
  try_map f l = Some ys <-> Forall2 (fun x y => f x = Some y) l ys.
Proof.
  revert ys. induction l as [|x l IH]; intros ys; cbn.
  - split; [intros [= <-]; constructor | now inversion 1].
  - fold (try_map f). destruct (f x) as [y|] eqn:E.
    + destruct (try_map f l) as [ys'|].
      * split; [intros [= <-]; constructor; auto; now apply IH|]. inversion 1; subst.
        assert (Some ys' = Some l') by now apply IH. congruence.
      * split; [discriminate|]. inversion 1; subst. enough (None = Some l') by discriminate. now apply IH.
    + split; [discriminate|]. inversion 1; subst. congruence.
Qed.

Lemma try_map_None {X Y} (f : X -> option Y) l : try_map f l = None <-> exists x, In x l /\ f x = None.
Proof.
  induction l as [|x l IH]; cbn.
  - split; [discriminate | intros (x & [] & _)].
  - fold (try_map f). destruct (f x) as [y|] eqn:E.
    + destruct (try_map f l) as [ys'|].
      * split; [discriminate|]. intros (x' & [->|Hin] & H); [congruence|]. enough (Some ys' = None) by discriminate. apply IH. eauto.
      * split; auto. intros _. destruct (proj1 IH eq_refl) as (x' & H1 & H2). eauto.
    + split; auto. intros _. eauto.
Qed.

Section Facts.
  Variable pe pp : str -> bool.
  Variable uni : N -> bool.
  Variable ev : str -> str.
  Notation said := (said pe pp).
  Notation takes := (takes pe pp).
  Notation flag_takes := (flag_takes pe pp).

  (** ** Parameters *)

  Lemma example_takes pos l o : takes pos l SExample o -> example_is pe pp ev pos l (example_value ev o).
  Proof.
    intros H s. unfold AttrSpec.takes in H. split.
    - destruct o as [[x|x]|]; cbn; intros [= <-]; [left | right; exists x; split; auto]; now apply H.
    - intros [Hs|(c & Hs & ->)]; apply H in Hs; subst o; reflexivity.
  Qed.

  Lemma params_field r i f (g : field ty) : field_parsed pe pp r i f g ->
    params_said pe pp ev PField (fs_attrs f) (params_of_field ev (f_attrs g)).
  Proof.
    intros []. unfold params_said, params_of_field. cbn. split; auto. split; [|split; [|split; [|split]]]; auto.
    - destruct (fa_nullable (f_attrs g)); cbn; discriminate.
    - unfold AttrSpec.flag_takes in *. rewrite <- fp_nullable. destruct (fa_nullable (f_attrs g)); cbn; intuition congruence.
    - now apply example_takes.
  Qed.

  Lemma params_variant r v (w : variant ty) : variant_parsed pe pp uni r v w ->
    params_said pe pp ev PVariant (vs_attrs v) (params_of_variant ev (v_attrs w)).
  Proof.
    intros []. unfold params_said, params_of_variant. cbn. split; auto. split; [|split; [|split; [|split]]]; auto.
    - discriminate.
    - split; [discriminate|]. intros (its & f & n & _ & _ & Hs). inversion Hs as [| | | | | | | | | | | | | | | | |p Hc| | | | | | |].
      destruct Hc as [[k Hk]|Hk]; discriminate.
    - now apply example_takes.
  Qed.

  Lemma params_container i (c : container ty) : container_parsed pe pp uni i c ->
    params_said pe pp ev (PContainer (shape (di_data i))) (di_attrs i) (params_of_container ev (c_attrs c)).
  Proof.
    intros []. unfold params_said, params_of_container. cbn. split; auto. split; [|split; [|split; [|split]]]; auto.
    - destruct (ca_nullable (c_attrs c)); cbn; discriminate.
    - unfold AttrSpec.flag_takes in *. rewrite <- cp_nullable. destruct (ca_nullable (c_attrs c)); cbn; intuition congruence.
    - now apply example_takes.
  Qed.

  Lemma params_or_completed p q : p_variants p = None -> params_or p q = completed_by p q.
  Proof.
    intros H. unfold params_or, completed_by. rewrite H. unfold override, given.
    destruct p as [a b c d e]. cbn. destruct a, d, e; reflexivity.
  Qed.

  Section Run.
    Variable E : env.
    Variable fuel : nat.
    Notation gs := (get_schema E fuel).

    Lemma newtype_model_eval b p t mc cx m cx' : newtype_model b p t = Some mc ->
      eval_m E gs mc cx = Ok (m, cx') -> cx' = cx /\ explicit_model t b p m.
    Proof.
      intros H He. unfold explicit_model. destruct t; cbn in H; try discriminate; injection H as <-; cbn in He;
        injection He as <- <-; cbn; repeat split.
    Qed.

    Lemma field_ref_eval r i f g p inl c cx ref cx' : field_parsed pe pp r i f g ->
      field_model_reference p g inl = Some c -> eval_r E gs c cx = Ok (ref, cx') ->
      field_ref pe pp E f inl p cx ref cx'.
    Proof.
      intros [] Hm He. unfold field_model_reference in Hm. destruct (fa_explicit (f_attrs g)) as [t|] eqn:Et.
      - assert (Hs : said PField (fs_attrs f) (SType t)) by now apply fp_explicit.
        assert (Hx : t = ETAny \/ exists mc, newtype_model (fa_nullable (f_attrs g)) p t = Some mc /\ c = RcInline mc).
        { destruct t; cbn in Hm |- *; auto; right; injection Hm as <-; eauto. }
        destruct Hx as [->|(mc & Hn & ->)].
        + injection Hm as <-. cbn in He. injection He as <- <-. now apply fr_any.
        + rewrite er_inline in He. binds. destruct (newtype_model_eval _ _ _ _ _ _ _ Hn H) as [-> Hex].
          eapply fr_explicit; eauto.
      - injection Hm as <-. rewrite er_mention, fp_ty in He. apply fr_type.
        + now apply (takes_None _ _ _ _ _ _ fp_explicit).
        + exists fuel. exact He.
    Qed.

    Lemma field_refs_eval outer r i fs gs' cs cx rs cx' : fields_parsed pe pp r i fs gs' ->
      try_map (fun g => field_model_reference (params_of_field ev (f_attrs g)) g (outer || fa_inline (f_attrs g))) gs' = Some cs ->
      eval_vec (eval_r E gs) cs cx = Ok (rs, cx') -> field_refs pe pp ev E outer fs cx rs cx'.
    Proof.
      intros Hp. revert cs cx rs cx'. induction Hp as [i|i f g fs gs' Hf Hp IH]; intros cs cx rs cx' Ht He.
      - cbn in Ht. injection Ht as <-. cbn in He. injection He as <- <-. constructor.
      - apply try_map_Forall2 in Ht. inversion Ht as [|? c ? cs' Hc Hcs]; subst. apply try_map_Forall2 in Hcs.
        cbn [eval_vec] in He. binds. econstructor.
        + exact (fp_inline _ _ _ _ _ _ Hf).
        + eapply params_field; eauto.
        + eapply field_ref_eval; eauto.
        + eapply IH; eauto.
    Qed.

    (** what is left of the fields *)
    Definition kept (r : rename_rule) (nf : str * field_syn ty) (g : field ty) : Prop :=
      (exists j, field_parsed pe pp r j (snd nf) g) /\ fst nf = n_serialized (fa_name (f_attrs g)).

    Lemma fields_kept r i fs gs' : fields_parsed pe pp r i fs gs' ->
      exists l, serialised_fields pe pp r i fs l /\ Forall2 (kept r) l (filter (fun g => negb (fa_skip (f_attrs g))) gs').
    Proof.
      induction 1 as [i|i f g fs gs' Hf Hp (l & Hl & Hk)].
      - exists []. split; constructor.
      - cbn [filter]. pose proof (fp_skip _ _ _ _ _ _ Hf) as Hs. unfold AttrSpec.flag_takes in Hs.
        destruct (fa_skip (f_attrs g)) eqn:Eg; cbn [negb].
        + exists l. split; auto. apply sf_skip; auto. now apply Hs.
        + exists ((n_serialized (fa_name (f_attrs g)), f) :: l). split.
          * apply sf_keep; auto; [|exact (fp_name _ _ _ _ _ _ Hf)]. intros Hk'. apply Hs in Hk'. discriminate.
          * constructor; auto. split; cbn; eauto.
    Qed.

    Lemma stmts_eval outer r l gs' stmts props req cx props' req' cx' : Forall2 (kept r) l gs' ->
      try_map (fun f => match field_model_reference (params_of_field ev (f_attrs f)) f (outer || fa_inline (f_attrs f)) with
                        | Some r => Some (n_serialized (fa_name (f_attrs f)), r, negb (fa_optional (f_attrs f)))
                        | None => None
                        end) gs' = Some stmts ->
      eval_stmts (eval_r E gs) stmts props req cx = Ok (props', req', cx') ->
      exists rs req1, field_refs pe pp ev E outer (map snd l) cx rs cx' /\ required_names pe pp l req1 /\
        req' = req ++ req1 /\ (bm_sorted props -> bm_sorted props') /\
        (bm_sorted props -> forall k, bm_get k props' = match last_value k (combine (map fst l) rs) with
                                                         | Some v => Some v | None => bm_get k props end).
    Proof.
      intros Hk. revert stmts props req cx. induction Hk as [|nf g l gs' [[j Hf] Hn] Hk IH]; intros stmts props req cx Ht He.
      - cbn in Ht. injection Ht as <-. cbn in He. injection He as <- <- <-.
        exists [], []. repeat split; auto; try constructor. now rewrite app_nil_r.
      - apply try_map_Forall2 in Ht. inversion Ht as [|? c ? cs' Hc Hcs]; subst. apply try_map_Forall2 in Hcs.
        destruct (field_model_reference _ g _) as [c0|] eqn:Ec; [|discriminate]. injection Hc as <-.
        cbn [eval_stmts] in He. binds. fold (eval_stmts (eval_r E gs)) in *.
        destruct (IH _ _ _ _ Hcs H0) as (rs & req1 & H1 & H2 & H3 & H4 & H5).
        destruct nf as [n f]. cbn [fst snd] in *. subst n.
        exists (m :: rs), (if negb (fa_optional (f_attrs g)) then n_serialized (fa_name (f_attrs g)) :: req1 else req1).
        split; [|split; [|split; [|split]]].
        + cbn [map snd]. econstructor; eauto.
          * exact (fp_inline _ _ _ _ _ _ Hf).
          * eapply params_field; eauto.
          * eapply field_ref_eval; eauto.
        + pose proof (fp_optional _ _ _ _ _ _ Hf) as Ho. destruct (fa_optional (f_attrs g)); cbn [negb].
          * apply rn_optional; auto. now apply Ho.
          * apply rn_required; auto. intros Hx. apply Ho in Hx. discriminate.
        + rewrite H3. destruct (fa_optional (f_attrs g)); cbn [negb]; auto. now rewrite <- app_assoc.
        + intros Hs. apply H4. now apply bm_insert_sorted.
        + intros Hs k. rewrite H5 by now apply bm_insert_sorted. cbn [map fst combine last_value].
          destruct (last_value k (combine (map fst l) rs)); auto.
          destruct (str_eq_dec (n_serialized (fa_name (f_attrs g))) k) as [<-|Hne].
          * now rewrite bm_get_insert_eq.
          * rewrite bm_get_insert_neq; auto.
    Qed.

    Lemma object_eval outer r fs gs' t cx td cx' d b : fields_parsed pe pp r 0 fs gs' ->
      object_type_description ev gs' (fun g => outer || fa_inline (f_attrs g)) = Some t ->
      eval_t E gs t cx = Ok (td, cx') ->
      object_schema pe pp ev E outer r fs cx (Model d (Single (MType b td))) cx'.
    Proof.
      intros Hp Ho He. unfold object_type_description in Ho.
      destruct (try_map _ _) as [stmts|] eqn:Et; [|discriminate]. injection Ho as <-.
      rewrite et_object in He. binds. destruct p as [props req]. binds.
      destruct (fields_kept _ _ _ _ Hp) as (l & Hl & Hk).
      destruct (stmts_eval _ _ _ _ _ _ _ _ _ _ _ Hk Et H) as (rs & req1 & H1 & H2 & H3 & H4 & H5).
      exists l, rs, (MObject props None req). split; auto. split; auto. split; [reflexivity|]. cbn [mo_properties mo_required mo_additional].
      split; [apply H4; constructor|]. split; [|split; auto; now rewrite H3].
      intros k. rewrite H5 by constructor. now destruct (last_value k (combine (map fst l) rs)).
    Qed.

    Lemma tuple_eval outer r i fs gs' t cx td cx' d b : fields_parsed pe pp r i fs gs' ->
      tuple_type_description ev gs' (fun g => outer || fa_inline (f_attrs g)) = Some t ->
      eval_t E gs t cx = Ok (td, cx') ->
      exists rs, field_refs pe pp ev E outer fs cx rs cx' /\ tuple_schema (Model d (Single (MType b td))) rs.
    Proof.
      intros Hp Ho He. unfold tuple_type_description in Ho.
      destruct (try_map _ _) as [cs|] eqn:Et; [|discriminate]. injection Ho as <-.
      rewrite et_array, er_inline, em_model, ed_oneof in He. binds.
      exists l. split; [eapply field_refs_eval; eauto|]. exists None. split; reflexivity.
    Qed.

    (** ** Variants *)

    Section Variant.
      Variables (r : rename_rule) (v : variant_syn ty) (w : variant ty).
      Hypothesis Hw : variant_parsed pe pp uni r v w.

      Lemma fields_one : v_style w = StNewType -> exists f g, vs_fields v = FUnnamed [f] /\ v_fields w = [g] /\
        field_parsed pe pp (va_rename_rule (v_attrs w)) 0 f g.
      Proof.
        intros Hs. destruct Hw. rewrite vp_style in Hs.
        destruct (vs_fields v) as [l|l|]; cbn in Hs, vp_fields; try discriminate.
        destruct l as [|f [|f' l]]; try discriminate. inversion vp_fields as [|? ? g ? gs' Hf Hr]; subst.
        inversion Hr; subst. eauto.
      Qed.

      Lemma newtype_eval c cx ref cx' : v_style w = StNewType -> newtype_variant ev w = Some c ->
        eval_r E gs c cx = Ok (ref, cx') ->
        exists f, vs_fields v = FUnnamed [f] /\ newtype_payload pe pp ev E v f cx ref cx'.
      Proof.
        intros Hs Hn He. destruct (fields_one Hs) as (f & g & Hf & Hg & Hp). exists f. split; auto.
        unfold newtype_variant in Hn. rewrite Hg in Hn.
        exists (va_inline (v_attrs w)), (params_of_field ev (f_attrs g)), (params_of_variant ev (v_attrs w)).
        split; [exact (vp_inline _ _ _ _ _ _ Hw)|]. split; [eapply params_field; eauto|].
        split; [eapply params_variant; eauto|]. rewrite params_or_completed in Hn by reflexivity. eapply field_ref_eval; eauto.
      Qed.

      Lemma struct_eval mc cx m cx' : v_style w = StStruct ->
        object_model ev false (va_description (v_attrs w)) (v_fields w) (inline_in w) = Some mc ->
        eval_m E gs mc cx = Ok (m, cx') ->
        exists fs, vs_fields v = FNamed fs /\ struct_payload pe pp ev E v fs cx m cx'.
      Proof.
        intros Hs Hm He. destruct Hw. rewrite vp_style in Hs.
        destruct (vs_fields v) as [fs|l|]; cbn in Hs, vp_fields; try discriminate; [|destruct (Nat.eqb (length l) 1); discriminate].
        exists fs. split; auto. unfold object_model in Hm. destruct (object_type_description _ _ _) as [t|] eqn:Et; [|discriminate].
        injection Hm as <-. rewrite em_model, ed_single in He. binds.
        exists (va_inline (v_attrs w)), (va_rename_rule (v_attrs w)). cbn. repeat (split; auto).
        eapply object_eval; eauto.
      Qed.

      Lemma tuple_variant_eval mc cx m cx' :
        tuple_model ev false (va_description (v_attrs w)) (v_fields w) (inline_in w) = Some mc ->
        eval_m E gs mc cx = Ok (m, cx') ->
        tuple_payload pe pp ev E v (fields_list (vs_fields v)) cx m cx'.
      Proof.
        intros Hm He. destruct Hw. unfold tuple_model in Hm.
        destruct (tuple_type_description _ _ _) as [t|] eqn:Et; [|discriminate].
        injection Hm as <-. rewrite em_model, ed_single in He. binds.
        match goal with H : eval_t _ _ _ _ = Ok _ |- _ =>
          destruct (tuple_eval (va_inline (v_attrs w)) _ _ _ _ _ _ _ _ (va_description (v_attrs w)) false vp_fields Et H)
            as (rs & Hrs & Ht)
        end.
        exists (va_inline (v_attrs w)), rs. cbn. repeat (split; auto).
      Qed.

      Lemma names_eval d names cx m cx' : eval_m E gs (names_model d names) cx = Ok (m, cx') ->
        cx' = cx /\ names_schema names m /\ m_description m = d.
      Proof. cbn. intros [= <- <-]. split; auto. split; auto. repeat split. Qed.

      Lemma style_tuple : v_style w = StTuple -> exists fs, vs_fields v = FUnnamed fs /\ length fs <> 1.
      Proof.
        intros Hs. destruct Hw. rewrite vp_style in Hs. destruct (vs_fields v) as [fs|fs|]; cbn in Hs; try discriminate.
        exists fs. split; auto. destruct (Nat.eqb_spec (length fs) 1); [discriminate|auto].
      Qed.
      Lemma style_struct : v_style w = StStruct -> exists fs, vs_fields v = FNamed fs.
      Proof.
        intros Hs. destruct Hw. rewrite vp_style in Hs. destruct (vs_fields v) as [fs|fs|]; cbn in Hs; eauto; try discriminate.
        destruct (Nat.eqb (length fs) 1); discriminate.
      Qed.
      Lemma style_unit : v_style w = StUnit -> vs_fields v = FUnit.
      Proof.
        intros Hs. destruct Hw. rewrite vp_style in Hs. destruct (vs_fields v) as [fs|fs|]; cbn in Hs; auto; try discriminate.
        destruct (Nat.eqb (length fs) 1); discriminate.
      Qed.

      Lemma inline_ref_eval om c cx ref cx' : inline_reference om = Some c -> eval_r E gs c cx = Ok (ref, cx') ->
        exists mc m, om = Some mc /\ eval_m E gs mc cx = Ok (m, cx') /\ ref = Inline m.
      Proof.
        destruct om as [mc|]; [|discriminate]. intros [= <-] He. rewrite er_inline in He. binds. eauto 6.
      Qed.

      Lemma external_eval c cx ref cx' : external_variant ev w = Some c -> eval_r E gs c cx = Ok (ref, cx') ->
        alternative pe pp ev E RepExternal (variant_name w) v cx ref cx'.
      Proof.
        intros Hc He. unfold external_variant in Hc. destruct (v_style w) eqn:Es.
        - destruct (inline_ref_eval _ _ _ _ _ Hc He) as (mc & m & Hm & Hem & ->).
          destruct (struct_eval _ _ _ _ Es Hm Hem) as (fs & Hf & Hp). eapply alt_struct; eauto.
        - destruct (inline_ref_eval _ _ _ _ _ Hc He) as (mc & m & Hm & Hem & ->).
          pose proof (tuple_variant_eval _ _ _ _ Hm Hem) as Hp.
          destruct (style_tuple Es) as (fs & Hf & Hl). rewrite Hf in Hp. eapply alt_tuple; eauto.
        - destruct (newtype_eval _ _ _ _ Es Hc He) as (f & Hf & Hp). eapply alt_newtype; eauto. discriminate.
        - injection Hc as <-. rewrite er_inline in He. binds. apply names_eval in H as (-> & Hn & Hd).
          eapply alt_unit; eauto; [now apply style_unit|]. rewrite Hd. apply Hw.
      Qed.

      Lemma untagged_eval c cx ref cx' : untagged_variant ev w = Some c -> eval_r E gs c cx = Ok (ref, cx') ->
        alternative pe pp ev E RepUntagged (variant_name w) v cx ref cx'.
      Proof.
        intros Hc He. unfold untagged_variant in Hc. destruct (v_style w) eqn:Es; try discriminate.
        - destruct (inline_ref_eval _ _ _ _ _ Hc He) as (mc & m & Hm & Hem & ->).
          destruct (struct_eval _ _ _ _ Es Hm Hem) as (fs & Hf & Hp). eapply alt_struct; eauto.
        - destruct (newtype_eval _ _ _ _ Es Hc He) as (f & Hf & Hp). eapply alt_newtype; eauto. discriminate.
      Qed.

      Lemma adjacent_eval tag content c cx ref cx' : adjacent_variant ev w = Some c -> eval_r E gs c cx = Ok (ref, cx') ->
        alternative pe pp ev E (RepAdjacent tag content) (variant_name w) v cx ref cx'.
      Proof.
        intros Hc He. unfold adjacent_variant in Hc. destruct (v_style w) eqn:Es; try discriminate.
        - destruct (inline_ref_eval _ _ _ _ _ Hc He) as (mc & m & Hm & Hem & ->).
          pose proof (tuple_variant_eval _ _ _ _ Hm Hem) as Hp.
          destruct (style_struct Es) as (fs & Hf). rewrite Hf in Hp. eapply alt_struct_adjacent; eauto.
        - destruct (inline_ref_eval _ _ _ _ _ Hc He) as (mc & m & Hm & Hem & ->).
          pose proof (tuple_variant_eval _ _ _ _ Hm Hem) as Hp.
          destruct (style_tuple Es) as (fs & Hf & Hl). rewrite Hf in Hp. eapply alt_tuple; eauto.
        - destruct (newtype_eval _ _ _ _ Es Hc He) as (f & Hf & Hp). eapply alt_newtype; eauto. discriminate.
      Qed.

      Lemma internal_payload_eval mc cx m cx' : internal_model ev w = Some mc -> eval_m E gs mc cx = Ok (m, cx') ->
        internal_payload pe pp ev E v cx m cx'.
      Proof.
        intros Hc He. unfold internal_model in Hc. destruct (v_style w) eqn:Es; try discriminate.
        - destruct (struct_eval _ _ _ _ Es Hc He) as (fs & Hf & Hp). eapply ip_struct; eauto.
        - destruct (fields_one Es) as (f & g & Hf & Hg & Hp). rewrite Hg in Hc. injection Hc as <-.
          rewrite em_with in He. binds. rewrite params_or_completed by reflexivity. eapply ip_newtype; eauto.
          + eapply params_field; eauto.
          + eapply params_variant; eauto.
          + exists fuel. now rewrite <- (fp_ty _ _ _ _ _ _ Hp).
        - cbn in Hc. injection Hc as <-. cbn in He. injection He as <- <-. eapply ip_unit; eauto; try reflexivity.
          + now apply style_unit.
          + cbn. apply Hw.
      Qed.
    End Variant.

    Lemma tag_added tag n id b m : tagged tag n m (fst (try_merge m (tag_model tag n id b))).
    Proof.
      destruct m as [d [ [nb td] | l | l | l ] ]; try (apply tg_dropped; [discriminate|reflexivity]).
      destruct td as [s|s|s| |x|[p a q]]; try (apply tg_dropped; [discriminate|reflexivity]).
      cbn. destruct (bm_mem tag p) eqn:Em; cbn.
      - apply tg_dropped; [|reflexivity]. cbn. intros o [= <-]. cbn. apply bm_mem_true in Em.
        apply bm_get_Some_key in Em as [x Hx]. congruence.
      - apply bm_mem_false, bm_get_None in Em. eapply tg_added; try reflexivity; auto.
        + cbn. apply bm_get_insert_eq.
        + repeat split.
        + cbn. intros k Hk. now rewrite bm_get_insert_neq.
    Qed.

    Lemma internal_eval r v w c tag code cx ref cx' : variant_parsed pe pp uni r v w ->
      internal_variant ev c tag w = Some code -> eval_r E gs code cx = Ok (ref, cx') ->
      internal_alternative pe pp ev E tag (variant_name w, v) cx ref cx'.
    Proof.
      intros Hw Hc He. unfold internal_variant in Hc. destruct (internal_model ev w) as [mc|] eqn:Em; [|discriminate].
      injection Hc as <-. rewrite er_tagged in He. binds.
      eexists _, _. split; [|split; [reflexivity|apply tag_added]]. cbn [fst snd]. eapply internal_payload_eval; eauto.
    Qed.

    (** ** Lists of variants *)

    Definition kept_variant (r : rename_rule) (nv : str * variant_syn ty) (w : variant ty) : Prop :=
      variant_parsed pe pp uni r (snd nv) w /\ fst nv = variant_name w.

    Lemma variants_kept r vs ws : Forall2 (variant_parsed pe pp uni r) vs ws ->
      exists l, serialised_variants pe pp uni r vs l /\ Forall2 (kept_variant r) l (serialised ws).
    Proof.
      induction 1 as [|v w vs ws Hv Hr (l & Hl & Hk)].
      - exists []. split; constructor.
      - unfold serialised in *. cbn [filter]. pose proof (vp_skip _ _ _ _ _ _ Hv) as Hs. unfold AttrSpec.flag_takes in Hs.
        destruct (va_skip (v_attrs w)) eqn:Eg; cbn [negb].
        + exists l. split; auto. apply sv_skip; auto. now apply Hs.
        + exists ((variant_name w, v) :: l). split.
          * apply sv_keep; auto; [|exact (vp_name _ _ _ _ _ _ Hv)]. intros Hk'. apply Hs in Hk'. discriminate.
          * constructor; auto. split; auto.
    Qed.

    Lemma kept_names r l ws : Forall2 (kept_variant r) l ws -> map variant_name ws = map fst l.
    Proof. induction 1 as [|nv w l ws [_ H] _ IH]; cbn; congruence. Qed.

    Lemma in_order_eval r (f : variant ty -> option rcode) (rel : str * variant_syn ty -> components -> model_ref -> components -> Prop) l ws cs cx rs cx' :
      (forall v w c cx ref cx', variant_parsed pe pp uni r v w -> f w = Some c -> eval_r E gs c cx = Ok (ref, cx') ->
         rel (variant_name w, v) cx ref cx') ->
      Forall2 (kept_variant r) l ws -> try_map f ws = Some cs -> eval_vec (eval_r E gs) cs cx = Ok (rs, cx') ->
      in_order rel l cx rs cx'.
    Proof.
      intros Hf Hk. revert cs cx rs. induction Hk as [|[n v] w l ws [Hv Hn] Hk IH]; intros cs cx rs Ht He.
      - cbn in Ht. injection Ht as <-. cbn in He. injection He as <- <-. constructor.
      - apply try_map_Forall2 in Ht. inversion Ht as [|? c ? cs' Hc Hcs]; subst. apply try_map_Forall2 in Hcs.
        cbn [eval_vec] in He. binds. cbn [fst snd] in *. subst n. econstructor; eauto.
    Qed.
  End Run.
End Facts.
