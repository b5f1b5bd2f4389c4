(** Facts about the compile errors of the derive: whole declarations. *)
From Verif Require Import AttrSpec AttrFacts DeriveSpec AstFacts PanicSpec PanicFacts DiagSpec DiagFacts.
From Coq Require Import Sorting.Sorted.
Local Open Scope string_scope. Local Open Scope list_scope.

Section Facts.
  Variable pe pp : str -> bool.
  Variable uni_upper : N -> bool.
  Variable eval_expr : str -> str.
  Variable debug : str -> str.
  Notation owner_diags := (owner_diags pe pp debug).
  Notation complaint := (complaint pe pp debug).
  Notation complains := (complains pe pp debug).
  Notation get := AttrFacts.get.

  (** ** Owners of attributes, in order *)
  Definition member : Type := owner * position * list attribute.
  Definition mdiags (ms : list member) : list diag := flat_map (fun '(o, pos, l) => owner_diags o pos l) ms.
  Lemma mdiags_cons o pos l ms : mdiags ((o, pos, l) :: ms) = owner_diags o pos l ++ mdiags ms.
  Proof. reflexivity. Qed.
  Lemma mdiags_app m1 m2 : mdiags (m1 ++ m2) = mdiags m1 ++ mdiags m2.
  Proof. apply flat_map_app. Qed.
  Fixpoint field_members (v : option nat) (index : nat) (l : list (field_syn ty)) : list member :=
    match l with [] => [] | f :: l' => (OField v index, PField, fs_attrs f) :: field_members v (S index) l' end.
  Fixpoint variant_members (index : nat) (vs : list (variant_syn ty)) : list member :=
    match vs with
    | [] => []
    | v :: rest => (OVariant index, PVariant, vs_attrs v) :: field_members (Some index) 0 (fields_list (vs_fields v)) ++ variant_members (S index) rest
    end.
  Definition owner_lt (m1 m2 : member) : Prop := lex_lt (owner_rank (fst (fst m1))) (owner_rank (fst (fst m2))).

  Lemma in_field_members v index l m : In m (field_members v index l) <->
    exists j f, index <= j /\ nth_error l (j - index) = Some f /\ m = (OField v j, PField, fs_attrs f).
  Proof.
    revert index. induction l as [|f l IH]; intros index; cbn [field_members In].
    - split; [intros []|]. intros (j & f & _ & H & _). destruct (j - index); discriminate.
    - rewrite IH. split.
      + intros [<-|(j & f' & Hle & Hn & ->)].
        * exists index, f. split; [lia|]. now rewrite PeanoNat.Nat.sub_diag.
        * exists j, f'. split; [lia|]. replace (j - index) with (S (j - S index)) by lia. now split.
      + intros (j & f' & Hle & Hn & ->). destruct (j - index) eqn:Ej; cbn in Hn.
        * left. injection Hn as ->. f_equal. f_equal. f_equal. lia.
        * right. exists j, f'. split; [lia|]. now replace (j - S index) with n by lia.
  Qed.
  Lemma in_variant_members index vs m : In m (variant_members index vs) <->
    exists k v, index <= k /\ nth_error vs (k - index) = Some v /\
      (m = (OVariant k, PVariant, vs_attrs v) \/
       exists j f, nth_error (fields_list (vs_fields v)) j = Some f /\ m = (OField (Some k) j, PField, fs_attrs f)).
  Proof.
    revert index. induction vs as [|v vs IH]; intros index; cbn [variant_members].
    - split; [intros []|]. intros (k & v & _ & H & _). destruct (k - index); discriminate.
    - cbn [In]. rewrite in_app_iff, IH, in_field_members. split.
      + intros [<-|[(j & f & _ & Hn & ->)|(k & v' & Hle & Hn & H)]].
        * exists index, v. rewrite PeanoNat.Nat.sub_diag. repeat split; [lia|now left].
        * exists index, v. rewrite PeanoNat.Nat.sub_diag. repeat split; [lia|]. right. exists j, f.
          rewrite PeanoNat.Nat.sub_0_r in Hn. now split.
        * exists k, v'. split; [lia|]. replace (k - index) with (S (k - S index)) by lia. now split.
      + intros (k & v' & Hle & Hn & H). destruct (k - index) eqn:Ek; cbn in Hn.
        * assert (k = index) by lia. subst k. injection Hn as ->. destruct H as [->|(j & f & Hj & ->)]; [now left|]. right. left.
          exists j, f. rewrite PeanoNat.Nat.sub_0_r. repeat split; [lia|exact Hj].
        * right. right. exists k, v'. split; [lia|]. replace (k - S index) with n by lia. now split.
  Qed.
  Lemma field_members_sorted v index l : StronglySorted owner_lt (field_members v index l).
  Proof.
    revert index. induction l as [|f l IH]; intros index; cbn; constructor; [apply IH|]. apply Forall_forall. intros m Hm.
    apply in_field_members in Hm as (j & f' & Hle & _ & ->). unfold owner_lt. cbn. destruct v as [v|]; cbn.
    - apply lex_tail, lex_head. lia.
    - apply lex_head. lia.
  Qed.
  Lemma variant_members_sorted index vs : StronglySorted owner_lt (variant_members index vs).
  Proof.
    revert index. induction vs as [|v vs IH]; intros index; cbn [variant_members]; constructor.
    - apply sorted_app; [apply field_members_sorted|apply IH|]. intros m1 m2 H1 H2.
      apply in_field_members in H1 as (j & f & _ & _ & ->). apply in_variant_members in H2 as (k & v' & Hle & _ & H2). unfold owner_lt. cbn.
      destruct H2 as [->|(j' & f' & _ & ->)]; cbn; apply lex_head; lia.
    - apply Forall_forall. intros m Hm. apply in_app_or in Hm as [Hm|Hm].
      + apply in_field_members in Hm as (j & f & _ & _ & ->). unfold owner_lt. cbn. apply lex_tail, lex_head. lia.
      + apply in_variant_members in Hm as (k & v' & Hle & _ & Hm). unfold owner_lt. cbn.
        destruct Hm as [->|(j' & f' & _ & ->)]; cbn; apply lex_head; lia.
  Qed.
  Lemma mdiags_in ms d : In d (mdiags ms) <-> exists o pos l, In (o, pos, l) ms /\ complaint o pos l d.
  Proof.
    unfold mdiags. rewrite in_flat_map. split.
    - intros ([[o pos] l] & Hm & Hd). exists o, pos, l. split; [exact Hm|]. now apply owner_diags_iff.
    - intros (o & pos & l & Hm & Hd). exists (o, pos, l). split; [exact Hm|]. now apply owner_diags_iff.
  Qed.
  Lemma mdiags_ranked ms d : In d (mdiags ms) -> exists m r, In m ms /\ ranked d (owner_rank (fst (fst m)) ++ r).
  Proof.
    unfold mdiags. rewrite in_flat_map. intros ([[o pos] l] & Hm & Hd). apply owner_ranked in Hd as [r Hr]. now exists (o, pos, l), r.
  Qed.
  Lemma mdiags_sorted ms : StronglySorted owner_lt ms -> StronglySorted comes_before (mdiags ms).
  Proof.
    induction 1 as [|[[o pos] l] ms H IH Hm]; [constructor|]. unfold mdiags. cbn [flat_map]. fold (mdiags ms).
    apply sorted_app; [apply owner_sorted|exact IH|]. intros d1 d2 H1 H2. apply owner_ranked in H1 as [r1 H1].
    apply mdiags_ranked in H2 as (m & r2 & Hin & H2). rewrite Forall_forall in Hm. apply Hm in Hin.
    do 2 eexists. split; [exact H1|]. split; [exact H2|]. now apply lex_app.
  Qed.

  (** ** The functions of ast.rs *)
  Lemma d_field_logs o source l : let r := field_from_ast pe pp source l in
    logs (d_field pe pp debug o source l) (fst r) (owner_diags o PField l) /\ length (owner_diags o PField l) = length (snd r).
  Proof.
    destruct (parse_logs pe pp debug o PField l) as (v & H1 & H2 & H3 & H4). unfold field_from_ast, d_field.
    destruct (parse_attrs pe pp PField l) as [s es]. cbn [fst snd] in *. subst s. destruct (at_most_one (s_types (fst v))) as [t dup].
    cbn [fst snd] in *. rewrite app_length. split; [|exact H4].
    unfold owner_diags. eapply logs_bind; [exact H1|]. eapply logs_then; [exact H3|apply logs_ret].
  Qed.
  Lemma d_variant_logs o ident l : let r := variant_from_ast pe pp ident l in
    logs (d_variant pe pp debug o ident l) (fst r) (owner_diags o PVariant l) /\ length (owner_diags o PVariant l) = length (snd r).
  Proof.
    destruct (parse_logs pe pp debug o PVariant l) as (v & H1 & H2 & H3 & H4). unfold variant_from_ast, d_variant.
    destruct (parse_attrs pe pp PVariant l) as [s es]. cbn [fst snd] in *. subst s. destruct (at_most_one (s_types (fst v))) as [t dup].
    cbn [fst snd] in *. rewrite app_length. split; [|exact H4].
    unfold owner_diags. eapply logs_bind; [exact H1|]. eapply logs_then; [exact H3|apply logs_ret].
  Qed.
  Lemma d_fields_logs v index l : let r := fields_from_ast pe pp index l in
    logs (d_fields pe pp debug v index l) (fst r) (mdiags (field_members v index l)) /\
    length (mdiags (field_members v index l)) = length (snd r).
  Proof.
    cbn zeta. revert index. induction l as [|f l IH]; intros index; [split; [apply logs_ret|reflexivity]|].
    cbn [d_fields fields_from_ast field_members]. set (src := match fs_ident f with Some i => unraw i | None => nat_to_string index end).
    destruct (d_field_logs (OField v index) src (fs_attrs f)) as [H1 H2]. destruct (IH (S index)) as [H3 H4].
    destruct (field_from_ast pe pp src (fs_attrs f)) as [a es]. destruct (fields_from_ast pe pp (S index) l) as [rest es']. cbn [fst snd] in *.
    rewrite mdiags_cons, !app_length. split; [|lia].
    eapply logs_bind; [exact H1|]. eapply logs_then; [exact H3|apply logs_ret].
  Qed.
  Lemma d_struct_logs v f : let r := struct_from_ast pe pp f in
    logs (d_struct pe pp debug v f) (fst r) (mdiags (field_members v 0 (fields_list f))) /\
    length (mdiags (field_members v 0 (fields_list f))) = length (snd r).
  Proof.
    destruct f as [l|l|]; cbn [struct_from_ast d_struct fields_list].
    - destruct (d_fields_logs v 0 l) as [H1 H2]. destruct (fields_from_ast pe pp 0 l) as [fs es]. cbn [fst snd] in *. split; [|exact H2].
      eapply logs_then; [exact H1|apply logs_ret].
    - destruct (d_fields_logs v 0 l) as [H1 H2]. destruct (fields_from_ast pe pp 0 l) as [fs es]. cbn [fst snd] in *. split; [|exact H2].
      eapply logs_then; [exact H1|apply logs_ret].
    - split; [apply logs_ret|reflexivity].
  Qed.
  Lemma d_variants_logs index vs : let r := variants_from_ast pe pp vs in
    logs (d_variants pe pp debug index vs) (fst r) (mdiags (variant_members index vs)) /\
    length (mdiags (variant_members index vs)) = length (snd r).
  Proof.
    cbn zeta. revert index. induction vs as [|v vs IH]; intros index; [split; [apply logs_ret|reflexivity]|].
    cbn [d_variants variants_from_ast variant_members].
    destruct (d_variant_logs (OVariant index) (vs_ident v) (vs_attrs v)) as [H1 H2].
    destruct (d_struct_logs (Some index) (vs_fields v)) as [H3 H4]. destruct (IH (S index)) as [H5 H6].
    destruct (variant_from_ast pe pp (vs_ident v) (vs_attrs v)) as [a es].
    destruct (struct_from_ast pe pp (vs_fields v)) as [[st fs] es1]. destruct (variants_from_ast pe pp vs) as [l es2]. cbn [fst snd] in *.
    rewrite mdiags_cons, mdiags_app, !app_length. split; [|lia].
    eapply logs_bind; [exact H1|]. eapply logs_bind; [exact H3|]. cbn beta iota. eapply logs_then; [exact H5|apply logs_ret].
  Qed.

  (** ** The container *)
  Lemma parse_some_set o pos l v : logs (d_parse pe pp debug o pos l) v (snd (run pe pp debug o pos (events 0 l) start)) ->
    forall k, k <> KType -> (get k (fst v) <> [] <-> some_set pe pp pos l k).
  Proof.
    intros H k Hk. assert (Hv : v = fst (run pe pp debug o pos (events 0 l) start)).
    { specialize (H []). assert (H' := d_loop_logs pe pp debug o pos 0 l start []). unfold d_parse in H. fold start in H.
      rewrite H' in H. now injection H as <-. }
    subst v. rewrite run_get by exact Hk. unfold some_set. split.
    - intros (e & Hin & Hs). exists (fst (pos_of e)), (snd (pos_of e)). apply (sets_at_iff pe pp debug). exists e. split; [exact Hin|].
      split; [exact Hs|]. now destruct (pos_of e).
    - intros (a & i & H'). apply (sets_at_iff pe pp debug) in H' as (e & Hin & Hs & _). now exists e.
  Qed.

  Definition kind_diags (d : data_syn ty) (t : tag_type) : list diag :=
    match d with
    | DaEnum vs =>
        if forallb (fun v => is_unit (vs_fields v)) vs then
          match t with TagNone => [own AtIdent (u "unit enums are not supported for untagged")] | _ => [] end
        else []
    | DaStruct FUnit => [own AtIdent (u "unit structs are not supported")]
    | DaStruct _ => []
    | DaUnion => [own AtIdent (u "unions are not supported")]
    end.
  Lemma d_model_kind_logs d t : logs (d_model_kind d t) (fst (decide_model_kind d t)) (kind_diags d t) /\
    length (kind_diags d t) = length (snd (decide_model_kind d t)).
  Proof.
    assert (Hf : forall s, logs (go _ <- report (own AtIdent s); ret MkObject) MkObject [own AtIdent s])
      by (intros s; eapply logs_then; [apply logs_report|apply logs_ret]).
    destruct d as [vs|[l|l|]|]; cbn [d_model_kind decide_model_kind kind_diags]; try (split; [apply logs_ret|reflexivity]);
      try (split; [apply Hf|reflexivity]).
    destruct (forallb _ vs), t; cbn [fst snd]; (split; [first [apply logs_ret|apply Hf]|reflexivity]).
  Qed.

  Definition data_diags (i : derive_input ty) : list diag :=
    match di_data i with
    | DaEnum vs => if consistent_discriminants vs then mdiags (variant_members 0 vs)
                   else [own AtVariants (u "varant discriminants are not consistent")]
    | DaStruct f => mdiags (field_members None 0 (fields_list f))
    | DaUnion => [own AtInput (u "union types are not supported")]
    end.
  Definition container_tag (i : derive_input ty) : tag_type :=
    let s := fst (parse_attrs pe pp (PContainer (kind_of_data (di_data i))) (di_attrs i)) in
    decide_tag (s_untagged s) (s_tag s) (s_content s).
  Definition all_diags (i : derive_input ty) : list diag :=
    (owner_diags OContainer (PContainer (kind_of_data (di_data i))) (di_attrs i) ++ kind_diags (di_data i) (container_tag i)) ++ data_diags i.

  Lemma d_container_attrs_logs i : let r := container_attrs_from_ast pe pp i in
    let ds := owner_diags OContainer (PContainer (kind_of_data (di_data i))) (di_attrs i) ++ kind_diags (di_data i) (container_tag i) in
    logs (d_container_attrs pe pp debug i) (fst r) ds /\ length ds = length (snd r).
  Proof.
    cbn zeta. destruct (parse_logs pe pp debug OContainer (PContainer (kind_of_data (di_data i))) (di_attrs i)) as (v & H1 & H2 & H3 & H4).
    unfold container_attrs_from_ast, d_container_attrs, container_tag.
    destruct (parse_attrs pe pp (PContainer (kind_of_data (di_data i))) (di_attrs i)) as [s es]. cbn [fst snd] in *. subst s.
    set (tag := decide_tag _ _ _). destruct (at_most_one (s_types (fst v))) as [t dup]. destruct (d_model_kind_logs (di_data i) tag) as [H5 H6].
    destruct (decide_model_kind (di_data i) tag) as [mk bad]. cbn [fst snd] in *. rewrite !app_length. split; [|lia].
    unfold owner_diags. rewrite <- app_assoc. eapply logs_bind; [exact H1|]. cbn zeta. fold tag. eapply logs_bind; [exact H3|].
    eapply logs_then; [exact H5|]. apply logs_ret.
  Qed.

  Lemma d_data_logs i : exists od es', logs (d_data pe pp debug i) od (data_diags i) /\ length (data_diags i) = length es' /\
    container_from_ast pe pp uni_upper i =
      (let (a, es) := container_attrs_from_ast pe pp i in
       match od with
       | None => (FaNone, es ++ es')
       | Some d =>
           match rename_data uni_upper (ca_rename_rule a) d with
           | None => (FaPanic, es ++ es')
           | Some d' =>
               (FaSome {| c_ident := di_ident i;
                          c_attrs := {| ca_name := ca_name a; ca_rename_rule := ca_rename_rule a;
                                        ca_transparent := ca_transparent a; ca_tag_type := ca_tag_type a;
                                        ca_has_flatten := any_flatten d || ca_has_flatten a;
                                        ca_has_repr := ca_has_repr a;
                                        ca_description := ca_description a; ca_format := ca_format a;
                                        ca_example := ca_example a; ca_inline := ca_inline a;
                                        ca_nullable := ca_nullable a; ca_explicit := ca_explicit a;
                                        ca_model_kind := ca_model_kind a |};
                          c_data := d' |}, es ++ es')
           end
       end).
  Proof.
    unfold d_data, data_diags, container_from_ast. destruct (container_attrs_from_ast pe pp i) as [a es].
    destruct (di_data i) as [vs|f|].
    - destruct (consistent_discriminants vs).
      + destruct (d_variants_logs 0 vs) as [H1 H2]. destruct (variants_from_ast pe pp vs) as [l es']. cbn [fst snd] in *.
        exists (Some (Enum l)), es'. split; [eapply logs_then; [exact H1|apply logs_ret]|]. split; [exact H2|reflexivity].
      + exists None, [EDiscriminants]. split; [eapply logs_then; [apply logs_report|apply logs_ret]|]. split; reflexivity.
    - destruct (d_struct_logs None f) as [H1 H2]. destruct (struct_from_ast pe pp f) as [[st fs] es']. cbn [fst snd] in *.
      exists (Some (Struct st fs)), es'. split; [eapply logs_then; [exact H1|apply logs_ret]|]. split; [exact H2|reflexivity].
    - exists None, [EUnion]. split; [eapply logs_then; [apply logs_report|apply logs_ret]|]. split; reflexivity.
  Qed.

  (** what is shown, against what Derive.v gives *)
  Lemma shows_refines i :
    match derive pe pp uni_upper eval_expr i with
    | DOk t => derive_shows pe pp uni_upper eval_expr debug i = Written t /\ all_diags i = []
    | DErr es => derive_shows pe pp uni_upper eval_expr debug i = Errors (all_diags i) /\ length (all_diags i) = length es /\ all_diags i <> []
    | DPanic => derive_shows pe pp uni_upper eval_expr debug i = Panics /\ (all_diags i = [] \/ misnamed pe pp i)
    end.
  Proof.
    assert (Hmis := from_ast_panics pe pp uni_upper i). unfold derive, derive_shows.
    destruct (d_container_attrs_logs i) as [H1 H2]. destruct (d_data_logs i) as (od & es' & H3 & H4 & H5). rewrite H5 in *.
    assert (Hlen : length (all_diags i) = length (snd (container_attrs_from_ast pe pp i) ++ es')).
    { unfold all_diags. rewrite (app_length _ (data_diags i)), (app_length _ es'), H2, H4. reflexivity. }
    destruct (container_attrs_from_ast pe pp i) as [a es]. cbn [fst snd] in *.
    assert (Hc : exists o, d_container pe pp uni_upper debug i pcx_new = (o, Some (all_diags i)) /\
              o = match od with
                  | None => Val None
                  | Some d =>
                      match rename_data uni_upper (ca_rename_rule a) d with
                      | None => Unwinds
                      | Some d' =>
                          Val (Some {| c_ident := di_ident i;
                          c_attrs := {| ca_name := ca_name a; ca_rename_rule := ca_rename_rule a;
                                        ca_transparent := ca_transparent a; ca_tag_type := ca_tag_type a;
                                        ca_has_flatten := any_flatten d || ca_has_flatten a;
                                        ca_has_repr := ca_has_repr a;
                                        ca_description := ca_description a; ca_format := ca_format a;
                                        ca_example := ca_example a; ca_inline := ca_inline a;
                                        ca_nullable := ca_nullable a; ca_explicit := ca_explicit a;
                                        ca_model_kind := ca_model_kind a |};
                          c_data := d' |})
                      end
                  end).
    { eexists. split; [|reflexivity]. unfold d_container, bind_m, pcx_new. rewrite H1, H3.
      change (([] ++ (owner_diags OContainer (PContainer (kind_of_data (di_data i))) (di_attrs i) ++
              kind_diags (di_data i) (container_tag i))) ++ data_diags i) with (all_diags i).
      destruct od as [d|]; [|reflexivity]. now destruct (rename_data uni_upper (ca_rename_rule a) d). }
    destruct Hc as (o & -> & ->).
    destruct od as [d|]; cycle 1.
    { cbn [check]. destruct (es ++ es') as [|e l]; [destruct (all_diags i); [split; [reflexivity|now left]|discriminate]|].
      destruct (all_diags i) as [|d0 ds]; [discriminate|]. repeat split; [exact Hlen|discriminate]. }
    destruct (rename_data uni_upper (ca_rename_rule a) d) as [d'|]; [|split; [reflexivity|right; now apply Hmis]].
    cbn [check]. destruct (es ++ es') as [|e l].
    - destruct (all_diags i); [|discriminate].
      destruct (serialize_body eval_expr _); (split; [reflexivity|]); [reflexivity|now left].
    - destruct (all_diags i) as [|d0 ds]; [discriminate|]. repeat split; [exact Hlen|discriminate].
  Qed.

  (** ** What is in there, and in which order *)
  Lemma tag_none i : di_data i = DaEnum (match di_data i with DaEnum vs => vs | _ => [] end) ->
    (container_tag i = TagNone <-> untagged_only pe pp (di_attrs i)).
  Proof.
    intros E. unfold container_tag. rewrite E. cbn [kind_of_data].
    destruct (parse_logs pe pp debug OContainer (PContainer DkEnum) (di_attrs i)) as (v & H1 & <- & _).
    assert (Hs := parse_some_set _ _ _ _ H1). unfold untagged_only.
    rewrite <- (Hs KUntagged), <- (Hs KTag), <- (Hs KContent) by discriminate. cbn [get].
    destruct (s_untagged (fst v)), (s_tag (fst v)), (s_content (fst v)); cbn; split; try discriminate; try (repeat split; congruence);
      intros (Ha & Hb & Hc); try (destruct Hb; discriminate); try (destruct Hc; discriminate); try (destruct Ha; reflexivity); reflexivity.
  Qed.
  Lemma all_units (vs : list (variant_syn ty)) : forallb (fun v => is_unit (vs_fields v)) vs = true <-> (forall v, In v vs -> unit_variant v).
  Proof.
    rewrite forallb_forall. unfold unit_variant. split; intros H v Hv; specialize (H v Hv); [destruct (vs_fields v); [discriminate|discriminate|reflexivity]|now rewrite H].
  Qed.

  Lemma all_diags_iff i d : In d (all_diags i) <-> complains i d.
  Proof.
    unfold all_diags. rewrite !in_app_iff, owner_diags_iff. split.
    - intros [[H|H]|H].
      + eapply cs_attrs; [apply la_container|exact H].
      + revert H. unfold kind_diags. destruct (di_data i) as [vs|[l|l|]|] eqn:Ed; try (intros []; fail).
        * destruct (forallb _ vs) eqn:Eu; [|intros []]. destruct (container_tag i) eqn:Et; try (intros []; fail). intros [<-|[]].
          eapply cs_untagged; [exact Ed|now apply all_units|]. apply tag_none; [now rewrite Ed|exact Et].
        * intros [<-|[]]. now apply cs_unit.
        * intros [<-|[]]. now apply cs_union.
      + revert H. unfold data_diags. destruct (di_data i) as [vs|f|] eqn:Ed.
        * destruct (consistent_discriminants vs) eqn:Ec.
          { assert (Hm : ~ mixed_discriminants vs) by (intros Hm; apply mixed_iff in Hm; congruence).
            rewrite mdiags_in. intros (o & pos & l & Hin & Hc). apply in_variant_members in Hin as (k & v & _ & Hn & Hin).
            rewrite PeanoNat.Nat.sub_0_r in Hn. eapply cs_attrs; [|exact Hc]. destruct Hin as [[= -> -> ->]|(j & f & Hj & [= -> -> ->])].
            - eapply la_variant; eassumption.
            - eapply la_variant_field; eassumption. }
          { apply mixed_iff in Ec. intros [<-|[]]. eapply cs_discriminants; eassumption. }
        * rewrite mdiags_in. intros (o & pos & l & Hin & Hc). apply in_field_members in Hin as (j & f' & _ & Hn & [= -> -> ->]).
          rewrite PeanoNat.Nat.sub_0_r in Hn. eapply cs_attrs; [|exact Hc]. eapply la_field; eassumption.
        * intros [<-|[]]. now apply cs_union_again.
    - destruct 1 as [o pos l d Hl Hc|vs Ed Hu Ht|Ed|Ed|Ed|vs Ed Hm].
      + destruct Hl as [|vs k v Ed Hm Hn|vs k v j f Ed Hm Hn Hj|fs j f Ed Hj]; [left; left; exact Hc| | |]; right; unfold data_diags; rewrite Ed.
        * destruct (consistent_discriminants vs) eqn:Ec; [|destruct Hm; now apply mixed_iff].
          apply mdiags_in. do 3 eexists. split; [|exact Hc]. apply in_variant_members. exists k, v. rewrite PeanoNat.Nat.sub_0_r.
          split; [lia|]. split; [exact Hn|]. now left.
        * destruct (consistent_discriminants vs) eqn:Ec; [|destruct Hm; now apply mixed_iff].
          apply mdiags_in. do 3 eexists. split; [|exact Hc]. apply in_variant_members. exists k, v. rewrite PeanoNat.Nat.sub_0_r.
          split; [lia|]. split; [exact Hn|]. right. now exists j, f.
        * apply mdiags_in. do 3 eexists. split; [|exact Hc]. apply in_field_members. exists j, f. rewrite PeanoNat.Nat.sub_0_r.
          split; [lia|]. now split.
      + left. right. apply tag_none in Ht; [|now rewrite Ed]. unfold kind_diags. rewrite Ed, Ht. apply all_units in Hu. rewrite Hu. now left.
      + left. right. unfold kind_diags. rewrite Ed. now left.
      + left. right. unfold kind_diags. rewrite Ed. now left.
      + right. unfold data_diags. rewrite Ed. now left.
      + right. unfold data_diags. rewrite Ed. apply mixed_iff in Hm. rewrite Hm. now left.
  Qed.

  Lemma kind_ranked d t x : In x (kind_diags d t) -> ranked x [0; 0; 2; 0; 0].
  Proof.
    unfold kind_diags. destruct d as [vs|[l|l|]|]; try (intros []; fail).
    - destruct (forallb _ vs), t; try (intros []; fail). intros [<-|[]]. now apply rk_ident.
    - intros [<-|[]]. now apply rk_ident.
    - intros [<-|[]]. now apply rk_ident.
  Qed.
  Lemma data_ranked i x : In x (data_diags i) -> ranked x [0; 0; 3; 0; 0] \/ exists n r, ranked x (S n :: r).
  Proof.
    unfold data_diags. destruct (di_data i) as [vs|f|].
    - destruct (consistent_discriminants vs).
      + intros H. apply mdiags_ranked in H as (m & r & Hin & H). right. apply in_variant_members in Hin as (k & v & _ & _ & Hin).
        destruct Hin as [->|(j & f & _ & ->)]; cbn in H; eauto.
      + intros [<-|[]]. left. now apply rk_variants.
    - intros H. apply mdiags_ranked in H as (m & r & Hin & H). right. apply in_field_members in Hin as (j & f' & _ & _ & ->). cbn in H. eauto.
    - intros [<-|[]]. left. now apply rk_input.
  Qed.
  Lemma all_diags_sorted i : StronglySorted comes_before (all_diags i).
  Proof.
    unfold all_diags. apply sorted_app; [apply sorted_app; [apply owner_sorted| |]| |].
    - unfold kind_diags. destruct (di_data i) as [vs|[l|l|]|]; repeat constructor. destruct (forallb _ vs), (container_tag i); repeat constructor.
    - intros x y Hx Hy. apply container_ranked in Hx as (n & r & Hn & Hx). apply kind_ranked in Hy.
      do 2 eexists. split; [exact Hx|]. split; [exact Hy|]. apply lex_tail, lex_tail, lex_head. exact Hn.
    - unfold data_diags. destruct (di_data i) as [vs|f|].
      + destruct (consistent_discriminants vs); [apply mdiags_sorted, variant_members_sorted|repeat constructor].
      + apply mdiags_sorted, field_members_sorted.
      + repeat constructor.
    - intros x y Hx Hy.
      assert (Hx' : exists n r, n < 3 /\ ranked x (0 :: 0 :: n :: r)).
      { apply in_app_or in Hx as [Hx|Hx].
        - apply container_ranked in Hx as (n & r & Hn & Hx). exists n, r. split; [lia|exact Hx].
        - apply kind_ranked in Hx. exists 2, [0; 0]. split; [lia|exact Hx]. }
      destruct Hx' as (n & r & Hn & Hx'). apply data_ranked in Hy as [Hy|(m & r' & Hy)].
      + do 2 eexists. split; [exact Hx'|]. split; [exact Hy|]. apply lex_tail, lex_tail, lex_head. exact Hn.
      + do 2 eexists. split; [exact Hx'|]. split; [exact Hy|]. apply lex_head. lia.
  Qed.

  (** [comes_before] is irreflexive: the rank is a function *)
  Lemma ranked_fun d r1 r2 : ranked d r1 -> ranked d r2 -> r1 = r2.
  Proof.
    destruct 1 as [o a i p H1 H2|o a i p H1 H2|o a H1|o a H1|H1|H1|H1]; destruct 1 as [o' a' i' p' H1' H2'|o' a' i' p' H1' H2'|o' a' H1'|o' a' H1'|H1'|H1'|H1'];
      rewrite H1 in H1'; try discriminate H1'; try (injection H1' as <- <- <- <-); try (injection H1' as <- <-); try reflexivity; contradiction.
  Qed.
  Lemma lex_irr r : ~ lex_lt r r.
  Proof. intros H. remember r as r2 eqn:E in H at 2. revert E. induction H; intros [=]; subst; [lia|auto]. Qed.
  Lemma sorted_nodup l : StronglySorted comes_before l -> NoDup l.
  Proof.
    induction 1 as [|d l H IH Hd]; constructor; [|exact IH]. intros Hin. rewrite Forall_forall in Hd. apply Hd in Hin.
    destruct Hin as (r1 & r2 & H1 & H2 & H3). rewrite (ranked_fun _ _ _ H1 H2) in H3. exact (lex_irr _ H3).
  Qed.

  Lemma shows_never_aborts i : derive_shows pe pp uni_upper eval_expr debug i <> Aborts.
  Proof. assert (H := shows_refines i). destruct (derive _ _ _ _ i); destruct H as [-> _]; discriminate. Qed.
  Lemma shows_errors i l : derive_shows pe pp uni_upper eval_expr debug i = Errors l -> l = all_diags i.
  Proof.
    intros E. assert (H := shows_refines i). destruct (derive _ _ _ _ i); destruct H as [H _]; rewrite H in E; try discriminate.
    now injection E as <-.
  Qed.

  Lemma shows_in i l : derive_shows pe pp uni_upper eval_expr debug i = Errors l -> forall d, In d l <-> complains i d.
  Proof. intros E d. apply shows_errors in E as ->. apply all_diags_iff. Qed.
  Lemma shows_sorted i l : derive_shows pe pp uni_upper eval_expr debug i = Errors l -> StronglySorted comes_before l /\ NoDup l.
  Proof. intros E. apply shows_errors in E as ->. assert (H := all_diags_sorted i). split; [exact H|now apply sorted_nodup]. Qed.
  Lemma shows_when i : (exists l, derive_shows pe pp uni_upper eval_expr debug i = Errors l) <-> (exists d, complains i d) /\ ~ misnamed pe pp i.
  Proof.
    assert (H := shows_refines i). assert (Hm := from_ast_panics pe pp uni_upper i).
    split.
    - intros [l E]. assert (Hl := E). apply shows_errors in Hl. subst l. unfold derive in H.
      destruct (container_from_ast pe pp uni_upper i) as [[|c|] es]; cbn [fst] in Hm.
      + destruct es as [|e es]; [destruct H as [H _]; congruence|]. destruct H as (_ & _ & H).
        split; [|intros Hc; apply Hm in Hc; discriminate]. destruct (all_diags i) as [|d ds] eqn:Ea; [congruence|].
        exists d. apply all_diags_iff. rewrite Ea. now left.
      + destruct es as [|e es]; [destruct (serialize_body eval_expr c); destruct H as [H _]; congruence|]. destruct H as (_ & _ & H).
        split; [|intros Hc; apply Hm in Hc; discriminate]. destruct (all_diags i) as [|d ds] eqn:Ea; [congruence|].
        exists d. apply all_diags_iff. rewrite Ea. now left.
      + destruct H as [H _]. congruence.
    - intros [[d Hd] Hn]. apply all_diags_iff in Hd. destruct (derive _ _ _ _ i).
      + destruct H as [_ H]. rewrite H in Hd. destruct Hd.
      + destruct H as [H _]. eauto.
      + destruct H as [_ [H|H]]; [rewrite H in Hd; destruct Hd|contradiction].
  Qed.
  Lemma shows_same i :
    match derive pe pp uni_upper eval_expr i with
    | DOk t => derive_shows pe pp uni_upper eval_expr debug i = Written t
    | DErr es => exists l, derive_shows pe pp uni_upper eval_expr debug i = Errors l /\ length l = length es
    | DPanic => derive_shows pe pp uni_upper eval_expr debug i = Panics
    end.
  Proof.
    assert (H := shows_refines i). destruct (derive _ _ _ _ i); [apply H| |apply H]. destruct H as (H1 & H2 & _). eauto.
  Qed.
End Facts.

Lemma shows_all pe pp uni ev debug i o pos l d : ~ misnamed pe pp i ->
  looked_at i o pos l -> complaint pe pp debug o pos l d -> exists l', derive_shows pe pp uni ev debug i = Errors l' /\ In d l'.
Proof.
  intros Hm Hl Hc. assert (Hd : complains pe pp debug i d) by (eapply cs_attrs; eassumption).
  destruct (proj2 (shows_when pe pp uni ev debug i)) as [l' E]; [split; [now exists d|exact Hm]|]. exists l'. split; [exact E|].
  now apply (shows_in pe pp uni ev debug i l' E).
Qed.

Lemma key_name_inj k1 k2 : key_name k1 = key_name k2 -> k1 = k2.
Proof. destruct k1, k2; try reflexivity; discriminate. Qed.
Lemma quoted_inj k1 k2 : in_quotes "duplicate opg attribute " (u (key_name k1)) = in_quotes "duplicate opg attribute " (u (key_name k2)) -> k1 = k2.
Proof. destruct k1, k2; intros H; try reflexivity; vm_compute in H; discriminate. Qed.
Lemma own_inj p1 p2 s1 s2 : own p1 s1 = own p2 s2 -> p1 = p2 /\ s1 = s2.
Proof. intros H. split; [exact (f_equal dg_at H)|]. apply (f_equal dg_text) in H. cbn in H. congruence. Qed.
Lemma shows_named pe pp uni ev debug i l o a j p k :
  derive_shows pe pp uni ev debug i = Errors l -> k <> KType ->
  In (own (AtPart o a j p) (in_quotes "duplicate opg attribute " (u (key_name k)))) l -> p = PaPath \/ p = PaItem ->
  exists pos attrs a1 j1, looked_at i o pos attrs /\ earlier a1 j1 a j /\ sets_at pe pp pos attrs a1 j1 k /\ sets_at pe pp pos attrs a j k.
Proof.
  intros E Hk Hin Hp. apply (shows_in _ _ _ _ _ _ _ E) in Hin. inversion Hin as [o' pos attrs d Hl Hc Hd|? ? ? ? Hd|? Hd|? Hd|? Hd|? ? ? Hd]; try discriminate Hd.
  subst d. clear Hin. remember (own (AtPart o a j p) (in_quotes "duplicate opg attribute " (u (key_name k)))) as d eqn:Ed.
  destruct Hc as [a' x f Hx Hb Hm|a' x f Hx Hb Hm|a' i' f n p' s Hi Hw|a1 i1 a' i' k' H1 H2 He Hk'|a1 i1 a' i' H1 H2 He Hu].
  - discriminate Ed.
  - discriminate Ed.
  - exfalso. apply own_inj in Ed as [[= _ -> -> ->] Et].
    revert Hp Et. destruct Hw; intros Hp Et; try (destruct k; vm_compute in Et; discriminate). destruct Hp; congruence.
  - apply own_inj in Ed as [Ea Et]. injection Ea; intros; subst a' i' o'. apply quoted_inj in Et as ->. exists pos, attrs, a1, i1. exact (conj Hl (conj He (conj H1 H2))).
  - exfalso. apply own_inj in Ed as [_ Et]. destruct k; vm_compute in Et; discriminate.
Qed.
