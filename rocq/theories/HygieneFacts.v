(** Proofs for C73. *)
From Verif Require Import HygieneSpec.
From Verif Require Import DeriveFacts5.
Local Open Scope string_scope. Local Open Scope list_scope.

Definition allowed : list var := [V_cx; V_properties; V_required].
Definition quiet (e : expr) : Prop := forall sc s v, ~ stands sc e s v.
Definition fine (e : expr) : Prop := forall sc s v, incl sc allowed -> stands sc e s v -> incl v allowed.
Definition fine_stmt (st : stmt) : Prop := forall sc s v, incl sc allowed -> stands_stmt sc st s v -> incl v allowed.

Lemma quiet_fine e : quiet e -> fine e.
Proof. intros H sc s v _ Hs. now apply H in Hs. Qed.

Lemma quiet_str s : quiet (EStr s). Proof. intros sc s' v H. inversion H. Qed.
Lemma quiet_stringify s : quiet (EStringify s). Proof. intros sc s' v H. inversion H. Qed.
Lemma quiet_bool b : quiet (EBool b). Proof. intros sc s' v H. inversion H. Qed.
Lemma quiet_var x : quiet (EVar x). Proof. intros sc s' v H. inversion H. Qed.
Lemma quiet_ctor c l : Forall quiet l -> quiet (ECtor c l).
Proof. intros Hl sc s v H. inversion H; subst. rewrite Forall_forall in Hl. eapply Hl; eauto. Qed.
Lemma quiet_fun c l : Forall quiet l -> quiet (EFun c l).
Proof. intros Hl sc s v H. inversion H; subst. rewrite Forall_forall in Hl. eapply Hl; eauto. Qed.
Lemma quiet_vec l : Forall quiet l -> quiet (EVec l).
Proof. intros Hl sc s v H. inversion H; subst. rewrite Forall_forall in Hl. eapply Hl; eauto. Qed.
Lemma quiet_format f l : Forall quiet l -> quiet (EFormat f l).
Proof. intros Hl sc s v H. inversion H; subst. rewrite Forall_forall in Hl. eapply Hl; eauto. Qed.
Lemma quiet_trait t f l : Forall quiet l -> quiet (ETrait t f l).
Proof. intros Hl sc s v H. inversion H; subst. rewrite Forall_forall in Hl. eapply Hl; eauto. Qed.
Lemma quiet_struct t fs r : Forall (fun x => quiet (snd x)) fs -> quiet (EStruct t fs r).
Proof. intros Hl sc s v H. inversion H; subst. rewrite Forall_forall in Hl. match goal with Hi : In _ fs |- _ => apply (Hl _) in Hi; eapply Hi; eauto end. Qed.
Lemma quiet_meth e m l : quiet e -> Forall quiet l -> quiet (EMeth e m l).
Proof. intros He Hl sc s v H. inversion H; subst; [eapply He; eauto|]. rewrite Forall_forall in Hl. eapply Hl; eauto. Qed.

Lemma fine_ctor c l : Forall fine l -> fine (ECtor c l).
Proof. intros Hl sc s v Hi H. inversion H; subst. rewrite Forall_forall in Hl. eapply Hl; eauto. Qed.
Lemma fine_fun c l : Forall fine l -> fine (EFun c l).
Proof. intros Hl sc s v Hi H. inversion H; subst. rewrite Forall_forall in Hl. eapply Hl; eauto. Qed.
Lemma fine_vec l : Forall fine l -> fine (EVec l).
Proof. intros Hl sc s v Hi H. inversion H; subst. rewrite Forall_forall in Hl. eapply Hl; eauto. Qed.
Lemma fine_trait t f l : Forall fine l -> fine (ETrait t f l).
Proof. intros Hl sc s v Hi H. inversion H; subst. rewrite Forall_forall in Hl. eapply Hl; eauto. Qed.
Lemma fine_struct t fs r : Forall (fun x => fine (snd x)) fs -> fine (EStruct t fs r).
Proof. intros Hl sc s v Hi H. inversion H; subst. rewrite Forall_forall in Hl. match goal with Hj : In _ fs |- _ => apply (Hl _) in Hj; eapply Hj; eauto end. Qed.
Lemma fine_meth e m l : fine e -> Forall fine l -> fine (EMeth e m l).
Proof. intros He Hl sc s v Hi H. inversion H; subst; [eapply He; eauto|]. rewrite Forall_forall in Hl. eapply Hl; eauto. Qed.
Lemma fine_mention e t l : fine e -> Forall fine l -> fine (EMention e t l).
Proof. intros He Hl sc s v Hi H. inversion H; subst; [eapply He; eauto|]. rewrite Forall_forall in Hl. eapply Hl; eauto. Qed.
Lemma fine_ref e : fine e -> fine (ERef e). Proof. intros He sc s v Hi H. inversion H; subst. eapply He; eauto. Qed.
Lemma fine_paren e : fine e -> fine (EParen e). Proof. intros He sc s v Hi H. inversion H; subst. eapply He; eauto. Qed.
Lemma fine_user s : fine (EUser s). Proof. intros sc s' v Hi H. inversion H; subst. exact Hi. Qed.

(** a block that binds allowed names only *)
Lemma bound_by_app a b : bound_by (a ++ b) = bound_by b ++ bound_by a.
Proof.
  induction a as [|st a IH]; cbn; [now rewrite app_nil_r|].
  destruct st; cbn; rewrite IH; try reflexivity. now rewrite app_assoc.
Qed.
Lemma fine_block ss e : incl (bound_by ss) allowed -> Forall fine_stmt ss -> fine e -> fine (EBlock ss e).
Proof.
  intros Hb Hss He sc s v Hi H. inversion H; subst.
  - rewrite Forall_forall in Hss. eapply Hss; [apply in_or_app; right; left; reflexivity| |eassumption].
    apply incl_app; [|assumption]. rewrite bound_by_app in Hb. cbn in Hb.
    intros y Hy. apply Hb. apply in_or_app. right. exact Hy.
  - eapply He; [|eassumption]. now apply incl_app.
Qed.
Lemma fine_let x e : fine e -> fine_stmt (SLet x e). Proof. intros He sc s v Hi H. inversion H; subst. eapply He; eauto. Qed.
Lemma fine_under e : fine e -> fine_stmt (SLetUnder e). Proof. intros He sc s v Hi H. inversion H; subst. eapply He; eauto. Qed.
Lemma fine_expr e : fine e -> fine_stmt (SExpr e). Proof. intros He sc s v Hi H. inversion H; subst. eapply He; eauto. Qed.
Lemma fine_empty : fine_stmt SEmpty. Proof. intros sc s v Hi H. inversion H. Qed.

Ltac quiets := repeat first
  [ apply quiet_str | apply quiet_stringify | apply quiet_bool | apply quiet_var | assumption
  | apply quiet_ctor | apply quiet_fun | apply quiet_vec | apply quiet_format | apply quiet_trait | apply quiet_struct
  | apply quiet_meth | apply Forall_nil | apply Forall_cons; cbn [snd] ].
Ltac fines := repeat first
  [ assumption | solve [apply quiet_fine; quiets]
  | apply fine_ctor | apply fine_fun | apply fine_vec | apply fine_trait | apply fine_struct | apply fine_meth | apply fine_mention
  | apply fine_ref | apply fine_paren | apply fine_user | apply fine_let | apply fine_under | apply fine_expr | apply fine_empty
  | apply Forall_nil | apply Forall_cons; cbn [snd] ].

Lemma quiet_option_string o : quiet (option_string o). Proof. destruct o; cbn; unfold owned; quiets. Qed.
Lemma quiet_option_bool o : quiet (option_bool o). Proof. destruct o; cbn; quiets. Qed.
Lemma fine_option_to_string o : fine (option_to_string_expr o). Proof. destruct o as [[s|s]|]; cbn; fines. Qed.
Lemma fine_tokenize p : fine (tokenize p).
Proof.
  unfold tokenize. apply fine_struct. repeat apply Forall_cons; cbn [snd]; try apply Forall_nil;
    try apply fine_option_to_string; apply quiet_fine; first [apply quiet_option_string | apply quiet_option_bool | solve [quiets]].
Qed.
Lemma fine_model d x : fine d -> fine x -> fine (q_model d x). Proof. intros. unfold q_model. fines. Qed.
Lemma fine_single b x : fine x -> fine (q_single (EBool b) x). Proof. intros. unfold q_single. fines. Qed.
Lemma fine_one_of l : Forall fine l -> fine (q_one_of l). Proof. intros. unfold q_one_of. fines. Qed.
Lemma fine_simple f e : fine f -> fine e -> fine (q_simple f e). Proof. intros. unfold q_simple. fines. Qed.
Lemma fine_string v d : fine v -> fine d -> fine (q_string v d). Proof. intros. unfold q_string. fines. Qed.
Lemma quiet_owned s : quiet (owned s). Proof. unfold owned. quiets. Qed.
Lemma quiet_names l : quiet (q_names l).
Proof. unfold q_names. apply quiet_vec. apply Forall_forall. intros e He. apply in_map_iff in He as (x & <- & _). apply quiet_owned. Qed.
Lemma fine_os o : fine (option_string o). Proof. apply quiet_fine, quiet_option_string. Qed.
Lemma fine_owned s : fine (owned s). Proof. apply quiet_fine, quiet_owned. Qed.

Lemma try_map_all {A B} (f : A -> option B) (P : B -> Prop) l r : (forall a b, f a = Some b -> P b) -> try_map f l = Some r -> Forall P r.
Proof.
  intros Hf. revert r. induction l as [|a l IH]; cbn; intros r H.
  - injection H as <-. constructor.
  - destruct (f a) as [b|] eqn:E; [|discriminate]. destruct (try_map f l) as [r'|]; [|discriminate]. injection H as <-.
    constructor; [eapply Hf; eauto|now apply IH].
Qed.

Lemma fine_newtype n p t e : newtype_model n p t = Some e -> fine e.
Proof.
  assert (Hs : fine (q_simple (option_string (cp_format p)) (option_to_string_expr (cp_example p))))
    by (apply fine_simple; [apply fine_os|apply fine_option_to_string]).
  unfold newtype_model. destruct t; cbn; intros H; try discriminate; injection H as <-; (apply fine_model; [apply fine_os|]); apply fine_single;
    try (apply fine_string; [fines|exact Hs]); fines.
Qed.
Lemma fine_reference p f b e : field_model_reference p f b = Some e -> fine e.
Proof.
  unfold field_model_reference. destruct (fa_explicit (f_attrs f)) as [t|].
  - assert (Hn : forall m, newtype_model (fa_nullable (f_attrs f)) p t = Some m -> fine (ECtor C_Inline [m])).
    { intros m Hm. apply fine_newtype in Hm. fines. }
    destruct (newtype_model (fa_nullable (f_attrs f)) p t) as [m|]; cbn.
    + specialize (Hn m eq_refl). destruct t; intros H; injection H as <-; try assumption. fines.
    + destruct t; intros H; try discriminate; injection H as <-; fines.
  - intros H. injection H as <-. pose proof (fine_tokenize p). fines.
Qed.
Lemma fine_tuple_desc fs inl e : tuple_type_description fs inl = Some e -> fine e.
Proof.
  unfold tuple_type_description. destruct (try_map _ fs) as [l|] eqn:E; [|discriminate]. intros H. injection H as <-.
  assert (Forall fine l) by (eapply try_map_all; [|exact E]; intros f0 b0 H0; exact (fine_reference _ _ _ _ H0)).
  assert (fine (q_model (ECtor C_None []) (q_one_of l))) by (apply fine_model; [fines|now apply fine_one_of]). fines.
Qed.
Lemma fine_property f b ss : property_stmts f b = Some ss -> Forall fine_stmt ss /\ bound_by ss = [].
Proof.
  unfold property_stmts. destruct (field_model_reference _ f b) as [r|] eqn:E; [|discriminate]. intros H. injection H as <-.
  apply fine_reference in E. split.
  - pose proof (fine_owned (n_serialized (fa_name (f_attrs f)))).
    apply Forall_cons; [|apply Forall_cons; [|apply Forall_nil]].
    + fines.
    + destruct (negb _); fines.
  - cbn. destruct (negb _); reflexivity.
Qed.
Lemma fine_object_desc : fine object_desc. Proof. unfold object_desc. fines. Qed.
Lemma allowed_new : incl (bound_by new_object) allowed.
Proof. unfold incl, allowed. cbn. intuition (subst; auto). Qed.
Lemma fine_new : Forall fine_stmt new_object. Proof. unfold new_object. fines. Qed.
Lemma bound_concat l : Forall (fun ss => bound_by ss = []) l -> bound_by (concat l) = [].
Proof. induction 1 as [|ss l Hs Hl IH]; cbn; [reflexivity|]. now rewrite bound_by_app, Hs, IH. Qed.
Lemma fine_object_type fs inl e : object_type_description fs inl = Some e -> fine e.
Proof.
  unfold object_type_description. destruct (try_map _ _) as [l|] eqn:E; [|discriminate]. intros H. injection H as <-.
  assert (Hl : Forall (fun ss => Forall fine_stmt ss /\ bound_by ss = []) l)
    by (eapply try_map_all; [|exact E]; cbn; intros ? ? ?; eapply fine_property; eauto).
  change (fine (EBlock (new_object ++ concat l) object_desc)). apply fine_block.
  - rewrite bound_by_app, bound_concat; [apply allowed_new|]. eapply Forall_impl; [|exact Hl]. cbn. tauto.
  - apply Forall_app. split; [apply fine_new|]. clear E. induction Hl as [|ss l [Hs _] Hl IH]; cbn; [constructor|]. apply Forall_app. auto.
  - apply fine_object_desc.
Qed.
Lemma fine_tuple_model n d fs inl e : tuple_model n d fs inl = Some e -> fine e.
Proof.
  unfold tuple_model. destruct (tuple_type_description fs inl) as [t|] eqn:E; [|discriminate]. intros H. injection H as <-.
  apply fine_tuple_desc in E. apply fine_model; [apply fine_os|now apply fine_single].
Qed.
Lemma fine_object_model n d fs inl e : object_model n d fs inl = Some e -> fine e.
Proof.
  unfold object_model. destruct (object_type_description fs inl) as [t|] eqn:E; [|discriminate]. intros H. injection H as <-.
  apply fine_object_type in E. apply fine_model; [apply fine_os|now apply fine_single].
Qed.
Lemma fine_newtype_variant v e : newtype_variant v = Some e -> fine e.
Proof. unfold newtype_variant. destruct (v_fields v); [discriminate|]. apply fine_reference. Qed.
Lemma fine_inline o e : option_map inline_reference o = Some e -> (forall m, o = Some m -> fine m) -> fine e.
Proof. destruct o as [m|]; [|discriminate]. intros H Hm. injection H as <-. specialize (Hm m eq_refl). unfold inline_reference. fines. Qed.

Ltac vary H := eapply fine_inline; [exact H|]; intros ? ?; first [eapply fine_tuple_model; eassumption | eapply fine_object_model; eassumption].
Lemma fine_untagged v e : untagged_variant v = Some e -> fine e.
Proof. unfold untagged_variant. destruct (v_style v); intros H; try discriminate; try (vary H); try (eapply fine_newtype_variant; eassumption). Qed.
Lemma fine_adjacent v e : adjacent_variant v = Some e -> fine e.
Proof. unfold adjacent_variant. destruct (v_style v); intros H; try discriminate; try (vary H); try (eapply fine_newtype_variant; eassumption). Qed.
Lemma fine_external v e : external_variant v = Some e -> fine e.
Proof.
  unfold external_variant. destruct (v_style v); intros H; try discriminate; try (vary H); try (eapply fine_newtype_variant; eassumption).
  injection H as <-. apply fine_ctor. repeat apply Forall_cons; try apply Forall_nil. apply fine_model; [apply fine_os|]. apply fine_single, fine_string.
  - apply quiet_fine. unfold owned. quiets.
  - unfold owned. apply fine_simple; fines.
Qed.
Lemma fine_internal v e : internal_model v = Some e -> fine e.
Proof.
  unfold internal_model. destruct (v_style v); intros H; try discriminate; try (eapply fine_object_model; eassumption).
  destruct (v_fields v); [discriminate|]. injection H as <-.
  match goal with |- context [tokenize ?p] => pose proof (fine_tokenize p) end. fines.
Qed.

(** the block for a tagged variant binds [model] and [additional_object], but no expression of the user is below these *)
Lemma quiet_block ss e : Forall (fun st => forall sc s v, ~ stands_stmt sc st s v) ss -> quiet e -> quiet (EBlock ss e).
Proof.
  intros Hss He sc s v H. inversion H; subst.
  - rewrite Forall_forall in Hss. eapply Hss; [apply in_or_app; right; left; reflexivity|eassumption].
  - eapply He; eassumption.
Qed.
Lemma quiet_let x e : quiet e -> forall sc s v, ~ stands_stmt sc (SLet x e) s v. Proof. intros He sc s v H. inversion H; subst. eapply He; eassumption. Qed.
Lemma quiet_under e : quiet e -> forall sc s v, ~ stands_stmt sc (SLetUnder e) s v. Proof. intros He sc s v H. inversion H; subst. eapply He; eassumption. Qed.
Lemma quiet_expr e : quiet e -> forall sc s v, ~ stands_stmt sc (SExpr e) s v. Proof. intros He sc s v H. inversion H; subst. eapply He; eassumption. Qed.
Lemma fine_first x e ss e' : fine e -> quiet (EBlock ss e') -> fine (EBlock (SLet x e :: ss) e').
Proof.
  intros He Hq sc s v Hi H. remember (SLet x e :: ss) as l eqn:El.
  inversion H as [| | | | | | | | | | | | | | |? ss1 st ss2 ? ? ? Hs Ea El2|? ? ? ? ? Hs| | | | | | | |]; clear H; subst.
  - destruct ss1 as [|st1 ss1]; injection El2 as -> <-.
    + inversion Hs; subst. eapply He; eassumption.
    + exfalso. cbn [bound_by] in Hs. rewrite <- app_assoc in Hs. eapply Hq. apply at_stmt. exact Hs.
  - exfalso. cbn [bound_by] in Hs. rewrite <- app_assoc in Hs. eapply Hq. apply at_end. exact Hs.
Qed.
Lemma fine_merge m tag n i b : fine m -> fine (merge_tag m tag n i b).
Proof.
  intros Hm. unfold merge_tag. apply fine_first; [exact Hm|].
  apply quiet_block; [repeat apply Forall_cons; try apply Forall_nil|quiets].
  - apply quiet_let, quiet_block; [repeat apply Forall_cons; try apply Forall_nil|unfold owned; quiets].
    + apply quiet_let. quiets.
    + apply quiet_expr. unfold q_model, q_single, q_string, q_simple, owned. quiets.
  - apply quiet_under. unfold q_model, q_single. quiets.
Qed.

Lemma fine_enum c vs e : serialize_enum c vs = Some e -> fine e.
Proof.
  unfold serialize_enum. destruct (ca_model_kind (c_attrs c)), (ca_tag_type (c_attrs c)) as [|tag|tag content|]; intros H; try discriminate;
    try (injection H as <-; unfold serialize_newtype_enum; destruct (ca_has_repr _);
         [apply fine_model; [apply fine_os|]; apply fine_one_of; apply Forall_forall; intros x Hx; apply in_map_iff in Hx as (y & <- & _);
          apply quiet_fine; unfold inline_reference, q_model, q_single, q_simple, owned; quiets
         |apply fine_model; [apply fine_os|]; apply fine_single, fine_string;
          [apply fine_ctor; repeat apply Forall_cons; try apply Forall_nil; apply quiet_fine, quiet_names|apply fine_simple; [fines|apply fine_os]]]).
  all: try (unfold serialize_external_tagged_enum in H; destruct (try_map _ _) as [l|] eqn:E; [|discriminate]; injection H as <-;
    assert (Forall fine l) by (eapply try_map_all; [|exact E]; intros ? ? ?; eapply fine_external; eassumption);
    assert (fine (q_model (option_string (ca_description (c_attrs c))) (q_one_of l))) by (apply fine_model; [apply fine_os|now apply fine_one_of]);
    apply fine_model; [apply fine_os|]; apply fine_single; fines).
  - unfold serialize_adjacent_tagged_enum in H. destruct (try_map _ _) as [l|] eqn:E; [|discriminate]. injection H as <-.
    assert (Forall fine l) by (eapply try_map_all; [|exact E]; intros ? ? ?; eapply fine_adjacent; eassumption).
    assert (fine (q_model (option_string (ca_description (c_attrs c))) (q_one_of l))) by (apply fine_model; [apply fine_os|now apply fine_one_of]).
    apply fine_model; [apply fine_os|]. apply fine_single. apply fine_block; [apply allowed_new| |apply fine_object_desc].
    pose proof (fine_owned tag). pose proof (fine_owned content).
    match goal with |- context [q_model ?d (q_single ?n (q_string ?v ?x))] => assert (fine (q_model d (q_single n (q_string v x)))) end.
    { apply fine_model; [fines|]. apply fine_single, fine_string.
      - apply fine_ctor. repeat apply Forall_cons; try apply Forall_nil. apply quiet_fine, quiet_names.
      - apply fine_simple; [fines|apply fine_os]. }
    fines.
  - unfold serialize_internal_tagged_enum in H. destruct (try_map _ _) as [l|] eqn:E; [|discriminate]. injection H as <-.
    apply fine_model; [apply fine_os|]. apply fine_one_of. eapply try_map_all; [|exact E]. cbn. intros v x Hx.
    destruct (internal_model v) as [m|] eqn:Em; [|discriminate]. injection Hx as <-. apply fine_merge. eapply fine_internal; eassumption.
  - unfold serialize_untagged_enum in H. destruct (try_map _ _) as [l|] eqn:E; [|discriminate]. injection H as <-.
    apply fine_model; [apply fine_os|]. apply fine_one_of. eapply try_map_all; [|exact E]. intros ? ? ?. eapply fine_untagged; eassumption.
Qed.
Lemma fine_body c e : serialize_body c = Some e -> fine e.
Proof.
  unfold serialize_body. destruct (c_data c) as [vs|[] fs]; intros H; try discriminate.
  - eapply fine_enum; eassumption.
  - unfold serialize_struct in H. destruct (object_type_description _ _) as [t|] eqn:E; [|discriminate]. injection H as <-.
    apply fine_object_type in E. apply fine_model; [apply fine_os|now apply fine_single].
  - unfold serialize_tuple_struct in H. destruct (tuple_type_description _ _) as [t|] eqn:E; [|discriminate]. injection H as <-.
    apply fine_tuple_desc in E. apply fine_model; [apply fine_os|now apply fine_single].
  - destruct fs as [|f fs]; [discriminate|]. unfold serialize_newtype_struct in H.
    destruct (ca_explicit (c_attrs c)) as [t|].
    + destruct t; try discriminate; eapply fine_newtype; eassumption.
    + injection H as <-. match goal with |- context [tokenize ?p] => pose proof (fine_tokenize p) end. fines.
Qed.

Lemma derived_scope parses_expr parses_path uni_upper self i c src seen :
  derive_code parses_expr parses_path uni_upper self i = CodeOk c -> stands_in_impl c src seen -> incl seen allowed.
Proof.
  unfold derive_code. destruct (container_from_ast _ _ _ i) as [[|k|] es]; try discriminate.
  - destruct es; discriminate.
  - destruct es; [|discriminate]. destruct (serialize_body k) as [b|] eqn:Eb; [|discriminate]. intros H. injection H as <-.
    apply fine_body in Eb. unfold implement_type. intros [H|[H|(f & Hf & H)]]; unfold stands_in, parameters in H; cbn in H.
    + eapply Eb; [|exact H]. intros x [<-|[]]. now left.
    + exfalso. destruct (ca_inline _); unfold no_name_fn in H; cbn in H;
        [assert (Hq : quiet (ECtor C_None [])) by quiets | match type of H with stands _ ?e _ _ => assert (Hq : quiet e) by quiets end]; eapply Hq; exact H.
    + exfalso. cbn in Hf. destruct (ca_inline _); [|discriminate]. injection Hf as <-. cbn in H.
      match type of H with stands _ ?e _ _ => assert (Hq : quiet e) by quiets end. eapply Hq; exact H.
Qed.

Lemma not_captured parses_expr parses_path uni_upper self i c src seen :
  derive_code parses_expr parses_path uni_upper self i = CodeOk c -> stands_in_impl c src seen ->
  ~ has_in_it src (u "cx") -> ~ has_in_it src (u "properties") -> ~ has_in_it src (u "required") -> ~ captured src seen.
Proof.
  intros Hd Hs H1 H2 H3 (x & Hx & Ht). apply (derived_scope _ _ _ _ _ _ _ _ Hd Hs) in Hx.
  destruct Hx as [<-|[<-|[<-|[]]]]; auto.
Qed.

Lemma unraw_spelled i n : spells i n -> unraw i = n.
Proof.
  intros [Hn [-> | ->]].
  - destruct n as [|a [|b n]]; try reflexivity. cbn [unraw]. destruct (N.eqb_spec a 114); [|reflexivity].
    destruct (N.eqb_spec b 35) as [->|]; [|reflexivity]. exfalso. apply Hn. right. now left.
  - cbn. destruct n as [|a [|b n]]; try reflexivity. cbn [unraw]. destruct (N.eqb_spec a 114); [|reflexivity].
    destruct (N.eqb_spec b 35) as [->|]; [|reflexivity]. exfalso. apply Hn. right. now left.
Qed.
Lemma const_names i j n m : spells i n -> spells j m ->
  const_name i = u "_IMPL_OPG_MODEL_FOR_" ++ n /\ (const_name i = const_name j <-> n = m) /\ ~ In hash (const_name i).
Proof.
  intros Hi Hj. unfold const_name. rewrite (unraw_spelled _ _ Hi), (unraw_spelled _ _ Hj). split; [reflexivity|]. split.
  - split; [|now intros ->]. intros H. repeat apply app_inv_head in H. exact H.
  - intros H. repeat (apply in_app_or in H as [H|H]); try (vm_compute in H; intuition discriminate). now apply Hi.
Qed.

From Verif Require Import DeriveExamples.
(** #[derive(OpgModel)] struct Page { #[opg(example_with = "required()")] total: i32, #[opg(example_with = "first() + 1")] next: i32 } *)
Definition i_page : derive_input ty :=
  item [] "Page" (DaStruct (FNamed
    [fld [opg_attr [str_value "example_with" "required()"]] "total" i32;
     fld [opg_attr [str_value "example_with" "first() + 1"]] "next" i32])).
Definition page_code : impl_code :=
  Eval cbv in match derive_code yes yes noupper (TNamed 0) i_page with CodeOk c => c | _ => implement_type (TNamed 0) [] EUnit false end.

Ltac at_field := eapply at_struct; [solve [cbn; repeat first [left; reflexivity|right]]|].
Lemma page_case : exists c, derive_code yes yes noupper (TNamed 0) i_page = CodeOk c /\
  stands_in_impl c (u "first() + 1") [V_required; V_properties; V_cx] /\
  ~ captured (u "first() + 1") [V_required; V_properties; V_cx] /\
  stands_in_impl c (u "required()") [V_required; V_properties; V_cx] /\
  captured (u "required()") [V_required; V_properties; V_cx].
Proof.
  exists page_code. split; [vm_compute; reflexivity|].
  assert (Hs : forall st src, In st (match fn_body (ic_get_schema page_code) with
      | EStruct _ [_; (_, ECtor _ [EStruct _ [_; (_, EBlock (_ :: _ :: ss) _)] _])] _ => ss | _ => [] end) ->
      (forall sc, stands_stmt sc st src sc) -> stands_in_impl page_code src [V_required; V_properties; V_cx]).
  { intros st src Hin Hst. left. unfold stands_in. 
    eapply at_struct with (f := Fd_data); [right; left; reflexivity|].
    eapply at_ctor; [left; reflexivity|]. eapply at_struct with (f := Fd_type_description); [right; left; reflexivity|].
    cbn in Hin. repeat destruct Hin as [Hin|Hin]; try contradiction; subst st.
    - exact (at_stmt [V_cx] [SLet V_properties _; SLet V_required _] _ _ _ _ _ (Hst _)).
    - exact (at_stmt [V_cx] [SLet V_properties _; SLet V_required _; SExpr _] _ _ _ _ _ (Hst _)).
    - exact (at_stmt [V_cx] [SLet V_properties _; SLet V_required _; SExpr _; SExpr _] _ _ _ _ _ (Hst _)).
    - exact (at_stmt [V_cx] [SLet V_properties _; SLet V_required _; SExpr _; SExpr _; SExpr _] _ _ _ _ _ (Hst _)). }
  assert (Hu : forall src x b t ss, In (SExpr (EMeth (EVar V_properties) M_insert
      [x; EMention (EVar V_cx) t [b; ERef (EStruct S_ContextParams ss false)]])) 
      (match fn_body (ic_get_schema page_code) with
      | EStruct _ [_; (_, ECtor _ [EStruct _ [_; (_, EBlock (_ :: _ :: ss) _)] _])] _ => ss | _ => [] end) ->
      In (Fd_example, ECtor C_Some [EMeth (EParen (EUser src)) M_to_string []]) ss ->
      stands_in_impl page_code src [V_required; V_properties; V_cx]).
  { intros src x b t ss Hin He. eapply Hs; [exact Hin|]. intros sc. apply at_expr.
    eapply at_meth_arg; [right; left; reflexivity|]. eapply at_mention_arg; [right; left; reflexivity|]. apply at_ref.
    eapply at_struct; [exact He|]. eapply at_ctor; [left; reflexivity|]. apply at_meth_self, at_paren, at_user. }
  split; [|split; [|split]].
  - eapply Hu; [right; right; left; reflexivity|]. do 4 right. left. reflexivity.
  - intros (x & Hx & a & b & E). assert (Hl := f_equal (@List.length N) E). rewrite !app_length in Hl. cbn [List.length u] in Hl.
    destruct Hx as [<-|[<-|[<-|[]]]]; cbn in E;
      repeat (destruct a as [|? a]; [cbn in E; discriminate E|cbn in E; injection E as _ E]); destruct a; discriminate E.
  - eapply Hu; [left; reflexivity|]. do 4 right. left. reflexivity.
  - exists V_required. split; [now left|]. exists [], (u "()"). reflexivity.
Qed.
Lemma some_captured : exists self i c src seen,
  derive_code yes yes noupper self i = CodeOk c /\ stands_in_impl c src seen /\ captured src seen.
Proof. destruct page_case as (c & Hc & _ & _ & Hs & Hx). exists (TNamed 0), i_page, c. do 2 eexists. repeat split; eassumption. Qed.
